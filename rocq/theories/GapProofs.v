(** * Proofs: polar and scalar operations on every float type. *)

From Coq Require Import ZArith Reals Lia Lra Bool List.
From Flocq Require Import Core.Core IEEE754.BinarySingleNaN.
From Verif Require Import Base FloatBase Traits IntImpl FixedPrim FixedImpl FloatImpl Complex Spec FloatLemmas FloatKit ScalarProofs ScalarProofs2 ComplexProofs ComplexProofs3.
Import ListNotations.
Open Scope Z_scope.

Lemma polar_scale : forall T (O : MixedOps T) p s r, polar_mul_real O p s = Ok r <-> o_mul O (mag p) s = Ok (mag r) /\ ang r = ang p.
Proof.
  intros. unfold polar_mul_real. destruct (o_mul O (mag p) s) as [v| |]; cbn [bind]; split; try discriminate; try (intros [? ?]; discriminate).
  - intros E. injection E as <-. auto.
  - intros [E A]. destruct r as [a b]. cbn in *. subst b. injection E as ->. reflexivity.
Qed.
Lemma bind_ok : forall A B (x : res A) (f : A -> res B) r, (y <- x ;; f y) = Ok r <-> exists y, x = Ok y /\ f y = Ok r.
Proof. intros A B [y| |] f r; cbn [bind]; split; try discriminate; try (intros (y' & E & _); discriminate); [eauto|intros (y' & E & F); injection E as ->; auto]. Qed.
Lemma scalar_iff : forall T1 T2 (O : MixedOps T2) (C : MixedNumConversion T1 T2) z s r,
  (cartesian_add_scalar O C z s = Ok r <-> exists c, mixed_from_num C s = Ok c /\ o_add O (re z) c = Ok (re r) /\ im r = im z) /\
  (cartesian_sub_scalar O C z s = Ok r <-> exists c, mixed_from_num C s = Ok c /\ o_sub O (re z) c = Ok (re r) /\ im r = im z) /\
  (cartesian_mul_scalar O C z s = Ok r <-> exists c, mixed_from_num C s = Ok c /\ o_mul O (re z) c = Ok (re r) /\ o_mul O (im z) c = Ok (im r)).
Proof.
  intros T1 T2 O C z s [a b]. unfold cartesian_add_scalar, cartesian_sub_scalar, cartesian_mul_scalar.
  destruct (mixed_from_num C s) as [c| |]; cbn [bind re im];
    [|split; [|split]; (split; [discriminate|intros (c & E & _); discriminate])..].
  assert (E : forall (x : res T2) (Q : T2 -> Prop), (exists c0, Ok c = Ok c0 /\ Q c0) <-> Q c) by (intros x Q; split; [intros (c' & E & H); injection E as ->; auto|eauto]).
  rewrite !(fun Q => E (Ok c) Q). split; [|split].
  - rewrite bind_ok. split; [intros (y & Y & F); injection F as -> ->; auto|intros [Y ->]; eauto].
  - rewrite bind_ok. split; [intros (y & Y & F); injection F as -> ->; auto|intros [Y ->]; eauto].
  - rewrite bind_ok. split.
    + intros (y & Y & F). apply bind_ok in F. destruct F as (w & W & F). injection F as -> ->. auto.
    + intros [Y W]. exists a. split; auto. rewrite W. reflexivity.
Qed.

Section Float.
Context {prec emax : Z} {Hp : Prec_gt_0 prec} {He : Prec_lt_emax prec emax}.
Notation float := (binary_float prec emax).
Lemma of_0 : float_of_Z prec emax 0 = B754_zero false. Proof. reflexivity. Qed.
Lemma eq_0 : forall x : float, o_eq float_ops x (B754_zero false) = true <-> Bcompare x (B754_zero false) = Some Eq.
Proof. intros x. unfold o_eq. cbn [o_cmp float_ops]. destruct (Bcompare x (B754_zero false)) as [[]|]; split; congruence. Qed.
Lemma polar_mul_float : forall p q : Polar float,
  (Bcompare (mag p) (B754_zero false) = Some Eq \/ Bcompare (mag q) (B754_zero false) = Some Eq -> polar_mul float_ops p q = Ok (mkP (B754_zero false) (B754_zero false))) /\
  (Bcompare (mag p) (B754_zero false) <> Some Eq -> Bcompare (mag q) (B754_zero false) <> Some Eq ->
     polar_mul float_ops p q = Ok (mkP (Bmult mode_NE (mag p) (mag q)) (Bplus mode_NE (ang p) (ang q)))).
Proof.
  intros p q. unfold polar_mul, ops_mul_polar. change (o_of_i32 float_ops 0) with (Ok (B754_zero false : float)). cbn [bind].
  destruct (o_eq float_ops (mag p) (B754_zero false)) eqn:E1; cbn [bind]; [|destruct (o_eq float_ops (mag q) (B754_zero false)) eqn:E2].
  - apply eq_0 in E1. split; auto. congruence.
  - apply eq_0 in E2. split; auto. congruence.
  - split; auto. intros [H|H]; apply eq_0 in H; congruence.
Qed.
Lemma polar_one_float : 1 < prec -> forall p : Polar float, Bcompare (mag p) (B754_zero false) <> Some Eq ->
  exists o r, polar_one float_zero float_one = Ok o /\ polar_mul float_ops p o = Ok r /\ polar_mul float_ops o p = Ok r /\ mag r = mag p /\
  (ang r = ang p \/ ang p = B754_zero true /\ ang r = B754_zero false).
Proof.
  intros P1 p N. exists (mkP Bone (B754_zero false)), (mkP (mag p) (Bplus mode_NE (ang p) (B754_zero false))).
  assert (B1 : Bcompare (Bone : float) (B754_zero false) <> Some Eq).
  { rewrite Bcompare_correct by (try apply is_finite_Bone; reflexivity). rewrite Bone_correct. cbn [B2R]. rewrite Rcompare_Gt by lra. discriminate. }
  split; [unfold polar_one; cbn [mixed_one mixed_zero float_one float_zero]; rewrite float_of_Z_one by auto; reflexivity|].
  split; [rewrite (proj2 (polar_mul_float p (mkP Bone (B754_zero false))) N B1); cbn [mag ang]; rewrite (Bmult_comm _ Bone), Bmult_Bone_l; reflexivity|].
  split; [rewrite (proj2 (polar_mul_float (mkP Bone (B754_zero false)) p) B1 N); cbn [mag ang]; rewrite Bmult_Bone_l, Bplus_comm; reflexivity|].
  split; [reflexivity|]. cbn [ang]. destruct (ang p) as [[]|[]| |]; cbn; auto.
Qed.
Lemma div_zero_float : forall p1 e1 {Hp1 : Prec_gt_0 p1} {He1 : Prec_lt_emax p1 e1} m t1 (z : Cartesian float) (p : Polar float) s, In t1 int_types ->
  cartesian_div_scalar float_ops float_ops (float_conv_float p1 e1) float_zero float_real z (B754_zero s : binary_float p1 e1) = Ok (mkC Bmax_float Bmax_float) /\
  cartesian_div_scalar (int_ops m t1) float_ops (float_conv_int t1) (int_zero t1) float_real z 0 = Ok (mkC Bmax_float Bmax_float) /\
  ops_div_scalar_cartesian float_ops float_real z (B754_zero s) = Ok (mkC Bmax_float Bmax_float) /\
  polar_div_real float_ops float_real float_zero p (B754_zero s) = Ok (mkP Bmax_float (ang p)).
Proof.
  intros p1 e1 Hp1 He1 m t1 z p s T. split; [|split; [|split]].
  - unfold cartesian_div_scalar. cbn [mixed_zero float_zero bind]. destruct s; reflexivity.
  - unfold cartesian_div_scalar. rewrite int_zero_eq by auto. reflexivity.
  - unfold ops_div_scalar_cartesian. change (o_of_i32 float_ops 0) with (Ok (B754_zero false : float)). cbn [bind]. destruct s; reflexivity.
  - unfold polar_div_real. cbn [mixed_zero float_zero bind]. destruct s; reflexivity.
Qed.
Lemma div_assign_zero_float : forall p1 e1 {Hp1 : Prec_gt_0 p1} {He1 : Prec_lt_emax p1 e1} m t1 (z : Cartesian float) s, In t1 int_types ->
  cartesian_div_assign_scalar float_ops float_ops (float_conv_float p1 e1) float_zero float_real z (B754_zero s : binary_float p1 e1) = Ok (mkC (B754_infinity s) (B754_infinity s)) /\
  cartesian_div_assign_scalar (int_ops m t1) float_ops (float_conv_int t1) (int_zero t1) float_real z 0 = Ok (mkC (B754_infinity false) (B754_infinity false)).
Proof.
  intros p1 e1 Hp1 He1 m t1 z s T. split.
  - unfold cartesian_div_assign_scalar. cbn [mixed_zero float_zero bind]. destruct s; reflexivity.
  - unfold cartesian_div_assign_scalar. rewrite int_zero_eq by auto. reflexivity.
Qed.
End Float.

(** ** narrowing *)
Section Narrow.
Context {prec emax : Z} {Hp : Prec_gt_0 prec} {He : Prec_lt_emax prec emax}.
Lemma narrow : forall p e {Hp2 : Prec_gt_0 p} {He2 : Prec_lt_emax p e} (x : binary_float p e), exists y, mixed_from_num (float_conv_float (prec := prec) (emax := emax) p e) x = Ok y /\
  (is_nan x = true -> is_nan y = true) /\
  (forall s, x = B754_infinity s -> y = B754_infinity s) /\
  (is_finite x = true -> let v := round radix2 (SpecFloat.fexp prec emax) ZnearestE (B2R x) in
     Bsign y = Bsign x /\
     ((Rabs v < bpow radix2 emax)%R -> is_finite y = true /\ B2R y = v) /\
     ((bpow radix2 emax <= Rabs v)%R -> y = B754_infinity (Bsign x))).
Proof.
  intros p e Hp2 He2 x. exists (float_of_float prec emax x). split; [reflexivity|].
  assert (V : Valid_exp (SpecFloat.fexp prec emax)) by (apply fexp_correct; auto).
  destruct x as [s|s| |s mm ee bb]; cbn [float_of_float is_nan is_finite B2R Bsign]; (split; [try discriminate; auto|]); (split; [intros t E; try discriminate; congruence|]); intros F; try discriminate F; cbv zeta.
  - rewrite round_0 by apply valid_rnd_N. rewrite Rabs_R0. split; auto. split; auto. intros H. pose proof (bpow_gt_0 radix2 emax). lra.
  - pose proof (binary_normalize_correct prec emax Hp He mode_NE (cond_Zopp s (Z.pos mm)) ee s) as H. cbv zeta in H. change (round_mode mode_NE) with ZnearestE in H.
    set (y := binary_normalize _ _ _ _ _ _ _ _) in *.
    assert (S : match Rcompare (F2R (Float radix2 (cond_Zopp s (Z.pos mm)) ee)) 0 with Eq => s | Lt => true | Gt => false end = s).
    { destruct s; cbn [cond_Zopp].
      - rewrite Rcompare_Lt; auto. apply F2R_lt_0. reflexivity.
      - rewrite Rcompare_Gt; auto. apply F2R_gt_0. reflexivity. }
    assert (S' : Rlt_bool (F2R (Float radix2 (cond_Zopp s (Z.pos mm)) ee)) 0 = s).
    { destruct s; cbn [cond_Zopp].
      - rewrite Rlt_bool_true; auto. apply F2R_lt_0. reflexivity.
      - rewrite Rlt_bool_false; auto. apply Rlt_le, F2R_gt_0. reflexivity. }
    rewrite S in H. rewrite S' in H. revert H. set (v := round _ _ _ _). destruct (Rlt_bool_spec (Rabs v) (bpow radix2 emax)) as [L|L]; intros H.
    + split; [tauto|]. split; [tauto|]. intros H'. lra.
    + assert (E : y = B754_infinity s) by (destruct y as [t|t| |t m2 e2 b2]; cbn in H; try discriminate; injection H as ->; reflexivity).
      rewrite E. split; [reflexivity|]. split; [intros H'; lra|auto].
Qed.

(** ** ordering *)
Notation float := (binary_float prec emax).
Lemma cmp_none : forall x y : float, Bcompare x y = None <-> is_nan x = true \/ is_nan y = true.
Proof.
  intros [s|s| |s m e b] [t|t| |t m2 e2 b2]; cbn; split; try tauto; intros H; try (destruct H; discriminate); try discriminate;
  try (destruct s, t; discriminate); try (destruct s; discriminate); try (destruct t; discriminate).
Qed.
Lemma cmp_fin : forall x y : float, is_finite x = true -> is_finite y = true ->
  (Bcompare x y = Some Lt <-> (B2R x < B2R y)%R) /\ (Bcompare x y = Some Eq <-> B2R x = B2R y) /\ (Bcompare x y = Some Gt <-> (B2R x > B2R y)%R).
Proof.
  intros x y Fx Fy. rewrite Bcompare_correct by auto. destruct (Rcompare_spec (B2R x) (B2R y)) as [L|L|L]; split; [|split| |split| |split];
  split; intros H; try discriminate; auto; lra.
Qed.
Lemma order_float : forall a b : Cartesian float,
  (is_finite (re a) = true -> is_finite (re b) = true -> is_finite (im a) = true -> is_finite (im b) = true ->
     (cartesian_cmp float_ops a b = Some Lt <-> (B2R (re a) < B2R (re b) \/ B2R (re a) = B2R (re b) /\ B2R (im a) < B2R (im b))%R) /\
     (cartesian_cmp float_ops a b = Some Eq <-> B2R (re a) = B2R (re b) /\ B2R (im a) = B2R (im b)) /\
     (cartesian_eq float_ops a b = true <-> B2R (re a) = B2R (re b) /\ B2R (im a) = B2R (im b)) /\
     (cartesian_cmp float_ops a b = Some Gt <-> cartesian_cmp float_ops b a = Some Lt) /\ cartesian_cmp float_ops a b <> None) /\
  (is_nan (re a) = true \/ is_nan (re b) = true -> cartesian_cmp float_ops a b = None) /\
  (is_nan (im a) = true \/ is_nan (im b) = true -> cartesian_cmp float_ops a b <> Some Eq) /\
  (is_nan (re a) = true \/ is_nan (re b) = true \/ is_nan (im a) = true \/ is_nan (im b) = true -> cartesian_eq float_ops a b = false) /\
  (is_nan (im a) = true \/ is_nan (im b) = true -> is_finite (re a) = true -> is_finite (re b) = true ->
     (cartesian_cmp float_ops a b = Some Lt <-> (B2R (re a) < B2R (re b))%R) /\ (cartesian_cmp float_ops a b = None <-> B2R (re a) = B2R (re b))).
Proof.
  intros [a1 a2] [b1 b2]. unfold cartesian_cmp, cartesian_eq, o_eq. cbn [re im o_cmp float_ops]. split; [|split; [|split; [|split]]].
  - intros F1 F2 F3 F4. rewrite !Bcompare_correct by auto.
    destruct (Rcompare_spec (B2R a1) (B2R b1)) as [L|L|L], (Rcompare_spec (B2R a2) (B2R b2)) as [M|M|M];
    (destruct (Rcompare_spec (B2R b1) (B2R a1)); try (exfalso; lra)); (destruct (Rcompare_spec (B2R b2) (B2R a2)); try (exfalso; lra)); cbn [andb];
    repeat split; intros; try discriminate; try tauto; try lra.
  - intros H. apply cmp_none in H. rewrite H. reflexivity.
  - intros H. apply cmp_none in H. rewrite H. destruct (Bcompare a1 b1) as [[]|]; discriminate.
  - intros H. assert (Bcompare a1 b1 = None \/ Bcompare a2 b2 = None) as [E|E] by (rewrite !cmp_none; tauto); rewrite E; auto. apply andb_false_r.
  - intros H F1 F2. apply cmp_none in H. rewrite H, Bcompare_correct by auto. destruct (Rcompare_spec (B2R a1) (B2R b1)) as [L|L|L]; repeat split; intros; try discriminate; auto; lra.
Qed.
Lemma polar_as_cart : forall a b : Polar float, polar_cmp float_ops a b = cartesian_cmp float_ops (mkC (mag a) (ang a)) (mkC (mag b) (ang b)) /\
  polar_eq float_ops a b = cartesian_eq float_ops (mkC (mag a) (ang a)) (mkC (mag b) (ang b)).
Proof. intros. split; reflexivity. Qed.
Lemma zero_float : cartesian_zero (float_zero (prec := prec) (emax := emax)) = Ok (cartesian_default (B754_zero false)) /\
  polar_zero (float_zero (prec := prec) (emax := emax)) = Ok (polar_default (B754_zero false)).
Proof. split; reflexivity. Qed.
Lemma order_polar : forall a b : Polar float,
  (is_finite (mag a) = true -> is_finite (mag b) = true -> is_finite (ang a) = true -> is_finite (ang b) = true ->
     (polar_cmp float_ops a b = Some Lt <-> (B2R (mag a) < B2R (mag b) \/ B2R (mag a) = B2R (mag b) /\ B2R (ang a) < B2R (ang b))%R) /\
     (polar_cmp float_ops a b = Some Eq <-> B2R (mag a) = B2R (mag b) /\ B2R (ang a) = B2R (ang b)) /\
     (polar_eq float_ops a b = true <-> B2R (mag a) = B2R (mag b) /\ B2R (ang a) = B2R (ang b)) /\
     (polar_cmp float_ops a b = Some Gt <-> polar_cmp float_ops b a = Some Lt)) /\
  (is_nan (mag a) = true \/ is_nan (mag b) = true -> polar_cmp float_ops a b = None) /\
  (is_nan (mag a) = true \/ is_nan (mag b) = true \/ is_nan (ang a) = true \/ is_nan (ang b) = true -> polar_eq float_ops a b = false).
Proof.
  intros a b. destruct (polar_as_cart a b) as [-> ->]. rewrite (proj1 (polar_as_cart b a)).
  destruct (order_float (mkC (mag a) (ang a)) (mkC (mag b) (ang b))) as (P & Q & _ & S & _). cbn [re im] in *. split; [|split; auto].
  intros F1 F2 F3 F4. destruct (P F1 F2 F3 F4) as (A & B & C & D & _). auto.
Qed.
End Narrow.
