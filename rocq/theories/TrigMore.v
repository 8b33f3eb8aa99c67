(** * Symmetry, sign and the Pythagorean identity of the polynomial sine and cosine (proofs for C88-C91). *)

From Coq Require Import ZArith Reals Lia Lra Psatz List Bool.
From Flocq Require Import Core.Core IEEE754.BinarySingleNaN.
From Flocq Require Import Sterbenz.
From Verif Require Import Base FloatBase Literals Traits Trig FixedPrim FixedImpl FloatImpl Spec
  Lemmas FloatLemmas FloatKit ScalarProofs ScalarProofs2 WrapProofs WrapProofs2 NiirfZ SinReal SinFixed NiirfFloat SinFloat TrigProofs.
Open Scope Z_scope.

Section Fx.
Variables (m : mode) (f : fty).
Hypothesis W : fwf f.
Hypothesis S : fsigned f = true.
Notation q := (fone f).
Notation p := (pi_bits f).
Notation h := (pi_bits f / 2).
Notation the_sin := (sin (fixed_ops m f) (fixed_signed m f) (fixed_pi m f) (fixed_powi m f)).
Notation the_cos := (cos (fixed_ops m f) (fixed_signed m f) (fixed_pi m f) (fixed_powi m f)).

Lemma sin_fold : forall x y, Z.abs x <= p -> Z.abs y <= p -> zfold p x = zfold p y -> the_sin x = the_sin y.
Proof using W S. intros x y X Y E. rewrite !sin_head_eq, !sin_head_ok by auto. rewrite E. reflexivity. Qed.

Lemma half_pos : 1 <= h.
Proof using W. pose proof (half_pi_range f). pose proof (pi_bits_bounds f W). pose proof (fone_pos f (proj1 W)). lia. Qed.

Lemma sin_reflect : forall x y, 0 <= y <= x -> x + y = 2 * h -> the_sin x = the_sin y.
Proof using W S.
  intros x y H E. pose proof (half_pi_range f) as HR. pose proof half_pos as HP. apply sin_fold; try lia. unfold zfold.
  destruct (Z.ltb_spec x (- h)); [lia|]. destruct (Z.ltb_spec y (- h)); [lia|]. destruct (Z.ltb_spec h x), (Z.ltb_spec h y); lia.
Qed.
Lemma sin_reflect_neg : forall x y, x <= y <= 0 -> x + y = - (2 * h) -> the_sin x = the_sin y.
Proof using W S.
  intros x y H E. pose proof (half_pi_range f) as HR. pose proof half_pos as HP. apply sin_fold; try lia. unfold zfold.
  destruct (Z.ltb_spec x (- h)), (Z.ltb_spec y (- h)), (Z.ltb_spec h x), (Z.ltb_spec h y); lia.
Qed.

Hypothesis HM : m = Release \/ ffrac f <= fwidth f - 4.
Lemma cos_is : forall x, fvalid f (x + h) -> exists n0 y, wrap_target f (x + h) y /\ forall n, (n0 <= n)%nat -> the_cos n x = the_sin y.
Proof using W S HM.
  intros x V. destruct (wrap_phase_fixed m f W S HM (x + h) V) as [y [[n0 R] T]]. exists n0, y. split; auto.
  intros n Hn. unfold cos. rewrite half_pi_ok by auto. cbn [o_add fixed_ops]. unfold fx_add. rewrite fx_fin_ok by auto. cbn [bind].
  specialize (R n Hn). cbn [mixed_wrap_phase fixed_wrap_phase] in R. rewrite R. reflexivity.
Qed.
Lemma cos_even : forall x, Z.abs x <= h -> exists n0, forall n, (n0 <= n)%nat -> the_cos n (- x) = the_cos n x.
Proof using W S HM.
  assert (A : forall x, 0 <= x <= h -> exists n0, forall n, (n0 <= n)%nat -> the_cos n (- x) = the_cos n x).
  { intros x H. pose proof (half_pi_range f) as HR. pose proof half_pos as HP. pose proof (pi_bits_bounds f W) as PB. pose proof (fone_pos f (proj1 W)) as Q. pose proof (fone_le_max f W) as M.
    assert (V : forall z, Z.abs z <= p -> fvalid f z) by (intros; apply fvalid_iff; rewrite S; lia).
    destruct (cos_is x) as (n1 & y1 & T1 & E1); [apply V; lia|]. destruct (cos_is (- x)) as (n2 & y2 & T2 & E2); [apply V; lia|].
    exists (max n1 n2). intros n Hn. rewrite E1, E2 by lia. destruct T1 as [B1 [k1 K1]], T2 as [B2 [k2 K2]].
    assert (k2 = 0) by (clear - B2 K2 H HR HP; nia). subst k2.
    assert (k1 = 0 \/ k1 = 1 /\ x = h /\ p = 2 * h) as [KK|[KK [Hx Hp]]].
    { assert (KK : k1 = 0 \/ k1 = 1) by (clear - B1 K1 H HR HP; nia). destruct KK as [KK|KK]; [auto|]. right. subst k1. lia. }
    all: subst k1.
    - symmetry. apply sin_reflect; lia.
    - apply sin_fold; try lia. unfold zfold. destruct (Z.ltb_spec y1 (- h)), (Z.ltb_spec y2 (- h)), (Z.ltb_spec h y1), (Z.ltb_spec h y2); lia. }
  intros x H. destruct (Z_le_dec 0 x) as [L|L].
  - apply A. lia.
  - destruct (A (- x) ltac:(lia)) as [n0 E]. exists n0. intros n Hn. rewrite <- (E n Hn). rewrite Z.opp_involutive. reflexivity.
Qed.
End Fx.

(** ** sign *)
Lemma zpoly_sign : forall q z, 0 < q -> 10000 * Z.abs z <= 15711 * q -> (0 < z -> 0 < zpoly q z) /\ (z < 0 -> zpoly q z < 0) /\ (z = 0 -> zpoly q z = 0).
Proof.
  intros q z Q H. pose proof (q_real q Q) as Qr. pose proof (v_bound q z Q H) as VB.
  assert (PW : forall k, (Rabs (IZR (pw q z k)) <= Rabs (IZR z) * (15711 / 10000) ^ k + perr k)%R).
  { intros k. pose proof (pw_err q z Q H k) as E. assert (Z0 : (IZR z = IZR q * (IZR z / IZR q))%R) by (field; lra).
    set (v := (IZR z / IZR q)%R) in *. replace (IZR (pw q z k)) with ((IZR (pw q z k) - IZR q * v ^ S k) + IZR q * v ^ S k)%R by ring.
    eapply Rle_trans; [apply Rabs_triang|]. rewrite Rplus_comm. apply Rplus_le_compat; auto.
    replace (IZR q * v ^ S k)%R with (IZR z * v ^ k)%R by (rewrite Z0; cbn [pow]; ring). rewrite Rabs_mult. apply Rmult_le_compat_l; [apply Rabs_pos|].
    rewrite <- RPow_abs. apply pow_incr. split; [apply Rabs_pos|auto]. }
  pose proof (PW 2%nat) as P2. pose proof (PW 6%nat) as P6. cbn [perr pow] in P2, P6. clear PW VB.
  split; [|split]; intros Sg.
  - pose proof (quot_nonneg _ 6 (pw_nonneg q z Q ltac:(lia) 2) ltac:(lia)). 
    pose proof (Z.quot_pos _ 120 (pw_nonneg q z Q ltac:(lia) 4) ltac:(lia)) as T5.
    pose proof (quot_nonneg _ 5040 (pw_nonneg q z Q ltac:(lia) 6) ltac:(lia)).
    pose proof (Z.quot_pos _ 362880 (pw_nonneg q z Q ltac:(lia) 8) ltac:(lia)) as T9.
    apply lt_IZR. unfold zpoly. rewrite plus_IZR, minus_IZR, plus_IZR, minus_IZR. apply IZR_le in T5, T9.
    assert (Z1 : (1 <= IZR z)%R) by (apply IZR_le; lia). rewrite (Rabs_pos_eq (IZR z)) in P2, P6 by lra. apply Rabs_le_inv in P2, P6. lra.
  - assert (S' : z <= 0) by lia.
    pose proof (quot_nonpos _ 6 (proj1 (pw_nonpos q z Q S' 2) eq_refl) ltac:(lia)).
    pose proof (quot_nonpos _ 120 (proj1 (pw_nonpos q z Q S' 4) eq_refl) ltac:(lia)) as T5.
    pose proof (quot_nonpos _ 5040 (proj1 (pw_nonpos q z Q S' 6) eq_refl) ltac:(lia)).
    pose proof (quot_nonpos _ 362880 (proj1 (pw_nonpos q z Q S' 8) eq_refl) ltac:(lia)) as T9.
    assert (T5' : Z.quot (pw q z 4) 120 <= 0) by (pose proof (proj1 (pw_nonpos q z Q S' 4) eq_refl); clear - H2; Z.to_euclidean_division_equations; lia).
    assert (T9' : Z.quot (pw q z 8) 362880 <= 0) by (pose proof (proj1 (pw_nonpos q z Q S' 8) eq_refl); clear - H2; Z.to_euclidean_division_equations; lia).
    apply lt_IZR. unfold zpoly. rewrite plus_IZR, minus_IZR, plus_IZR, minus_IZR. apply IZR_le in T5', T9'.
    assert (Z1 : (IZR z <= -1)%R) by (apply IZR_le; lia). rewrite (Rabs_left (IZR z)) in P2, P6 by lra. apply Rabs_le_inv in P2, P6. lra.
  - subst z. unfold zpoly. assert (E : forall k, pw q 0 k = 0) by (induction k; cbn [pw]; auto; rewrite IHk; reflexivity). rewrite !E. reflexivity.
Qed.

Lemma sin_sign : forall m f, supported f = true -> fsigned f = true -> ffrac f <= fwidth f - 20 ->
  let h := pi_bits f / 2 in forall x, Z.abs x <= 2 * h -> exists r,
  sin (fixed_ops m f) (fixed_signed m f) (fixed_pi m f) (fixed_powi m f) x = Ok r /\
  (0 < x < 2 * h -> 0 < r) /\ (- (2 * h) < x < 0 -> r < 0) /\ (x = 0 \/ Z.abs x = 2 * h -> r = 0).
Proof.
  intros m f Hf S I h x H. pose proof (supported_fwf f Hf) as W. pose proof (half_pi_range f) as HR. pose proof (half_pi_small f W) as HS.
  pose proof (half_pos f W) as HP. pose proof (fone_pos f (proj1 W)) as Q. fold h in HR, HS, HP.
  exists (zpoly (fone f) (zfold (pi_bits f) x)). split; [apply sin_bits; auto; lia|].
  assert (ZR : Z.abs (zfold (pi_bits f) x) <= h) by (apply zfold_range; auto; lia).
  destruct (zpoly_sign (fone f) (zfold (pi_bits f) x) Q ltac:(lia)) as (P & N & E).
  split; [|split]; intros K; [apply P | apply N | apply E]; unfold zfold; fold h;
    destruct (Z.ltb_spec x (- h)), (Z.ltb_spec h x); lia.
Qed.

Lemma sin_odd_near : forall m f, supported f = true -> fsigned f = true -> ffrac f <= fwidth f - 20 ->
  forall x, Z.abs x <= pi_bits f -> exists r r',
  sin (fixed_ops m f) (fixed_signed m f) (fixed_pi m f) (fixed_powi m f) x = Ok r /\
  sin (fixed_ops m f) (fixed_signed m f) (fixed_pi m f) (fixed_powi m f) (- x) = Ok r' /\ Z.abs (r + r') <= 5.
Proof.
  intros m f Hf S I x H. pose proof (supported_fwf f Hf) as W. pose proof (half_pi_small f W) as HS. pose proof (fone_pos f (proj1 W)) as Q.
  pose proof (half_pos f W) as HP.
  do 2 eexists. split; [apply sin_bits; auto|]. split; [apply sin_bits; auto; lia|].
  assert (E : zfold (pi_bits f) (- x) = - zfold (pi_bits f) x).
  { unfold zfold. set (h := pi_bits f / 2) in *. destruct (Z.ltb_spec x (- h)), (Z.ltb_spec h x), (Z.ltb_spec (- x) (- h)), (Z.ltb_spec h (- x)); lia. }
  rewrite E. assert (ZR : Z.abs (zfold (pi_bits f) x) <= pi_bits f / 2) by (apply zfold_range; auto).
  set (z := zfold (pi_bits f) x) in *. pose proof (zpoly_err (fone f) z Q ltac:(lia)) as E1. pose proof (zpoly_err (fone f) (- z) Q ltac:(lia)) as E2.
  replace (P9 (IZR (- z) / IZR (fone f))) with (- P9 (IZR z / IZR (fone f)))%R in E2.
  2:{ rewrite opp_IZR. unfold P9, Rdiv. rewrite !Ropp_mult_distr_l_reverse. set (v := (IZR z * / IZR (fone f))%R). field. }
  assert (B : (Rabs (IZR (zpoly (fone f) z) + IZR (zpoly (fone f) (- z))) < 6)%R).
  { apply Rabs_le_inv in E1, E2. apply Rabs_lt. lra. }
  rewrite <- plus_IZR, <- abs_IZR in B. apply lt_IZR in B. lia.
Qed.

(** ** the Pythagorean identity *)
Lemma pyth : forall s c es ec v, (Rabs (s - Rtrigo_def.sin v) <= es -> Rabs (c - Rtrigo_def.cos v) <= ec ->
  Rabs (s * s + c * c - 1) <= 2 * (es + ec) + es * es + ec * ec)%R.
Proof.
  intros s c es ec v H1 H2. pose proof (sin2_cos2 v) as P. unfold Rsqr in P. set (a := Rtrigo_def.sin v) in *. set (b := Rtrigo_def.cos v) in *.
  assert (A : (Rabs a <= 1)%R). { apply Rabs_le. pose proof (SIN_bound v). fold a in H. lra. }
  assert (B : (Rabs b <= 1)%R). { apply Rabs_le. pose proof (COS_bound v). fold b in H. lra. }
  replace (s * s + c * c - 1)%R with (2 * (a * (s - a)) + (s - a) * (s - a) + (2 * (b * (c - b)) + (c - b) * (c - b)))%R by (rewrite <- P; ring).
  pose proof (Rabs_pos (s - a)). pose proof (Rabs_pos (c - b)). pose proof (Rabs_pos a). pose proof (Rabs_pos b).
  assert (X : (Rabs (a * (s - a)) <= 1 * es)%R) by (rewrite Rabs_mult; apply Rmult_le_compat; lra).
  assert (Y : (Rabs (b * (c - b)) <= 1 * ec)%R) by (rewrite Rabs_mult; apply Rmult_le_compat; lra).
  assert (X2 : (Rabs ((s - a) * (s - a)) <= es * es)%R) by (rewrite Rabs_mult; apply Rmult_le_compat; lra).
  assert (Y2 : (Rabs ((c - b) * (c - b)) <= ec * ec)%R) by (rewrite Rabs_mult; apply Rmult_le_compat; lra).
  apply Rabs_le_inv in X, Y, X2, Y2. apply Rabs_le. lra.
Qed.
Lemma pyth_fixed : forall m f, supported f = true -> fsigned f = true -> ffrac f <= fwidth f - 20 ->
  exists p, mixed_pi (fixed_pi m f) = Ok p /\ forall x, (Rabs (fval f x) <= fval f p)%R -> exists s c,
  sin (fixed_ops m f) (fixed_signed m f) (fixed_pi m f) (fixed_powi m f) x = Ok s /\
  returns (fun fuel => cos (fixed_ops m f) (fixed_signed m f) (fixed_pi m f) (fixed_powi m f) fuel x) c /\
  let e := (5 / 1000000 + 7 * ulp f)%R in
  (Rabs (fval f s * fval f s + fval f c * fval f c - 1) <= 4 * e + 2 * e * e)%R.
Proof.
  intros m f Hf S I. pose proof (supported_fwf f Hf) as W. pose proof (pi_bits_bounds f W) as PB. pose proof (fone_pos f (proj1 W)) as Q.
  destruct (c19 m f Hf S I) as (p & Ep & _ & A). destruct (c21 m f Hf S I) as (p' & Ep' & B).
  assert (Pe : p = pi_bits f) by (rewrite fixed_pi_eq in Ep by auto; congruence). assert (Pe' : p' = p) by congruence. subst p'. 
  exists p. split; auto. intros x H. destruct (A x H) as (s & Es & As).
  assert (HZ : Z.abs x <= p) by (rewrite fval_abs, fval_le in H by apply W; exact H).
  assert (V : fvalid f x). { pose proof (room f W I). apply fvalid_iff. rewrite S. lia. }
  destruct (B x V) as (c & Ec & Ac).
  { pose proof (room f W I) as RM. rewrite !fval_eq by apply W. pose proof (fone_IZR_pos f (proj1 W)) as P. unfold Rdiv.
    assert (K : (IZR x + IZR p * / 2 <= IZR (fmax f))%R).
    { rewrite fmax_signed by auto. assert (L : 2 * x + p <= 2 * (2 ^ (fwidth f - 1) - 1)) by lia. apply IZR_le in L. rewrite plus_IZR, !mult_IZR in L. lra. }
    replace (IZR x * / IZR (fone f) + IZR p * / IZR (fone f) * / 2)%R with ((IZR x + IZR p * / 2) * / IZR (fone f))%R by ring.
    apply Rmult_le_compat_r; [apply Rlt_le, Rinv_0_lt_compat; auto|auto]. }
  exists s, c. split; auto. split; auto. cbv zeta.
  assert (U : (0 < ulp f)%R) by (rewrite ulp_eq by apply W; apply Rinv_0_lt_compat, fone_IZR_pos, W).
  assert (X : (Rabs (fval f x) <= 4)%R).
  { eapply Rle_trans; [exact H|]. subst p. rewrite fval_eq by apply W. pose proof (fone_IZR_pos f (proj1 W)) as P. apply Rmult_le_reg_r with (IZR (fone f)); auto.
    unfold Rdiv. rewrite Rmult_assoc, Rinv_l, Rmult_1_r by lra. assert (L : pi_bits f <= 4 * fone f) by lia. apply IZR_le in L. rewrite !mult_IZR in L. lra. }
  set (e := (5 / 1000000 + 7 * ulp f)%R).
  assert (P := pyth (fval f s) (fval f c) e e (fval f x)). replace (4 * e + 2 * e * e)%R with (2 * (e + e) + e * e + e * e)%R by ring. apply P.
  - eapply Rle_trans; [exact As|]. unfold e. lra.
  - eapply Rle_trans; [exact Ac|]. unfold e. assert (Rabs (fval f x) / 5 * ulp f <= 8 / 10 * ulp f)%R by (apply Rmult_le_compat_r; lra). lra.
Qed.

Lemma pyth_float_gen : forall (prec emax : Z) (Hp : Prec_gt_0 prec) (He : Prec_lt_emax prec emax) (x s c : binary_float prec emax),
  (Rabs (B2R s - Rtrigo_def.sin (B2R x)) <= 5 / 1000000 -> Rabs (B2R c - Rtrigo_def.cos (B2R x)) <= 5 / 1000000 ->
   Rabs (B2R s * B2R s + B2R c * B2R c - 1) <= 21 / 1000000)%R.
Proof. intros prec emax Hp He x s c H1 H2. eapply Rle_trans; [apply (pyth _ _ _ _ _ H1 H2)|]. lra. Qed.
Lemma pyth_f32 : exists p : f32, mixed_pi float_pi = Ok p /\ forall x : f32, is_finite x = true -> (Rabs (B2R x) <= B2R p)%R -> exists s c : f32,
  sin float_ops float_signed float_pi float_powi x = Ok s /\ (forall fuel, (2 <= fuel)%nat -> cos float_ops float_signed float_pi float_powi fuel x = Ok c) /\
  (Rabs (B2R s * B2R s + B2R c * B2R c - 1) <= 21 / 1000000)%R.
Proof.
  destruct c22_f32 as (_ & p & Ep & _ & A). destruct c54_f32 as (p' & Ep' & B). rewrite Ep in Ep'. injection Ep' as Ep'. subst p'. exists p. split; auto.
  intros x F H. destruct (A x F H) as (s & Es & _ & As). destruct (B x F H) as (c & _ & Ac & Ec). exists s, c. split; auto. split; auto. apply (pyth_float_gen _ _ _ _ x); auto.
Qed.
Lemma pyth_f64 : exists p : f64, mixed_pi float_pi = Ok p /\ forall x : f64, is_finite x = true -> (Rabs (B2R x) <= B2R p)%R -> exists s c : f64,
  sin float_ops float_signed float_pi float_powi x = Ok s /\ (forall fuel, (2 <= fuel)%nat -> cos float_ops float_signed float_pi float_powi fuel x = Ok c) /\
  (Rabs (B2R s * B2R s + B2R c * B2R c - 1) <= 21 / 1000000)%R.
Proof.
  destruct c22_f64 as (_ & p & Ep & _ & A). destruct c54_f64 as (p' & Ep' & B). rewrite Ep in Ep'. injection Ep' as Ep'. subst p'. exists p. split; auto.
  intros x F H. destruct (A x F H) as (s & Es & _ & As). destruct (B x F H) as (c & _ & Ac & Ec). exists s, c. split; auto. split; auto. apply (pyth_float_gen _ _ _ _ x); auto.
Qed.

(** ** reflection on floats: both subtractions are exact *)
Section Fl.
Context {prec emax : Z} {Hp : Prec_gt_0 prec} {He : Prec_lt_emax prec emax}.
Notation float := (binary_float prec emax).
Notation rnd := (round radix2 (SpecFloat.fexp prec emax) ZnearestE).
Notation h := (@fhalf prec emax Hp He).
Hypothesis Fh : is_finite h = true.
Hypothesis Vh : (0 < B2R h <= 2)%R.
Hypothesis E4 : 4 < emax.

Lemma exact_minus : forall x y z : float, is_finite x = true -> is_finite y = true -> is_finite z = true -> (B2R x - B2R y = B2R z)%R ->
  is_finite (Bminus mode_NE x y) = true /\ B2R (Bminus mode_NE x y) = B2R z.
Proof.
  intros x y z Fx Fy Fz E. pose proof (Bminus_correct prec emax _ _ mode_NE x y Fx Fy) as C. cbn [round_mode] in C.
  rewrite E, round_generic in C by (try apply valid_rnd_N; apply generic_format_B2R).
  rewrite Rlt_bool_true in C by apply abs_B2R_lt_emax. tauto.
Qed.
Lemma sterbenz_minus : forall x y : float, is_finite x = true -> is_finite y = true -> (B2R y / 2 <= B2R x <= 2 * B2R y)%R ->
  is_finite (Bminus mode_NE x y) = true /\ B2R (Bminus mode_NE x y) = (B2R x - B2R y)%R.
Proof using Hp. clear Fh Vh E4.
  intros x y Fx Fy H. pose proof (Bminus_correct prec emax _ _ mode_NE x y Fx Fy) as C. cbn [round_mode] in C.
  assert (G : generic_format radix2 (SpecFloat.fexp prec emax) (B2R x - B2R y)).
  { apply sterbenz; try apply generic_format_B2R; auto; try (apply FLT_exp_monotone || apply FLT_exp_valid; auto). }
  rewrite round_generic in C by (try apply valid_rnd_N; auto).
  rewrite Rlt_bool_true in C; [tauto|].
  pose proof (abs_B2R_lt_emax _ _ x). assert (0 <= B2R y)%R by lra. apply Rle_lt_trans with (Rabs (B2R x)); auto.
  rewrite (Rabs_pos_eq (B2R x)) by lra. apply Rabs_le. lra.
Qed.
Lemma strict : forall x : float, (0 < B2R x)%R -> is_finite_strict x = true.
Proof. clear. intros x H. destruct x; cbn [B2R] in H; auto; lra. Qed.
Lemma reflect_float : forall x y : float, is_finite x = true -> is_finite y = true -> (0 < B2R y <= B2R x)%R -> (B2R x + B2R y = 2 * B2R h)%R ->
  sin float_ops float_signed float_pi float_powi x = sin float_ops float_signed float_pi float_powi y.
Proof using All.
  intros x y Fx Fy H E. change (the_sin x = the_sin y). rewrite !sin_float_eq. do 2 f_equal.
  assert (Foh : is_finite (Bopp h) = true) by (rewrite is_finite_Bopp; auto).
  unfold ffold. destruct (ltb_cmp x (Bopp h) Fx Foh) as [[-> C]|[-> _]]; [rewrite B2R_Bopp in C; lra|].
  destruct (ltb_cmp y (Bopp h) Fy Foh) as [[-> C]|[-> _]]; [rewrite B2R_Bopp in C; lra|].
  destruct (ltb_cmp h y Fh Fy) as [[-> C]|[-> C1]]; [lra|].
  destruct (ltb_cmp h x Fh Fx) as [[-> C]|[-> C]].
  - destruct (sterbenz_minus x h Fx Fh ltac:(lra)) as [Fd Vd].
    destruct (exact_minus h (Bminus mode_NE x h) y Fh Fd Fy ltac:(rewrite Vd; lra)) as [Fr Vr].
    apply B2R_inj; auto; apply strict; lra.
  - apply B2R_inj; [apply strict; lra | apply strict; lra | lra].
Qed.
End Fl.
Lemma reflect_f32 : forall x y p : f32, mixed_pi float_pi = Ok p -> is_finite x = true -> is_finite y = true -> (0 < B2R y <= B2R x)%R -> (B2R x + B2R y = B2R p)%R ->
  sin float_ops float_signed float_pi float_powi x = sin float_ops float_signed float_pi float_powi y.
Proof.
  intros x y p Ep Fx Fy H E. destruct f32_half_val as [V F]. change (Ok (float_of_float 24 128 lit_pi) = Ok p) in Ep.
  assert (EQ : p = float_of_float 24 128 lit_pi) by congruence. subst p. clear Ep. pose proof (proj1 f32_pi_val) as VP. change f32_pi with (float_of_float 24 128 lit_pi) in VP.
  rewrite VP in E.
  apply reflect_float; auto; [rewrite V; simpl; lra | lia | rewrite E, V; simpl; lra].
Qed.
Lemma reflect_f64 : forall x y p : f64, mixed_pi float_pi = Ok p -> is_finite x = true -> is_finite y = true -> (0 < B2R y <= B2R x)%R -> (B2R x + B2R y = B2R p)%R ->
  sin float_ops float_signed float_pi float_powi x = sin float_ops float_signed float_pi float_powi y.
Proof.
  intros x y p Ep Fx Fy H E. destruct f64_half_val as [V F]. change (Ok (float_of_float 53 1024 lit_pi) = Ok p) in Ep.
  assert (EQ : p = float_of_float 53 1024 lit_pi) by congruence. subst p. clear Ep. pose proof (proj1 f64_pi_val) as VP. change f64_pi with (float_of_float 53 1024 lit_pi) in VP.
  rewrite VP in E.
  apply reflect_float; auto; [rewrite V; simpl; lra | lia | rewrite E, V; simpl; lra].
Qed.

(** ** statements in terms of the type's constant pi *)
Lemma reflect_fixed_all : forall m f, supported f = true -> fsigned f = true -> forall p, mixed_pi (fixed_pi m f) = Ok p -> forall x y,
  0 <= y <= x /\ x + y = 2 * (p / 2) \/ x <= y <= 0 /\ x + y = - (2 * (p / 2)) ->
  sin (fixed_ops m f) (fixed_signed m f) (fixed_pi m f) (fixed_powi m f) x = sin (fixed_ops m f) (fixed_signed m f) (fixed_pi m f) (fixed_powi m f) y.
Proof.
  intros m f Hf S p Hp x y H. pose proof (supported_fwf f Hf) as W. rewrite fixed_pi_eq in Hp by auto. injection Hp as <-.
  destruct H as [[A B]|[A B]]; [apply sin_reflect | apply sin_reflect_neg]; auto.
Qed.
Lemma cos_even_all : forall m f, supported f = true -> fsigned f = true -> m = Release \/ ffrac f <= fwidth f - 4 ->
  forall p, mixed_pi (fixed_pi m f) = Ok p -> forall x, Z.abs x <= p / 2 -> exists n0, forall n, (n0 <= n)%nat ->
  cos (fixed_ops m f) (fixed_signed m f) (fixed_pi m f) (fixed_powi m f) n (- x) = cos (fixed_ops m f) (fixed_signed m f) (fixed_pi m f) (fixed_powi m f) n x.
Proof.
  intros m f Hf S M p Hp x H. pose proof (supported_fwf f Hf) as W. rewrite fixed_pi_eq in Hp by auto. injection Hp as <-. apply cos_even; auto.
Qed.
Lemma sin_sign_all : forall m f, supported f = true -> fsigned f = true -> ffrac f <= fwidth f - 20 ->
  forall p, mixed_pi (fixed_pi m f) = Ok p -> let h := p / 2 in forall x, Z.abs x <= 2 * h -> exists r,
  sin (fixed_ops m f) (fixed_signed m f) (fixed_pi m f) (fixed_powi m f) x = Ok r /\
  (0 < x < 2 * h -> 0 < r) /\ (- (2 * h) < x < 0 -> r < 0) /\ (x = 0 \/ Z.abs x = 2 * h -> r = 0).
Proof.
  intros m f Hf S I p Hp. pose proof (supported_fwf f Hf) as W. rewrite fixed_pi_eq in Hp by auto. injection Hp as <-. apply sin_sign; auto.
Qed.
Lemma sin_odd_all : forall m f, supported f = true -> fsigned f = true -> ffrac f <= fwidth f - 20 ->
  forall p, mixed_pi (fixed_pi m f) = Ok p -> forall x, Z.abs x <= p -> exists r r',
  sin (fixed_ops m f) (fixed_signed m f) (fixed_pi m f) (fixed_powi m f) x = Ok r /\
  sin (fixed_ops m f) (fixed_signed m f) (fixed_pi m f) (fixed_powi m f) (- x) = Ok r' /\ Z.abs (r + r') <= 5.
Proof.
  intros m f Hf S I p Hp. pose proof (supported_fwf f Hf) as W. rewrite fixed_pi_eq in Hp by auto. injection Hp as <-. apply sin_odd_near; auto.
Qed.
