(** * Identities of the complex types: neutral elements, embedding of the reals. *)

From Coq Require Import ZArith Reals Lia Lra List Bool.
From Flocq Require Import Core.Core IEEE754.BinarySingleNaN.
From Verif Require Import Base FloatBase Literals Traits Trig IntImpl FixedPrim FixedImpl FloatImpl Complex Spec
  Lemmas ScalarProofs FloatLemmas ScalarProofs2 ComplexProofs ComplexProofs2 ComplexProofs3 DisplayProofs.
Open Scope Z_scope.

(** ** integers and fixed point *)
Section Word.
Variables (m : mode) (O : MixedOps Z) (t : ity) (one : Z).
Hypothesis W : 1 <= iwidth t.
Hypothesis OA : forall a b, o_add O a b = fin m t (a + b).
Hypothesis OS : forall a b, o_sub O a b = fin m t (a - b).
Hypothesis O0 : forall a, o_mul O a 0 = Ok 0.
Hypothesis O0' : forall a, o_mul O 0 a = Ok 0.
Hypothesis O1 : forall a, in_range t a -> o_mul O a one = Ok a.
Hypothesis O1' : forall a, in_range t a -> o_mul O one a = Ok a.

Lemma word_ident : forall z, cvalid t z ->
  cartesian_add O z (mkC 0 0) = Ok z /\ cartesian_add O (mkC 0 0) z = Ok z /\ cartesian_sub O z (mkC 0 0) = Ok z /\
  cartesian_sub O z z = Ok (mkC 0 0) /\
  cartesian_mul O z (mkC one 0) = Ok z /\ cartesian_mul O (mkC one 0) z = Ok z /\
  cartesian_mul O z (mkC 0 0) = Ok (mkC 0 0) /\ cartesian_mul O (mkC 0 0) z = Ok (mkC 0 0).
Proof using All.
  intros [x y] [Vx Vy]. cbn [re im] in *. assert (V0 : in_range t 0) by (apply zero_in_range; lia).
  unfold cartesian_add, cartesian_sub, cartesian_mul, ops_mul_cartesian. cbn [re im].
  repeat rewrite ?OA, ?OS, ?O0, ?O0', ?Z.add_0_r, ?Z.add_0_l, ?Z.sub_0_r, ?Z.sub_diag.
  rewrite !O1, !O1' by auto. rewrite !fin_ok by auto. cbn [bind].
  repeat rewrite ?OA, ?OS, ?Z.add_0_r, ?Z.add_0_l, ?Z.sub_0_r, ?Z.sub_diag. rewrite !fin_ok by auto. cbn [bind].
  repeat rewrite ?OA, ?OS, ?O0, ?O0', ?Z.add_0_r, ?Z.add_0_l, ?Z.sub_0_r, ?Z.sub_diag. cbn [bind].
  repeat rewrite ?OA, ?OS, ?O0, ?O0', ?Z.add_0_r, ?Z.add_0_l, ?Z.sub_0_r, ?Z.sub_diag. rewrite ?fin_ok by auto. cbn [bind].
  repeat split.
Qed.

(** the embedding x |-> x + 0i *)
Lemma word_embed : (forall a b r, o_mul O a b = Ok r -> in_range t r) -> forall x y,
  let emb := fun v => mkC v 0 in
  cartesian_add O (emb x) (emb y) = (v <- o_add O x y ;; Ok (emb v)) /\
  cartesian_sub O (emb x) (emb y) = (v <- o_sub O x y ;; Ok (emb v)) /\
  cartesian_mul O (emb x) (emb y) = (v <- o_mul O x y ;; Ok (emb v)).
Proof using All.
  intros MR x y emb. assert (V0 : in_range t 0) by (apply zero_in_range; lia).
  unfold emb, cartesian_add, cartesian_sub, cartesian_mul, ops_mul_cartesian. cbn [re im].
  rewrite !OA, !OS, !O0, !O0'. change (0 + 0) with 0. change (0 - 0) with 0. rewrite (fin_ok m t 0) by auto. split; [reflexivity|]. split; [reflexivity|].
  destruct (o_mul O x y) as [v| |] eqn:E; cbn [bind]; auto. rewrite OS, Z.sub_0_r, fin_ok by (eapply MR; eauto). cbn [bind].
  rewrite OA. change (0 + 0) with 0. rewrite fin_ok by auto. reflexivity.
Qed.
End Word.

Lemma int_ident : forall m t, In t int_types -> forall z o i, cvalid t z ->
  cartesian_zero (int_zero t) = Ok o -> cartesian_one (int_zero t) (int_one t) = Ok i ->
  let O := int_ops m t in
  cartesian_add O z o = Ok z /\ cartesian_add O o z = Ok z /\ cartesian_sub O z o = Ok z /\ cartesian_sub O z z = Ok o /\
  cartesian_mul O z i = Ok z /\ cartesian_mul O i z = Ok z /\ cartesian_mul O z o = Ok o /\ cartesian_mul O o z = Ok o.
Proof.
  intros m t Ht z o i V Ho Hi O. pose proof (int_types_width t Ht) as Wd.
  assert (V0 : in_range t 0) by (apply zero_in_range; lia).
  unfold cartesian_zero in Ho. cbn in Ho. rewrite wrap_id in Ho by (try lia; auto). injection Ho as <-.
  unfold cartesian_one in Hi. cbn in Hi. rewrite !wrap_id in Hi by (first [lia | exact V0 | apply one_in_range; lia]). injection Hi as <-.
  apply (word_ident m O t 1); auto; try lia; unfold O; cbn [o_add o_sub o_mul int_ops]; intros; rewrite ?Z.mul_0_r, ?Z.mul_0_l, ?Z.mul_1_r, ?Z.mul_1_l; try apply fin_ok; auto.
Qed.

Lemma fixed_ident : forall m f, supported f = true -> forall z o i, cvalid (fity f) z ->
  cartesian_zero (fixed_zero m f) = Ok o -> cartesian_one (fixed_zero m f) (fixed_one m f) = Ok i ->
  let O := fixed_ops m f in
  cartesian_add O z o = Ok z /\ cartesian_add O o z = Ok z /\ cartesian_sub O z o = Ok z /\ cartesian_sub O z z = Ok o /\
  cartesian_mul O z i = Ok z /\ cartesian_mul O i z = Ok z /\ cartesian_mul O z o = Ok o /\ cartesian_mul O o z = Ok o.
Proof.
  intros m f Hf z o i V Ho Hi O. pose proof (supported_fwf f Hf) as W. pose proof (fone_pos f (proj1 W)) as P.
  assert (V0 : fvalid f 0) by (apply zero_in_range; apply fwf_width; auto).
  unfold cartesian_zero in Ho. rewrite fixed_zero_ok in Ho by auto. cbn [bind] in Ho. injection Ho as <-.
  unfold cartesian_one in Hi. rewrite fixed_zero_ok in Hi by auto. cbn [mixed_one fixed_one] in Hi. rewrite fx_of_int_small in Hi by (auto; lia). cbn [bind] in Hi. rewrite Z.mul_1_l in Hi. injection Hi as <-.
  apply (word_ident m O (fity f) (fone f)); auto; unfold O; cbn [o_add o_sub o_mul fixed_ops]; unfold fx_add, fx_sub, fx_mul.
  - apply supported_inv in Hf. cbn. lia.
  - intros a. rewrite Z.mul_0_r, Z.div_0_l by lia. apply fx_fin_ok; auto.
  - intros a. rewrite Z.mul_0_l, Z.div_0_l by lia. apply fx_fin_ok; auto.
  - intros a Va. rewrite Z.div_mul by lia. apply fx_fin_ok; auto.
  - intros a Va. rewrite Z.mul_comm, Z.div_mul by lia. apply fx_fin_ok; auto.
Qed.

(** the embedding of the reals, through the public constructor *)
Lemma int_embed : forall m t, In t int_types -> forall x y cx cy,
  cartesian_mixed_to_complex (int_zero t) x = Ok cx -> cartesian_mixed_to_complex (int_zero t) y = Ok cy ->
  let O := int_ops m t in let up := fun r => (v <- r ;; cartesian_mixed_to_complex (int_zero t) v) in
  cartesian_add O cx cy = up (o_add O x y) /\ cartesian_sub O cx cy = up (o_sub O x y) /\ cartesian_mul O cx cy = up (o_mul O x y).
Proof.
  intros m t Ht x y cx cy Hx Hy O up. pose proof (int_types_width t Ht) as Wd.
  assert (V0 : in_range t 0) by (apply zero_in_range; lia).
  assert (E0 : mixed_zero (int_zero t) = Ok 0) by (apply int_zero_eq; auto).
  assert (EU : forall r, up r = (v <- r ;; Ok (mkC v 0))) by (intros r; unfold up, cartesian_mixed_to_complex; rewrite E0; destruct r; reflexivity).
  unfold cartesian_mixed_to_complex in Hx, Hy. rewrite E0 in Hx, Hy. cbn [bind] in Hx, Hy. injection Hx as <-. injection Hy as <-. rewrite !EU.
  apply (word_embed m O t 1); auto; try lia; unfold O; cbn [o_add o_sub o_mul int_ops]; intros; rewrite ?Z.mul_0_r, ?Z.mul_0_l, ?Z.mul_1_r, ?Z.mul_1_l; try apply fin_ok; auto.
  eapply Lemmas.fin_range; [|eassumption]; lia.
Qed.

Lemma fixed_embed : forall m f, supported f = true -> forall x y cx cy,
  cartesian_mixed_to_complex (fixed_zero m f) x = Ok cx -> cartesian_mixed_to_complex (fixed_zero m f) y = Ok cy ->
  let O := fixed_ops m f in let up := fun r => (v <- r ;; cartesian_mixed_to_complex (fixed_zero m f) v) in
  cartesian_add O cx cy = up (o_add O x y) /\ cartesian_sub O cx cy = up (o_sub O x y) /\ cartesian_mul O cx cy = up (o_mul O x y).
Proof.
  intros m f Hf x y cx cy Hx Hy O up. pose proof (supported_fwf f Hf) as W. pose proof (fone_pos f (proj1 W)) as P.
  assert (Wd : 1 <= iwidth (fity f)) by (apply supported_inv in Hf; cbn; lia).
  assert (V0 : fvalid f 0) by (apply zero_in_range; apply fwf_width; auto).
  assert (E0 : mixed_zero (fixed_zero m f) = Ok 0) by (apply fixed_zero_ok; auto).
  assert (EU : forall r, up r = (v <- r ;; Ok (mkC v 0))) by (intros r; unfold up, cartesian_mixed_to_complex; rewrite E0; destruct r; reflexivity).
  unfold cartesian_mixed_to_complex in Hx, Hy. rewrite E0 in Hx, Hy. cbn [bind] in Hx, Hy. injection Hx as <-. injection Hy as <-. rewrite !EU.
  apply (word_embed m O (fity f) (fone f)); auto; unfold O; cbn [o_add o_sub o_mul fixed_ops]; unfold fx_add, fx_sub, fx_mul.
  - intros a. rewrite Z.mul_0_r, Z.div_0_l by lia. apply fx_fin_ok; auto.
  - intros a Va. rewrite Z.div_mul by lia. apply fx_fin_ok; auto.
  - intros a Va. rewrite Z.mul_comm, Z.div_mul by lia. apply fx_fin_ok; auto.
  - intros a b r. apply Lemmas.fin_range. exact Wd.
Qed.

(** the absolute value as a complex number *)
Lemma mixed_abs_all : forall T (O : MixedOps T) Q W Z0 z r, cartesian_mixed_abs O Q W Z0 z = Ok r ->
  cartesian_mag O Q W z = Ok (re r) /\ mixed_zero Z0 = Ok (im r) /\
  (g <- cartesian_mag O Q W z ;; cartesian_mixed_to_complex Z0 g) = Ok r.
Proof.
  intros T O Q W Z0 z r H. unfold cartesian_mixed_abs in H. unfold cartesian_mixed_to_complex.
  destruct (cartesian_mag O Q W z) as [g| |]; try discriminate. cbn [bind] in *. destruct (mixed_zero Z0) as [e| |]; try discriminate. cbn [bind] in *.
  injection H as <-. auto.
Qed.
Lemma polar_mixed_abs_all : forall T (Z0 : MixedZero T) p r, polar_mixed_abs Z0 p = Ok r ->
  polar_mag r = polar_abs p /\ mixed_zero Z0 = Ok (polar_arg r) /\ polar_mixed_to_complex Z0 (polar_mag p) = Ok r.
Proof.
  intros T Z0 p r H. unfold polar_mixed_abs in H. unfold polar_mixed_to_complex. destruct (mixed_zero Z0) as [e| |]; try discriminate. cbn [bind] in *. injection H as <-. auto.
Qed.

(** ** floats *)
Section Float.
Context {prec emax : Z} {Hp : Prec_gt_0 prec} {He : Prec_lt_emax prec emax}.
Notation float := (binary_float prec emax).
Hypothesis P24 : 24 <= prec.

Lemma same_r : forall x y : float, is_finite x = true -> is_finite y = true -> B2R x = B2R y -> same_float x y.
Proof using. clear.
  intros x y Fx Fy E. destruct x as [sx| | |sx mx ex bx]; try discriminate; destruct y as [sy| | |sy my ey by']; try discriminate.
  - right. eauto.
  - exfalso. cbn in E. symmetry in E. apply eq_0_F2R in E. destruct sy; discriminate.
  - exfalso. cbn in E. apply eq_0_F2R in E. destruct sx; discriminate.
  - left. apply B2R_inj; auto.
Qed.

Lemma Bplus_zero : forall (x : float) s, same_float (Bplus mode_NE x (B754_zero s)) x.
Proof using.
  intros x s. destruct (is_finite x) eqn:F.
  - pose proof (Bplus_correct prec emax _ _ mode_NE x (B754_zero s) F eq_refl) as H.
    change (B2R (B754_zero s : float)) with 0%R in H. rewrite Rplus_0_r, round_generic in H by (try apply valid_rnd_N; apply generic_format_B2R).
    rewrite Rlt_bool_true in H by apply abs_B2R_lt_emax. apply same_r; tauto.
  - left. destruct x; try discriminate; reflexivity.
Qed.
Lemma Bzero_plus : forall (x : float) s, same_float (Bplus mode_NE (B754_zero s) x) x.
Proof using. intros. rewrite Bplus_comm. apply Bplus_zero. Qed.
Lemma Bminus_zero : forall (x : float) s, same_float (Bminus mode_NE x (B754_zero s)) x.
Proof using. intros. rewrite Bminus_plus. apply Bplus_zero. Qed.
Lemma Bmult_zero : forall (x : float) s, is_finite x = true -> exists s', Bmult mode_NE x (B754_zero s) = B754_zero s'.
Proof using. intros x s F. destruct x; try discriminate; eexists; reflexivity. Qed.

Lemma float_add_ident : forall z o : Cartesian float, cartesian_zero float_zero = Ok o ->
  exists a b c, cartesian_add float_ops z o = Ok a /\ cartesian_add float_ops o z = Ok b /\ cartesian_sub float_ops z o = Ok c /\
  (same_float (re a) (re z) /\ same_float (im a) (im z)) /\ (same_float (re b) (re z) /\ same_float (im b) (im z)) /\
  (same_float (re c) (re z) /\ same_float (im c) (im z)).
Proof using.
  intros z o H. unfold cartesian_zero in H. cbn [mixed_zero mixed_one float_zero float_one bind] in H. rewrite float_of_Z_zero in H. injection H as <-.
  do 3 eexists. split; [reflexivity|]. split; [reflexivity|]. split; [reflexivity|]. cbn [re im].
  repeat split; try apply Bplus_zero; try apply Bzero_plus; apply Bminus_zero.
Qed.

Lemma float_mul_ident : forall z i : Cartesian float, is_finite (re z) = true -> is_finite (im z) = true -> cartesian_one float_zero float_one = Ok i ->
  exists a b, cartesian_mul float_ops z i = Ok a /\ cartesian_mul float_ops i z = Ok b /\
  (same_float (re a) (re z) /\ same_float (im a) (im z)) /\ (same_float (re b) (re z) /\ same_float (im b) (im z)).
Proof using P24.
  intros [x y] i Fx Fy H. cbn [re im] in *. unfold cartesian_one in H. cbn [mixed_zero mixed_one float_zero float_one bind] in H. rewrite float_of_Z_zero, float_of_Z_one in H by lia. injection H as <-.
  do 2 eexists. split; [reflexivity|]. split; [reflexivity|]. cbn [re im].
  rewrite !(Bmult_comm x Bone), !(Bmult_comm y Bone), !Bmult_Bone_l.
  rewrite !(Bmult_comm (B754_zero false)). destruct (Bmult_zero x false Fx) as [sx ->]. destruct (Bmult_zero y false Fy) as [sy ->].
  repeat split; try apply Bplus_zero; try apply Bzero_plus; apply Bminus_zero.
Qed.
End Float.

Lemma float_ident : forall prec emax {Hp : Prec_gt_0 prec} {He : Prec_lt_emax prec emax}, 24 <= prec ->
  forall (z o i : Cartesian (binary_float prec emax)), cartesian_zero float_zero = Ok o -> cartesian_one float_zero float_one = Ok i ->
  (exists a b c, cartesian_add float_ops z o = Ok a /\ cartesian_add float_ops o z = Ok b /\ cartesian_sub float_ops z o = Ok c /\
   (same_float (re a) (re z) /\ same_float (im a) (im z)) /\ (same_float (re b) (re z) /\ same_float (im b) (im z)) /\
   (same_float (re c) (re z) /\ same_float (im c) (im z))) /\
  (is_finite (re z) = true -> is_finite (im z) = true ->
   exists a b, cartesian_mul float_ops z i = Ok a /\ cartesian_mul float_ops i z = Ok b /\
   (same_float (re a) (re z) /\ same_float (im a) (im z)) /\ (same_float (re b) (re z) /\ same_float (im b) (im z))).
Proof.
  intros prec emax Hp He P z o i Ho Hi. split; [apply float_add_ident; auto | intros; apply float_mul_ident; auto].
Qed.

Lemma abs_all : forall T (O : MixedOps T) Q W (Z0 : MixedZero T),
  (forall z r, cartesian_mixed_abs O Q W Z0 z = Ok r ->
     cartesian_mag O Q W z = Ok (re r) /\ mixed_zero Z0 = Ok (im r) /\
     (g <- cartesian_mag O Q W z ;; cartesian_mixed_to_complex Z0 g) = Ok r) /\
  (forall p r, polar_mixed_abs Z0 p = Ok r ->
     polar_mag r = polar_abs p /\ mixed_zero Z0 = Ok (polar_arg r) /\ polar_mixed_to_complex Z0 (polar_mag p) = Ok r).
Proof. intros. split; [apply mixed_abs_all | apply polar_mixed_abs_all]. Qed.
