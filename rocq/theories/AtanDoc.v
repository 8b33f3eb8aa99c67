(** * Where the documented accuracy of the polynomial arctangent holds (proofs for C26). *)

From Coq Require Import ZArith Reals Lia Lra Psatz List Bool.
From Flocq Require Import Core.Core IEEE754.BinarySingleNaN.
From Verif Require Import Base FloatBase Literals Traits Trig FixedPrim FixedImpl FloatImpl Spec SpecAngle
  Lemmas FloatLemmas FloatProofs FloatWrap FloatKit ScalarProofs ScalarProofs2 TrigProofs WrapProofs2 SinReal SinFloat AtanReal AtanFixed AtanFloat AtanProofs.
Open Scope Z_scope.

(** the ratio of the smaller to the larger coordinate *)
Lemma ratio : forall X Y t : R, (100 * Rmin (Rabs X) (Rabs Y) <= 21 * Rmax (Rabs X) (Rabs Y) -> (X <> 0 \/ Y <> 0) ->
  t = Y / X \/ t = X / Y -> -1 <= t <= 1 -> - (21 / 100) <= t <= 21 / 100)%R.
Proof.
  assert (K : forall a b t : R, (b <> 0 -> t = a / b -> Rabs t <= 1 -> 100 * Rmin (Rabs a) (Rabs b) <= 21 * Rmax (Rabs a) (Rabs b) -> Rabs t <= 21 / 100)%R).
  { intros a b t B E T H. assert (B0 : (0 < Rabs b)%R) by (apply Rabs_pos_lt; auto).
    assert (EA : (Rabs a = Rabs t * Rabs b)%R). { rewrite <- Rabs_mult. f_equal. rewrite E. field. auto. }
    assert (L : (Rabs a <= Rabs b)%R) by (rewrite EA; rewrite <- (Rmult_1_l (Rabs b)) at 2; apply Rmult_le_compat_r; lra).
    rewrite Rmin_left, Rmax_right in H by auto. rewrite EA in H. apply Rmult_le_reg_r with (Rabs b); auto. lra. }
  intros X Y t H N E T. apply Rabs_le_inv. assert (T' : (Rabs t <= 1)%R) by (apply Rabs_le; auto).
  destruct (Req_dec X 0) as [X0|X0].
  - assert (Y0 : (Y <> 0)%R) by tauto. assert (t = 0)%R.
    { destruct E as [-> | ->]; subst X; unfold Rdiv; [rewrite Rinv_0 |]; ring. }
    subst t. rewrite Rabs_R0. lra.
  - destruct (Req_dec Y 0) as [Y0|Y0].
    + assert (t = 0)%R. { destruct E as [-> | ->]; subst Y; unfold Rdiv; [|rewrite Rinv_0]; ring. } subst t. rewrite Rabs_R0. lra.
    + destruct E as [E|E].
      * apply (K Y X t X0 E T'). rewrite Rmin_comm, Rmax_comm. exact H.
      * apply (K X Y t Y0 E T' H).
Qed.

Lemma doc_bound : (489 / 1000000 * (999 / 1000) <= 28 / 1000 * (PI / 180))%R.
Proof. pose proof pi_bounds. lra. Qed.

Lemma c26_fixed_small : forall m f, supported f = true -> fsigned f = true -> forall y x th,
  let M := Rmax (Rabs (fval f x)) (Rabs (fval f y)) in
  (100 * Rmin (Rabs (fval f x)) (Rabs (fval f y)) <= 21 * M ->
   16 * ulp f <= M * M -> 3 / 2 * (M * M) <= fval f (fmax f) -> is_angle (fval f y) (fval f x) th ->
   exists r, fixed_atan2_poly m f y x = Ok r /\ Rabs (fval f r - th) <= 28 / 1000 * (PI / 180) + (3 + 5 / (M * M)) * ulp f)%R.
Proof.
  intros m f Hf S y x th M H0 H1 H2 A. pose proof (supported_fwf f Hf) as W. pose proof (fone_IZR_pos f (proj1 W)) as Q.
  assert (U : (0 < ulp f)%R) by (rewrite ulp_eq by apply W; apply Rinv_0_lt_compat; auto).
  destruct (c24_g m f Hf S (47 / 100000) y x th) with (2 := H1) (3 := H2) (4 := A) as (r & E & B).
  - intros t Ht T. apply gap_small. apply (ratio (fval f x) (fval f y) t); auto.
    + destruct (Req_dec (fval f x) 0) as [X0|X0]; [|left; exact X0]. destruct (Req_dec (fval f y) 0) as [Y0|Y0]; [|right; exact Y0]. exfalso.
      unfold M in H1. rewrite X0, Y0, Rabs_R0, Rmax_left, Rmult_0_r in H1 by lra. lra.
    + assert (R : forall a b, (IZR a / IZR b = fval f a / fval f b)%R).
      { intros a b. rewrite !fval_eq by apply W. destruct (Req_dec (IZR b) 0) as [Z|Z]; [rewrite Z; unfold Rdiv; rewrite !Rmult_0_l, Rinv_0; ring|]. field. split; auto. lra. }
      rewrite !R in Ht. exact Ht.
  - exists r. split; auto. fold M in B. pose proof doc_bound. lra.
Qed.

Section F.
Context {prec emax : Z} {Hp : Prec_gt_0 prec} {He : Prec_lt_emax prec emax}.
Definition doc_claims : Prop := forall y x : binary_float prec emax, is_finite y = true -> is_finite x = true -> forall th,
  (bpow radix2 (3 - emax / 2) <= Rmax (Rabs (B2R x)) (Rabs (B2R y)) <= bpow radix2 (emax / 2 - 3))%R ->
  (100 * Rmin (Rabs (B2R x)) (Rabs (B2R y)) <= 21 * Rmax (Rabs (B2R x)) (Rabs (B2R y)))%R ->
  is_angle (B2R y) (B2R x) th ->
  exists r, float_atan2_poly y x = Ok r /\ is_finite r = true /\ (Rabs (B2R r - th) <= 28 / 1000 * (PI / 180))%R.
Lemma doc_of : 24 <= prec <= 100 -> prec + 20 <= emax <= 2000 ->
  is_finite (@fhalf prec emax Hp He) = true -> (Rabs (B2R (@fhalf prec emax Hp He) - PI / 2) <= 5 / 100000000)%R ->
  is_finite (float_of_float prec emax lit_pi) = true -> (Rabs (B2R (float_of_float prec emax lit_pi) - PI) <= 1 / 10000000)%R -> doc_claims.
Proof.
  intros P E Fh Vh Fp Vp y x Fy Fx th M H A. apply angle_is in A. subst th. exists (fatan2 y x). split; [apply atan2_float_eq|].
  assert (NZ : (B2R x <> 0 \/ B2R y <> 0)%R).
  { destruct (Req_dec (B2R x) 0) as [X0|X0]; [|left; exact X0]. destruct (Req_dec (B2R y) 0) as [Y0|Y0]; [|right; exact Y0]. exfalso.
    rewrite X0, Y0, Rabs_R0, Rmax_left in M by lra. pose proof (bpow_gt_0 radix2 (3 - emax / 2)). lra. }
  destruct (fatan2_acc_g P E Fh Vh Fp Vp ltac:(unfold fhalf; apply Bdiv_opp_l) (47 / 100000) ltac:(lra) y x Fy Fx) as [F B]; [|exact M|].
  - intros t Ht T. apply gap_small. apply (ratio (B2R x) (B2R y) t); auto.
  - split; auto. pose proof doc_bound. lra.
Qed.
End F.
Lemma doc_f32 : @doc_claims 24 128 _ _.
Proof.
  pose proof pi_bounds as PB. destruct f32_half_val as [Vh Fh]. destruct f32_pi_val as [Vp Fp].
  assert (Vh' : (B2R (@fhalf 24 128 _ _) = IZR 13176795 * / IZR 8388608)%R) by exact Vh.
  assert (Vp' : (B2R f32_pi = IZR 13176795 * / IZR 4194304)%R) by exact Vp.
  apply doc_of; auto; try lia.
  - rewrite Vh'. apply Rabs_le. lra.
  - change (Rabs (B2R f32_pi - PI) <= 1 / 10000000)%R. rewrite Vp'. apply Rabs_le. lra.
Qed.
Lemma doc_f64 : @doc_claims 53 1024 _ _.
Proof.
  pose proof pi_bounds as PB. destruct f64_half_val as [Vh Fh]. destruct f64_pi_val as [Vp Fp].
  assert (Vh' : (B2R (@fhalf 53 1024 _ _) = IZR 7074237752028440 * / IZR 4503599627370496)%R) by exact Vh.
  assert (Vp' : (B2R f64_pi = IZR 7074237752028440 * / IZR 2251799813685248)%R) by exact Vp.
  apply doc_of; auto; try lia.
  - rewrite Vh'. apply Rabs_le. lra.
  - change (Rabs (B2R f64_pi - PI) <= 1 / 10000000)%R. rewrite Vp'. apply Rabs_le. lra.
Qed.
