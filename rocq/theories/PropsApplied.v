(** * Theorems with many hypotheses, applied to concrete inputs: all hypotheses can be met together. *)

From Coq Require Import ZArith Reals List Lia Lra.
From Flocq Require Import Core.Core IEEE754.BinarySingleNaN.
From Verif Require Import Base FloatBase Traits Trig FixedPrim FixedImpl FloatImpl Complex Spec SpecAngle SpecFilter SpecRotor SpecDb SpecExp FloatLemmas FloatArith
  PropsMag2 PropsAngle PropsExp PropsDb PropsLib PropsStep PropsRotor PropsSmooth.
Import ListNotations.
Open Scope Z_scope.

(** f32 and f64 integers *)
Lemma small32 : forall k, Z.abs k < 16777216 -> B2R (float_of_Z 24 128 k) = IZR k /\ is_finite (float_of_Z 24 128 k) = true.
Proof. intros k H. destruct (float_of_Z_exact (prec := 24) (emax := 128) k) as (A & B & _); [exact H|]. auto. Qed.
Lemma small64 : forall k, Z.abs k < 16777216 -> B2R (float_of_Z 53 1024 k) = IZR k /\ is_finite (float_of_Z 53 1024 k) = true.
Proof. intros k H. destruct (float_of_Z_exact (prec := 53) (emax := 1024) k) as (A & B & _); [|auto]. apply Z.lt_trans with 16777216; [exact H|reflexivity]. Qed.
Lemma pow_small : forall k x, k <= 0 -> (1 <= x)%R -> (bpow radix2 k <= x)%R.
Proof. intros k x K X. apply Rle_trans with (bpow radix2 0); [apply bpow_le; exact K|exact X]. Qed.
Lemma pow_large : forall k x, 10 <= k -> (x <= 1024)%R -> (x <= bpow radix2 k)%R.
Proof. intros k x K X. apply Rle_trans with (bpow radix2 10); [exact X|apply bpow_le; exact K]. Qed.

(** C118: |3 + 4i| is at most |3 + 5i|, at least 4, at most 3 + 4, and normalising gives parts of at most 1. *)
Example C118_applied : let n := float_of_Z 24 128 in let z := mkC (n 3) (n 4) in let M := cartesian_mag float_ops (float_sqrt Debug (Bsqrt mode_NE) 1) float_powi in
  exists r s q, M z = Ok r /\ is_finite r = true /\ (4 <= B2R r <= 7)%R /\ M (mkC (n 3) (n 5)) = Ok s /\ (B2R r <= B2R s)%R /\
  cartesian_div_scalar float_ops float_ops (float_conv_float 24 128) float_zero float_real z r = Ok q /\ (Rabs (B2R (re q)) <= 1)%R /\ (Rabs (B2R (im q)) <= 1)%R.
Proof.
  cbv zeta. destruct (small32 3 eq_refl) as [V3 F3]. destruct (small32 4 eq_refl) as [V4 F4]. destruct (small32 5 eq_refl) as [V5 F5].
  generalize dependent (float_of_Z 24 128 3). intros x V3 F3. generalize dependent (float_of_Z 24 128 4). intros y V4 F4. generalize dependent (float_of_Z 24 128 5). intros w V5 F5.
  assert (SQ : forall a : f32, Bsqrt mode_NE a = Bsqrt mode_NE a) by reflexivity.
  assert (Mx : forall b v : f32, B2R b = IZR 4 \/ B2R b = IZR 5 -> Rmax (Rabs (B2R x)) (Rabs (B2R b)) = B2R b).
  { intros b _ [E|E]; rewrite V3, E, !Rabs_pos_eq by lra; apply Rmax_right; lra. }
  destruct (C118_sum 24 128 ltac:(lia) ltac:(lia) Debug 1%nat (mkC x y) _ SQ 10) as (r & a & E & Fr & Ea & Fa & L); cbn [re im]; auto; try lia.
  { rewrite (Mx y y), V4 by auto. apply pow_small; [lia|lra]. }
  { rewrite (Mx y y), V4 by auto. apply pow_large; [lia|lra]. }
  destruct (C118_sum 24 128 ltac:(lia) ltac:(lia) Debug 1%nat (mkC x w) _ SQ 10) as (s & a' & E' & Fs & _); cbn [re im]; auto; try lia.
  { rewrite (Mx w w), V5 by auto. apply pow_small; [lia|lra]. }
  { rewrite (Mx w w), V5 by auto. apply pow_large; [lia|lra]. }
  destruct (C118_parts 24 128 ltac:(lia) ltac:(lia) Debug 1%nat _ SQ (mkC x y) r) as [_ P]; cbn [re im]; auto.
  { right. rewrite V4. apply pow_small; [lia|lra]. }
  destruct (C118_normalise 24 128 ltac:(lia) ltac:(lia) Debug 1%nat _ SQ (mkC x y) r) as (q & Eq & _ & _ & Q1 & Q2); cbn [re im]; auto.
  { right. rewrite V4. apply pow_small; [lia|lra]. }
  destruct (C118_order 24 128 Debug 1%nat _ SQ (mkC x y) (mkC x w) s) as (r' & Er & _ & L2); cbn [re im]; auto; [lra|rewrite V4, V5, !Rabs_pos_eq; lra|].
  rewrite E in Er. injection Er as <-. cbn [im] in P. rewrite V4, Rabs_pos_eq in P by lra.
  exists r, s, q. split; [exact E|]. split; [exact Fr|]. split; [split; [exact P|]|].
  - cbn [o_add float_ops] in Ea. injection Ea as Ea. assert (A7 : B2R a = 7%R).
    { destruct (small32 7 eq_refl) as [V7 _]. assert (G7 : generic_format radix2 (SpecFloat.fexp 24 128) 7) by (rewrite <- V7; apply generic_format_B2R).
      assert (R7 : round radix2 (SpecFloat.fexp 24 128) ZnearestE (B2R (Babs x) + B2R (Babs y)) = 7%R).
      { rewrite !B2R_Babs, V3, V4, !Rabs_pos_eq by lra. replace (3 + 4)%R with 7%R by lra. apply round_generic; [typeclasses eauto|exact G7]. }
      rewrite <- Ea. destruct (plus_ok (Babs x) (Babs y)) as [_ V]; rewrite ?is_finite_Babs; auto; [|rewrite V; exact R7].
      rewrite R7, Rabs_pos_eq by lra. apply Rle_lt_trans with (bpow radix2 3); [cbn; lra|apply bpow_lt; lia]. }
    lra.
  - split; [exact E'|]. split; [lra|]. split; [exact Eq|]. split; [exact Q1|exact Q2].
Qed.

(** C129: the angle of (3 + 4i)(4 - 3i), and of (4 - 3i) conj(3 + 4i), in f32 and f64. *)
Lemma five : (sqrt (3 * 3 + 4 * 4) = 5)%R.
Proof. replace (3 * 3 + 4 * 4)%R with (5 * 5)%R by lra. apply sqrt_square. lra. Qed.
Example C129_applied : let n := float_of_Z 24 128 in let z := mkC (n 3) (n 4) in let w := mkC (n 4) (n (-3)) in
  exists p a b c, cartesian_mul float_ops z w = Ok p /\ float_atan2_poly (im z) (re z) = Ok a /\ float_atan2_poly (im w) (re w) = Ok b /\ float_atan2_poly (im p) (re p) = Ok c /\
  (cabs (csub (cis (B2R c)) (cis (B2R a + B2R b))) <= 1477 / 100000)%R.
Proof.
  cbv zeta. destruct (small32 3 eq_refl) as [V3 F3]. destruct (small32 4 eq_refl) as [V4 F4]. destruct (small32 (-3) eq_refl) as [V5 F5].
  assert (A : cabs (cvalf (mkC (float_of_Z 24 128 3) (float_of_Z 24 128 4))) = 5%R) by (unfold cabs, cvalf; cbn [fst snd re im]; rewrite V3, V4; exact five).
  assert (B : cabs (cvalf (mkC (float_of_Z 24 128 4) (float_of_Z 24 128 (-3)))) = 5%R) by (unfold cabs, cvalf; cbn [fst snd re im]; rewrite V5, V4; replace (4 * 4 + -3 * -3)%R with (3 * 3 + 4 * 4)%R by lra; exact five).
  apply C129_product_f32; [split; assumption|split; assumption|..]; rewrite ?A, ?B; (split; [apply pow_small; [discriminate|lra]|apply pow_large; [discriminate|lra]]).
Qed.
Example C129_applied_64 : let n := float_of_Z 53 1024 in let z := mkC (n 3) (n 4) in let w := mkC (n 4) (n (-3)) in
  exists q p a b c, cartesian_conj float_signed z = Ok q /\ cartesian_mul float_ops w q = Ok p /\
  float_atan2_poly (im z) (re z) = Ok a /\ float_atan2_poly (im w) (re w) = Ok b /\ float_atan2_poly (im p) (re p) = Ok c /\
  (cabs (csub (cis (B2R c)) (cis (B2R b - B2R a))) <= 1477 / 100000)%R.
Proof.
  cbv zeta. destruct (small64 3 eq_refl) as [V3 F3]. destruct (small64 4 eq_refl) as [V4 F4]. destruct (small64 (-3) eq_refl) as [V5 F5].
  assert (A : cabs (cvalf (mkC (float_of_Z 53 1024 3) (float_of_Z 53 1024 4))) = 5%R) by (unfold cabs, cvalf; cbn [fst snd re im]; rewrite V3, V4; exact five).
  assert (B : cabs (cvalf (mkC (float_of_Z 53 1024 4) (float_of_Z 53 1024 (-3)))) = 5%R) by (unfold cabs, cvalf; cbn [fst snd re im]; rewrite V5, V4; replace (4 * 4 + -3 * -3)%R with (3 * 3 + 4 * 4)%R by lra; exact five).
  apply C129_difference_f64; [split; assumption|split; assumption|..]; rewrite ?A, ?B; (split; [apply pow_small; [discriminate|lra]|apply pow_large; [discriminate|lra]]).
Qed.

(** C130: 100 to decibels and back, with correctly rounded log10 and exp10. *)
Example C130_applied : let x := float_of_Z 24 128 100 in let D := float_dbmag best_log10 best_exp10 in
  exists r, bind (mixed_mag2db D x) (mixed_db2mag D) = Ok r /\ is_finite r = true /\
  (Rabs (B2R r - 100) <= (101 / 100 * bpow radix2 (-24) + 32 / 10 * (bpow radix2 (-24) + 2 * bpow radix2 (-24)) * Rabs (log10 100) + 4 * bpow radix2 (2 - 128 - 24)) * 100)%R.
Proof.
  cbv zeta. destruct (small32 100 eq_refl) as [V F].
  destruct (C130_best_routines 24 128 ltac:(lia) ltac:(lia) ltac:(lia) ltac:(lia)) as [[L _] [E _]].
  destruct (C130_there_and_back 24 128 ltac:(lia) ltac:(lia) ltac:(lia) ltac:(lia) best_log10 best_exp10 20 _ _ (or_introl (conj eq_refl (conj eq_refl eq_refl))) (bpow radix2 (-24)) (float_of_Z 24 128 100)) as (r & R1 & R2 & R3); auto.
  - split; [apply bpow_ge_0|cbn; lra].
  - rewrite V. split; [apply pow_small; [lia|lra]|apply pow_large; [lia|lra]].
  - exists r. rewrite V in R3. auto.
Qed.

(** C131: exp(1 + i) exp(-1 + 2i) against exp(0 + 3i), with correctly rounded exp, sin and cos. *)
Example C131_applied : let n := float_of_Z 24 128 in let z := mkC (n 1) (n 1) in let w := mkC (n (-1)) (n 2) in
  exists l r, (x <- cartesian_exp float_ops best_sin best_exp z ;; y <- cartesian_exp float_ops best_sin best_exp w ;; cartesian_mul float_ops x y) = Ok l /\
  (s <- cartesian_add float_ops z w ;; cartesian_exp float_ops best_sin best_exp s) = Ok r.
Proof.
  cbv zeta. destruct (small32 1 eq_refl) as [V1 F1]. destruct (small32 2 eq_refl) as [V2 F2]. destruct (small32 (-1) eq_refl) as [V3 F3].
  destruct (C131_best_routines 24 128 ltac:(lia) ltac:(lia)) as [E Sn].
  assert (U : (0 <= bpow radix2 (-24) <= / 1000)%R) by (split; [apply bpow_ge_0|cbn; lra]).
  pose proof exp_le_3 as E3. pose proof (exp_ineq1 1 ltac:(lra)) as E2. assert (EM : (exp (-1) = / exp 1)%R) by (apply exp_Ropp).
  assert (EI : (/ 4 <= / exp 1 <= 1)%R). { split; [apply Rinv_le_contravar; lra|]. apply Rle_trans with (/ 1)%R; [apply Rinv_le_contravar; lra|lra]. }
  assert (P2 : bpow radix2 (-2) = (/ 4)%R) by reflexivity.
  destruct (C131_law 24 128 ltac:(lia) ltac:(lia) ltac:(lia) best_sin best_exp 8 _ _ (Sn 8%R) E U U 12 (mkC (float_of_Z 24 128 1) (float_of_Z 24 128 1)) (mkC (float_of_Z 24 128 (-1)) (float_of_Z 24 128 2)))
    as (l & r & R1 & R2 & _); cbn [re im]; rewrite ?V1, ?V2, ?V3; try lia; auto.
  - apply pow_large; [lia|lra].
  - rewrite !Rabs_pos_eq by lra. lra.
  - split; [apply pow_small; [lia|lra]|apply pow_large; [lia|lra]].
  - change (IZR (-1)) with (-1)%R. rewrite EM. split; [apply Rle_trans with (bpow radix2 (-2)); [apply bpow_le; lia|lra]|apply pow_large; [lia|lra]].
  - change (IZR (-1)) with (-1)%R. replace (1 + -1)%R with 0%R by lra. rewrite exp_0. split; [apply pow_small; [lia|lra]|apply pow_large; [lia|lra]].
  - exists l, r. auto.
Qed.

(** C138 and C156: from the direction (1, 0) to the direction (1, 1). *)
Lemma east : is_angle 0 1 0.
Proof. split; [pose proof PI_RGT_0; lra|]. exists 1%R. rewrite cos_0, sin_0. repeat split; lra. Qed.
Lemma north_east : is_angle 1 1 (PI / 4).
Proof.
  split; [pose proof PI_RGT_0; lra|]. exists (sqrt 2). rewrite cos_PI4, sin_PI4. pose proof (sqrt_lt_R0 2 ltac:(lra)).
  repeat split; [assumption|field; lra|field; lra].
Qed.
Example C156_applied : let n := float_of_Z 24 128 in exists r s, float_atan2_poly (n 0) (n 1) = Ok r /\ float_atan2_poly (n 1) (n 1) = Ok s /\ is_finite r = true /\ is_finite s = true.
Proof.
  cbv zeta. destruct (small32 1 eq_refl) as [V1 F1]. destruct (small32 0 eq_refl) as [V0 F0]. pose proof PI_RGT_0.
  destruct (C156_f32 (float_of_Z 24 128 0) (float_of_Z 24 128 1) (float_of_Z 24 128 1) (float_of_Z 24 128 1) 0 (PI / 4)) as (r & s & R1 & R2 & R3 & R4 & _); auto; rewrite ?V1, ?V0, ?Rabs_R0, ?Rabs_R1.
  - rewrite Rmax_left by lra. split; [apply pow_small; [lia|lra]|apply pow_large; [lia|lra]].
  - rewrite Rmax_left by lra. split; [apply pow_small; [lia|lra]|apply pow_large; [lia|lra]].
  - exact east.
  - exact north_east.
  - lra.
  - exists r, s. auto.
Qed.
Example C138_applied : let n := float_of_Z 24 128 in let A := float_atan (fun x => x) (fun _ _ => n 1) in
  exists r, mixed_atan2_poly A (n 1) (n 1) = Ok r /\ (Rabs (B2R r - 1) <= 492 / 100000 + 1)%R.
Proof.
  cbv zeta. destruct (small32 1 eq_refl) as [V1 F1]. pose proof PI_RGT_0. pose proof PI_4.
  destruct (C138_atan2_f32 (fun x => x) (fun _ _ => float_of_Z 24 128 1) 1 (float_of_Z 24 128 1) (float_of_Z 24 128 1) (PI / 4)) as (r & R1 & _ & _ & R2); auto; cbv beta in *; rewrite ?V1 in *.
  - rewrite Rabs_R1, Rmax_left by lra. split; [apply pow_small; [lia|lra]|apply pow_large; [lia|lra]].
  - exact north_east.
  - apply Rabs_le. lra.
  - exists r. auto.
Qed.

(** C125 and C155: rotating 3 + 4i by one radian; the sines of 1 and 2. *)
Example C125_applied : let n := float_of_Z 24 128 in exists r, returns (fun fuel => w <- rotor fuel (n 1) ;; cartesian_mul float_ops (mkC (n 3) (n 4)) w) r /\
  (Rabs (cabs (cvalf r) - 5) <= 8 / 1000000 * 5 + 3 * bpow radix2 (-149))%R.
Proof.
  cbv zeta. destruct (small32 1 eq_refl) as [V1 F1]. destruct (small32 3 eq_refl) as [V3 F3]. destruct (small32 4 eq_refl) as [V4 F4]. pose proof PI2_3_2.
  assert (A : cabs (cvalf (mkC (float_of_Z 24 128 3) (float_of_Z 24 128 4))) = 5%R) by (unfold cabs, cvalf; cbn [fst snd re im]; rewrite V3, V4; exact five).
  destruct (C125_rotate_f32 (mkC (float_of_Z 24 128 3) (float_of_Z 24 128 4)) (float_of_Z 24 128 1)) as (r & R1 & _ & _ & R2); auto.
  - rewrite V1, Rabs_R1. lra.
  - rewrite A. apply pow_large; [lia|lra].
  - exists r. rewrite A in R2. auto.
Qed.
Example C155_applied : let n := float_of_Z 24 128 in exists r s : f32, Trig.sin float_ops float_signed float_pi float_powi (n 1) = Ok r /\ Trig.sin float_ops float_signed float_pi float_powi (n 2) = Ok s /\
  (Rabs (B2R r - B2R s) <= 1 + 19 * bpow radix2 (-24))%R.
Proof.
  cbv zeta. destruct (small32 1 eq_refl) as [V1 F1]. destruct (small32 2 eq_refl) as [V2 F2]. pose proof PI2_3_2.
  destruct (C155_f32 (float_of_Z 24 128 1) (float_of_Z 24 128 2)) as [(r & s & R1 & R2 & _ & _ & R3) _]; auto.
  - rewrite V1, Rabs_R1. lra.
  - rewrite V2, Rabs_pos_eq; lra.
  - exists r, s. rewrite V1, V2 in R3. replace (Rabs (1 - 2)) with 1%R in R3 by (rewrite Rabs_left; lra). auto.
Qed.
