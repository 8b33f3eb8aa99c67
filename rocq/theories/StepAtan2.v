(** * Proofs: the jump of the polynomial arctangent at the four diagonals (C156). *)

From Coq Require Import ZArith Reals Lia Lra Psatz Bool List.
From Flocq Require Import Core.Core IEEE754.BinarySingleNaN.
From Verif Require Import Base FloatBase Literals Traits Trig IntImpl FixedPrim FixedImpl FloatImpl Spec SpecAngle
  Lemmas ScalarProofs ScalarProofs2 WrapProofs WrapProofs2 FloatLemmas FloatProofs FloatKit SinReal SinFixed SinFloat TrigProofs
  AtanReal AtanFixed AtanProofs AtanFloat FloatU CrossSin CrossAtan OrderTrig StepAtan.
Open Scope R_scope.

Lemma rat_bound : forall t, -1 <= t <= 1 -> - (32 / 41) <= rat t <= 32 / 41.
Proof.
  intros t T. pose proof (rat_slope (-1) t ltac:(lra) ltac:(lra) ltac:(lra)) as A. pose proof (rat_slope t 1 ltac:(lra) ltac:(lra) ltac:(lra)) as B.
  assert (E : rat 1 = 32 / 41) by (unfold rat, ratk; field). assert (E' : rat (-1) = - (32 / 41)) by (unfold rat, ratk; field). rewrite E' in A. rewrite E in B.
  assert (M : forall a b, a <= b -> Ratan.atan a <= Ratan.atan b) by (intros a b [L| ->]; [left; apply atan_increasing; auto | lra]).
  pose proof (M (-1) t ltac:(lra)). pose proof (M t 1 ltac:(lra)). lra.
Qed.
Lemma quot_range : forall a b, Rabs a <= Rabs b -> b <> 0 -> -1 <= a / b <= 1.
Proof.
  intros a b L B. apply Rabs_le_inv. unfold Rdiv. rewrite Rabs_mult, Rabs_inv. apply Rmult_le_reg_r with (Rabs b); [apply Rabs_pos_lt; auto|].
  rewrite Rmult_assoc, Rinv_l, Rmult_1_r, Rmult_1_l by (apply Rabs_no_R0; auto). exact L.
Qed.
Lemma octant_gap : forall x1 y1 x2 y2, 0 < x1 * x2 -> 0 < y1 * y2 -> Rabs y1 < Rabs x1 -> Rabs x2 <= Rabs y2 ->
  PI / 2 - 64 / 41 <= Rabs (octant rat y2 x2 - octant rat y1 x1).
Proof.
  intros x1 y1 x2 y2 X Y L1 L2. assert (x1 <> 0 /\ y2 <> 0) as [N1 N2] by (split; intros ->; lra).
  rewrite (octant_x rat x1 y1), (octant_y rat x2 y2) by auto. pose proof pi_bounds as PB.
  pose proof (rat_bound _ (quot_range y1 x1 ltac:(lra) N1)) as B1. pose proof (rat_bound _ (quot_range x2 y2 L2 N2)) as B2.
  destruct (Rlt_dec 0 x1), (Rlt_dec 0 y2), (Rle_dec 0 y1); try (exfalso; nra).
  all: unfold Rabs; destruct (Rcase_abs _); lra.
Qed.

Lemma jump_all_fixed : forall m f, supported f = true -> fsigned f = true -> forall y1 x1 y2 x2,
  let M1 := Rmax (Rabs (fval f x1)) (Rabs (fval f y1)) in let M2 := Rmax (Rabs (fval f x2)) (Rabs (fval f y2)) in
  16 * ulp f <= M1 * M1 -> 3 / 2 * (M1 * M1) <= fval f (fmax f) -> 16 * ulp f <= M2 * M2 -> 3 / 2 * (M2 * M2) <= fval f (fmax f) ->
  (0 < x1 * x2)%Z -> (0 < y1 * y2)%Z -> (Z.abs y1 < Z.abs x1)%Z -> (Z.abs x2 <= Z.abs y2)%Z ->
  exists r s, fixed_atan2_poly m f y1 x1 = Ok r /\ fixed_atan2_poly m f y2 x2 = Ok s /\
  98 / 10000 - (6 + 5 / (M1 * M1) + 5 / (M2 * M2)) * ulp f <= Rabs (fval f s - fval f r).
Proof.
  intros m f Hf S y1 x1 y2 x2 M1 M2 L1 U1 L2 U2 X Y D1 D.
  destruct (atan_fixed_rat m f Hf S y1 x1 L1 U1) as (r & Er & Ar). destruct (atan_fixed_rat m f Hf S y2 x2 L2 U2) as (s & Es & As). fold M1 in Ar. fold M2 in As.
  exists r, s. split; auto. split; auto.
  pose proof (bpow_gt_0 radix2 (- ffrac f)) as P.
  assert (PR : forall a b, (0 < a * b)%Z -> 0 < fval f a * fval f b).
  { intros a b H. apply IZR_lt in H. rewrite mult_IZR in H. unfold fval. replace (IZR a * bpow radix2 (- ffrac f) * (IZR b * bpow radix2 (- ffrac f))) with ((IZR a * IZR b) * (bpow radix2 (- ffrac f) * bpow radix2 (- ffrac f))) by ring. apply Rmult_lt_0_compat; auto. apply Rmult_lt_0_compat; auto. }
  assert (AB : forall a, Rabs (fval f a) = IZR (Z.abs a) * bpow radix2 (- ffrac f)) by (intros a; unfold fval; rewrite Rabs_mult, <- abs_IZR, (Rabs_pos_eq (bpow _ _)) by lra; reflexivity).
  pose proof (octant_gap (fval f x1) (fval f y1) (fval f x2) (fval f y2) (PR _ _ X) (PR _ _ Y)) as G.
  assert (A1 : Rabs (fval f y1) < Rabs (fval f x1)) by (rewrite !AB; apply Rmult_lt_compat_r; auto; apply IZR_lt; auto).
  assert (A2 : Rabs (fval f x2) <= Rabs (fval f y2)) by (rewrite !AB; apply Rmult_le_compat_r; [lra|]; apply IZR_le; auto).
  specialize (G A1 A2). pose proof pi_bounds as PB.
  set (e1 := (3 + 5 / (M1 * M1)) * ulp f) in *. set (e2 := (3 + 5 / (M2 * M2)) * ulp f) in *.
  assert (E : (6 + 5 / (M1 * M1) + 5 / (M2 * M2)) * ulp f = e1 + e2) by (unfold e1, e2; lra). rewrite E. clearbody e1 e2.
  set (o1 := octant rat (fval f y1) (fval f x1)) in *. set (o2 := octant rat (fval f y2) (fval f x2)) in *.
  pose proof (Rabs_triang (o2 - fval f s) ((fval f s - fval f r) + (fval f r - o1))) as T1. pose proof (Rabs_triang (fval f s - fval f r) (fval f r - o1)) as T2.
  replace (o2 - fval f s + (fval f s - fval f r + (fval f r - o1))) with (o2 - o1) in T1 by ring. rewrite (Rabs_minus_sym o2 (fval f s)) in T1. clearbody o1 o2. clear -G PB Ar As T1 T2. lra.
Qed.

Lemma rat_f32 : forall yf xf : f32, is_finite yf = true -> is_finite xf = true -> bpow radix2 (-61) <= Rmax (Rabs (B2R xf)) (Rabs (B2R yf)) <= bpow radix2 61 ->
  is_finite (fatan2 yf xf) = true /\ Rabs (B2R (fatan2 yf xf) - octant rat (B2R yf) (B2R xf)) <= 18 * bpow radix2 (-24).
Proof.
  pose proof pi_bounds as PB. intros yf xf Fy Fx M. destruct f32_half_val as [Vh Fh]. destruct f32_pi_val as [Vp Fp].
  assert (Vh' : (B2R (@fhalf 24 128 _ _) = IZR 13176795 * / IZR 8388608)%R) by exact Vh.
  assert (Vp' : (B2R f32_pi = IZR 13176795 * / IZR 4194304)%R) by exact Vp.
  destruct (@fatan2_U 24 128 _ _ ltac:(lia) ltac:(lia)) with (y := yf) (x := xf) as [Fs As]; auto.
  - rewrite Vh'. change (bpow radix2 (- (24))) with (/ 16777216)%R. apply Rabs_le. lra.
  - change (Rabs (B2R f32_pi - PI) <= 2 * bpow radix2 (- (24)))%R. rewrite Vp'. change (bpow radix2 (- (24))) with (/ 16777216)%R. apply Rabs_le. lra.
  - unfold fhalf. apply Bdiv_opp_l.
Qed.
Lemma jump_all_f32 : forall y1 x1 y2 x2 : f32,
  let M1 := Rmax (Rabs (B2R x1)) (Rabs (B2R y1)) in let M2 := Rmax (Rabs (B2R x2)) (Rabs (B2R y2)) in
  is_finite y1 = true -> is_finite x1 = true -> is_finite y2 = true -> is_finite x2 = true ->
  bpow radix2 (-61) <= M1 <= bpow radix2 61 -> bpow radix2 (-61) <= M2 <= bpow radix2 61 ->
  0 < B2R x1 * B2R x2 -> 0 < B2R y1 * B2R y2 -> Rabs (B2R y1) < Rabs (B2R x1) -> Rabs (B2R x2) <= Rabs (B2R y2) ->
  exists r s, float_atan2_poly y1 x1 = Ok r /\ float_atan2_poly y2 x2 = Ok s /\ is_finite r = true /\ is_finite s = true /\
  98 / 10000 <= Rabs (B2R s - B2R r).
Proof.
  intros y1 x1 y2 x2 M1 M2 F1 F2 F3 F4 R1 R2 X Y D1 D2. destruct (rat_f32 y1 x1 F1 F2 R1) as [G1 E1]. destruct (rat_f32 y2 x2 F3 F4 R2) as [G2 E2].
  exists (fatan2 y1 x1), (fatan2 y2 x2). split; [apply atan2_float_eq|]. split; [apply atan2_float_eq|]. split; [exact G1|]. split; [exact G2|].
  pose proof (octant_gap _ _ _ _ X Y D1 D2) as G. pose proof pi_bounds as PB.
  set (o1 := octant rat (B2R y1) (B2R x1)) in *. set (o2 := octant rat (B2R y2) (B2R x2)) in *. set (r := B2R (fatan2 y1 x1)) in *. set (s := B2R (fatan2 y2 x2)) in *. clearbody o1 o2 r s.
  assert (U : bpow radix2 (-24) <= / 16777216) by (change (/ 16777216) with (bpow radix2 (-24)); apply bpow_le; lia).
  pose proof (Rabs_triang (o2 - s) ((s - r) + (r - o1))) as T1. pose proof (Rabs_triang (s - r) (r - o1)) as T2.
  replace (o2 - s + (s - r + (r - o1))) with (o2 - o1) in T1 by ring. rewrite (Rabs_minus_sym o2 s) in T1. clear -G PB E1 E2 T1 T2 U. lra.
Qed.

Lemma rat_f64 : forall yf xf : f64, is_finite yf = true -> is_finite xf = true -> bpow radix2 (-509) <= Rmax (Rabs (B2R xf)) (Rabs (B2R yf)) <= bpow radix2 509 ->
  is_finite (fatan2 yf xf) = true /\ Rabs (B2R (fatan2 yf xf) - octant rat (B2R yf) (B2R xf)) <= 18 * bpow radix2 (-53).
Proof.
  pose proof pi_bounds as PB. intros yf xf Fy Fx M. destruct f64_half_val as [Vh Fh]. destruct f64_pi_val as [Vp Fp].
  assert (Vh' : (B2R (@fhalf 53 1024 _ _) = IZR 7074237752028440 * / IZR 4503599627370496)%R) by exact Vh.
  assert (Vp' : (B2R f64_pi = IZR 7074237752028440 * / IZR 2251799813685248)%R) by exact Vp.
  destruct (@fatan2_U 53 1024 _ _ ltac:(lia) ltac:(lia)) with (y := yf) (x := xf) as [Fs As]; auto.
  - rewrite Vh'. change (bpow radix2 (- (53))) with (/ 9007199254740992)%R. apply Rabs_le. lra.
  - change (Rabs (B2R f64_pi - PI) <= 2 * bpow radix2 (- (53)))%R. rewrite Vp'. change (bpow radix2 (- (53))) with (/ 9007199254740992)%R. apply Rabs_le. lra.
  - unfold fhalf. apply Bdiv_opp_l.
Qed.
Lemma jump_all_f64 : forall y1 x1 y2 x2 : f64,
  let M1 := Rmax (Rabs (B2R x1)) (Rabs (B2R y1)) in let M2 := Rmax (Rabs (B2R x2)) (Rabs (B2R y2)) in
  is_finite y1 = true -> is_finite x1 = true -> is_finite y2 = true -> is_finite x2 = true ->
  bpow radix2 (-509) <= M1 <= bpow radix2 509 -> bpow radix2 (-509) <= M2 <= bpow radix2 509 ->
  0 < B2R x1 * B2R x2 -> 0 < B2R y1 * B2R y2 -> Rabs (B2R y1) < Rabs (B2R x1) -> Rabs (B2R x2) <= Rabs (B2R y2) ->
  exists r s, float_atan2_poly y1 x1 = Ok r /\ float_atan2_poly y2 x2 = Ok s /\ is_finite r = true /\ is_finite s = true /\
  98 / 10000 <= Rabs (B2R s - B2R r).
Proof.
  intros y1 x1 y2 x2 M1 M2 F1 F2 F3 F4 R1 R2 X Y D1 D2. destruct (rat_f64 y1 x1 F1 F2 R1) as [G1 E1]. destruct (rat_f64 y2 x2 F3 F4 R2) as [G2 E2].
  exists (fatan2 y1 x1), (fatan2 y2 x2). split; [apply atan2_float_eq|]. split; [apply atan2_float_eq|]. split; [exact G1|]. split; [exact G2|].
  pose proof (octant_gap _ _ _ _ X Y D1 D2) as G. pose proof pi_bounds as PB.
  set (o1 := octant rat (B2R y1) (B2R x1)) in *. set (o2 := octant rat (B2R y2) (B2R x2)) in *. set (r := B2R (fatan2 y1 x1)) in *. set (s := B2R (fatan2 y2 x2)) in *. clearbody o1 o2 r s.
  assert (U : bpow radix2 (-53) <= / 16777216) by (change (/ 16777216) with (bpow radix2 (-24)); apply bpow_le; lia).
  pose proof (Rabs_triang (o2 - s) ((s - r) + (r - o1))) as T1. pose proof (Rabs_triang (s - r) (r - o1)) as T2.
  replace (o2 - s + (s - r + (r - o1))) with (o2 - o1) in T1 by ring. rewrite (Rabs_minus_sym o2 s) in T1. clear -G PB E1 E2 T1 T2 U. lra.
Qed.
