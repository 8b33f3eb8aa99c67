(** * Cartesian times polar on floats. *)

From Coq Require Import ZArith Reals Lia Lra Psatz Bool List.
From Flocq Require Import Core.Core IEEE754.BinarySingleNaN.
From Verif Require Import Base FloatBase Literals Traits Trig FixedPrim FloatImpl Complex Spec SpecAngle SpecFloatPolar Lemmas FloatLemmas FloatProofs FloatKit FloatArith FloatPolar.
Import ListNotations.
Open Scope Z_scope.

Section CP.
Context {prec emax : Z} {Hp : Prec_gt_0 prec} {He : Prec_lt_emax prec emax}.
Notation float := (binary_float prec emax).
Notation u := (bpow radix2 (- prec)).
Notation eta := (bpow radix2 (3 - emax - prec)).

Lemma cp_float : 4 <= prec -> forall k Sn (z : Cartesian float) (q : Polar float) w C S B, 3 - emax <= 2 * k -> 2 * k + 1 < emax -> cfin z -> cfin w ->
  returns (fun fuel => polar_to_cartesian float_ops (float_wrap_phase fuel) Sn q) w -> let g := B2R (mag q) in
  (Rabs C <= 1)%R -> (Rabs S <= 1)%R ->
  (Rabs (B2R (re w) - g * C) <= B)%R -> (Rabs (B2R (im w) - g * S) <= B)%R -> (Rabs g + B <= bpow radix2 k)%R ->
  (Rabs (B2R (re z)) <= bpow radix2 k)%R -> (Rabs (B2R (im z)) <= bpow radix2 k)%R ->
  exists r, returns (fun fuel => cartesian_mul_polar float_ops (float_wrap_phase fuel) Sn z q) r /\ cfin r /\
  let x := B2R (re z) in let y := B2R (im z) in
  let E := ((Rabs x + Rabs y) * (B + 9 / 4 * u * (Rabs g + B)) + 2 * eta)%R in
  (Rabs (B2R (re r) - (x * (g * C) - y * (g * S))) <= E)%R /\ (Rabs (B2R (im r) - (x * (g * S) + y * (g * C))) <= E)%R.
Proof.
  intros P4 k Sn z q w C S B K1 K2 Fz Fw [n0 R] g HC HS D1 D2 GB Lx Ly.
  assert (U0 : (0 < u <= / 16)%R). { split; [apply bpow_gt_0|]. change (/ 16)%R with (bpow radix2 (-4)). apply bpow_le. lia. }
  assert (T0 : (0 < eta)%R) by apply bpow_gt_0. pose proof (Rabs_pos g) as G0.
  assert (W : forall v t, (Rabs t <= 1)%R -> (Rabs (v - g * t) <= B)%R -> (Rabs v <= Rabs g + B)%R).
  { intros v t T H. replace v with (g * t + (v - g * t))%R by ring. eapply Rle_trans; [apply Rabs_triang|]. rewrite Rabs_mult.
    assert (Rabs g * Rabs t <= Rabs g * 1)%R by (apply Rmult_le_compat_l; auto). lra. }
  pose proof (W _ _ HC D1) as W1. pose proof (W _ _ HS D2) as W2. clear W.
  destruct (fl_mul z w ltac:(lia) Fz Fw k K1 K2 Lx Ly ltac:(lra) ltac:(lra)) as (r & Er & Fr & A1 & A2).
  exists r. split.
  { exists n0. intros n Hn. change (cartesian_mul_polar float_ops (float_wrap_phase n) Sn z q) with (w <- polar_to_cartesian float_ops (float_wrap_phase n) Sn q ;; cartesian_mul float_ops z w).
    rewrite (R n Hn). exact Er. }
  split; [exact Fr|]. cbv zeta. set (x := B2R (re z)) in *. set (y := B2R (im z)) in *. set (c := B2R (re w)) in *. set (s := B2R (im w)) in *.
  pose proof (Rabs_pos x) as X0. pose proof (Rabs_pos y) as Y0.
  assert (UU : (0 <= 2 * u + u * u <= 9 / 4 * u)%R).
  { assert (0 <= u * u <= / 16 * u)%R by (split; [apply Rmult_le_pos; lra|apply Rmult_le_compat_r; lra]). lra. }
  assert (Q : forall a b, (Rabs a <= Rabs g + B)%R -> (Rabs b <= Rabs g + B)%R ->
     ((2 * u + u * u) * (Rabs (x * a) + Rabs (y * b)) <= 9 / 4 * u * (Rabs g + B) * (Rabs x + Rabs y))%R).
  { intros a b Ha Hb. rewrite !Rabs_mult. pose proof (Rabs_pos a). pose proof (Rabs_pos b).
    assert (Rabs x * Rabs a <= Rabs x * (Rabs g + B))%R by (apply Rmult_le_compat_l; auto). assert (Rabs y * Rabs b <= Rabs y * (Rabs g + B))%R by (apply Rmult_le_compat_l; auto).
    replace (9 / 4 * u * (Rabs g + B) * (Rabs x + Rabs y))%R with (9 / 4 * u * (Rabs x * (Rabs g + B) + Rabs y * (Rabs g + B)))%R by ring.
    assert (0 <= Rabs x * Rabs a)%R by (apply Rmult_le_pos; auto). assert (0 <= Rabs y * Rabs b)%R by (apply Rmult_le_pos; auto).
    apply Rmult_le_compat; lra. }
  assert (L : forall v a b, (Rabs (a) <= B)%R -> (Rabs b <= B)%R -> (Rabs v <= Rabs x * Rabs a + Rabs y * Rabs b)%R -> (Rabs v <= (Rabs x + Rabs y) * B)%R).
  { intros v a b Ha Hb H. assert (Rabs x * Rabs a <= Rabs x * B)%R by (apply Rmult_le_compat_l; auto). assert (Rabs y * Rabs b <= Rabs y * B)%R by (apply Rmult_le_compat_l; auto). lra. }
  split.
  - replace (B2R (re r) - (x * (g * C) - y * (g * S)))%R with ((B2R (re r) - (x * c - y * s)) + (x * (c - g * C) - y * (s - g * S)))%R by ring.
    eapply Rle_trans; [apply Rabs_triang|]. specialize (Q c s W1 W2).
    assert (LL : (Rabs (x * (c - g * C) - y * (s - g * S)) <= (Rabs x + Rabs y) * B)%R).
    { apply (L _ _ _ D1 D2). unfold Rminus at 1. eapply Rle_trans; [apply Rabs_triang|]. rewrite Rabs_Ropp, !Rabs_mult. lra. }
    lra.
  - replace (B2R (im r) - (x * (g * S) + y * (g * C)))%R with ((B2R (im r) - (x * s + y * c)) + (x * (s - g * S) + y * (c - g * C)))%R by ring.
    eapply Rle_trans; [apply Rabs_triang|]. specialize (Q s c W2 W1).
    assert (LL : (Rabs (x * (s - g * S) + y * (c - g * C)) <= (Rabs x + Rabs y) * B)%R).
    { apply (L _ _ _ D2 D1). eapply Rle_trans; [apply Rabs_triang|]. rewrite !Rabs_mult. lra. }
    lra.
Qed.
End CP.

Lemma cp_f32 : forall Sn d, accurate_sincos_float 4 d Sn -> (0 <= d <= 1)%R -> forall (z : Cartesian f32) (q : Polar f32),
  is_finite (re z) = true -> is_finite (im z) = true -> is_finite (mag q) = true -> is_finite (ang q) = true ->
  let g := B2R (mag q) in let a := B2R (ang q) in let x := B2R (re z) in let y := B2R (im z) in
  let u := bpow radix2 (-24) in let eta := bpow radix2 (-149) in
  let B := (Rabs g * (d + (a * a / 3 + Rabs a + 1 + d) * u) + eta)%R in
  (Rabs a < bpow radix2 24)%R -> (Rabs x <= bpow radix2 62)%R -> (Rabs y <= bpow radix2 62)%R -> (Rabs g + B <= bpow radix2 62)%R ->
  exists r, returns (fun fuel => cartesian_mul_polar float_ops (float_wrap_phase fuel) Sn z q) r /\ is_finite (re r) = true /\ is_finite (im r) = true /\
  let E := ((Rabs x + Rabs y) * (B + 9 / 4 * u * (Rabs g + B)) + 2 * eta)%R in
  (Rabs (B2R (re r) - (x * (g * Rtrigo_def.cos a) - y * (g * Rtrigo_def.sin a))) <= E)%R /\
  (Rabs (B2R (im r) - (x * (g * Rtrigo_def.sin a) + y * (g * Rtrigo_def.cos a))) <= E)%R.
Proof.
  intros Sn d AS D z q F1 F2 Fm Fa g a x y u eta B La Lx Ly GB.
  assert (B0 : (0 <= B)%R).
  { unfold B. pose proof (bpow_gt_0 radix2 (-149)). pose proof (bpow_gt_0 radix2 (-24)). fold eta u in H, H0. pose proof (Rabs_pos g). pose proof (Rabs_pos a).
    assert (0 <= (a * a / 3 + Rabs a + 1 + d) * u)%R by (apply Rmult_le_pos; nra). assert (0 <= Rabs g * (d + (a * a / 3 + Rabs a + 1 + d) * u))%R by (apply Rmult_le_pos; lra). lra. }
  destruct (tc_f32 Sn d AS D q Fm Fa) as (w & R & G1 & G2 & E1 & E2); auto.
  { fold g. apply Rle_trans with (bpow radix2 62); [lra|apply bpow_le; lia]. }
  destruct (@cp_float 24 128 _ _ ltac:(lia) 62 Sn z q w (Rtrigo_def.cos a) (Rtrigo_def.sin a) B ltac:(lia) ltac:(lia) (conj F1 F2) (conj G1 G2) R (PolarProofs.abs_cos a) (PolarProofs.abs_sin a) E1 E2 GB Lx Ly) as (r & A1 & [A2 A3] & A4).
  exists r. auto.
Qed.
Lemma cp_f64 : forall Sn d, accurate_sincos_float 4 d Sn -> (0 <= d <= 1)%R -> forall (z : Cartesian f64) (q : Polar f64),
  is_finite (re z) = true -> is_finite (im z) = true -> is_finite (mag q) = true -> is_finite (ang q) = true ->
  let g := B2R (mag q) in let a := B2R (ang q) in let x := B2R (re z) in let y := B2R (im z) in
  let u := bpow radix2 (-53) in let eta := bpow radix2 (-1074) in
  let B := (Rabs g * (d + (a * a / 3 + Rabs a + 1 + d) * u) + eta)%R in
  (Rabs a < bpow radix2 53)%R -> (Rabs x <= bpow radix2 510)%R -> (Rabs y <= bpow radix2 510)%R -> (Rabs g + B <= bpow radix2 510)%R ->
  exists r, returns (fun fuel => cartesian_mul_polar float_ops (float_wrap_phase fuel) Sn z q) r /\ is_finite (re r) = true /\ is_finite (im r) = true /\
  let E := ((Rabs x + Rabs y) * (B + 9 / 4 * u * (Rabs g + B)) + 2 * eta)%R in
  (Rabs (B2R (re r) - (x * (g * Rtrigo_def.cos a) - y * (g * Rtrigo_def.sin a))) <= E)%R /\
  (Rabs (B2R (im r) - (x * (g * Rtrigo_def.sin a) + y * (g * Rtrigo_def.cos a))) <= E)%R.
Proof.
  intros Sn d AS D z q F1 F2 Fm Fa g a x y u eta B La Lx Ly GB.
  assert (B0 : (0 <= B)%R).
  { unfold B. pose proof (bpow_gt_0 radix2 (-1074)). pose proof (bpow_gt_0 radix2 (-53)). fold eta u in H, H0. pose proof (Rabs_pos g). pose proof (Rabs_pos a).
    assert (0 <= (a * a / 3 + Rabs a + 1 + d) * u)%R by (apply Rmult_le_pos; nra). assert (0 <= Rabs g * (d + (a * a / 3 + Rabs a + 1 + d) * u))%R by (apply Rmult_le_pos; lra). lra. }
  destruct (tc_f64 Sn d AS D q Fm Fa) as (w & R & G1 & G2 & E1 & E2); auto.
  { fold g. apply Rle_trans with (bpow radix2 510); [lra|apply bpow_le; lia]. }
  destruct (@cp_float 53 1024 _ _ ltac:(lia) 510 Sn z q w (Rtrigo_def.cos a) (Rtrigo_def.sin a) B ltac:(lia) ltac:(lia) (conj F1 F2) (conj G1 G2) R (PolarProofs.abs_cos a) (PolarProofs.abs_sin a) E1 E2 GB Lx Ly) as (r & A1 & [A2 A3] & A4).
  exists r. auto.
Qed.
