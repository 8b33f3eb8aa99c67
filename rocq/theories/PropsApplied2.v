(** * More theorems with many hypotheses, applied to concrete floats. *)

From Coq Require Import ZArith Reals List Lia Lra.
From Flocq Require Import Core.Core IEEE754.BinarySingleNaN.
From Verif Require Import Base FloatBase Traits Trig FixedPrim FixedImpl FloatImpl Complex Spec SpecAngle SpecFilter SpecRotor SpecMixer SpecUnwrap SpecBlend SpecFormula SpecProgram SpecLoop SpecStateSpace
  FloatLemmas FloatArith PropsWrap PropsBlend PropsUnwrap PropsMixer PropsFeedback PropsStateSpace PropsApplied.
Import ListNotations.
Open Scope Z_scope.

Lemma three_pi : forall p : f32, mixed_pi float_pi = Ok p -> (3 <= B2R p)%R.
Proof. intros p E. destruct C10_wrap_range_f32 as (q & E' & _ & B & _). rewrite E in E'. injection E' as <-. lra. Qed.

(** C133: from 3 towards 5. *)
Example C133_applied : let n := float_of_Z 24 128 in exists r r', lerp float_ops (n 3) (n 5) (n 0) = Ok r /\ B2R r = 3%R /\ lerp float_ops (n 3) (n 5) (n 1) = Ok r' /\ B2R r' = 5%R.
Proof.
  cbv zeta. destruct (small32 0 eq_refl) as [V0 F0]. destruct (small32 1 eq_refl) as [V1 F1]. destruct (small32 3 eq_refl) as [V3 F3]. destruct (small32 5 eq_refl) as [V5 F5].
  generalize dependent (float_of_Z 24 128 0). intros a0 V0 F0. generalize dependent (float_of_Z 24 128 1). intros a1 V1 F1.
  generalize dependent (float_of_Z 24 128 3). intros a3 V3 F3. generalize dependent (float_of_Z 24 128 5). intros a5 V5 F5.
  assert (B : forall x : f32, (Rabs (B2R x) <= 1024)%R -> (Rabs (B2R x) <= bpow radix2 10)%R) by (intros x H; apply pow_large; [lia|exact H]).
  destruct (C133_lerp_float 24 128 ltac:(lia) ltac:(lia) a3 a5 a0 10) as (r & R1 & _ & _ & R2 & _); auto; try lia; try (apply B; rewrite ?V3, ?V5, Rabs_pos_eq; lra); [rewrite V0; lra|].
  destruct (C133_lerp_float 24 128 ltac:(lia) ltac:(lia) a3 a5 a1 10) as (r' & S1 & _ & _ & _ & _ & S2); auto; try lia; try (apply B; rewrite ?V3, ?V5, Rabs_pos_eq; lra); [rewrite V1; lra|].
  exists r, r'. split; [exact R1|]. split; [rewrite R2; [exact V3|exact V0]|]. split; [exact S1|]. rewrite S2; [exact V5|exact V1|rewrite V3, V5; lra].
Qed.

(** C139: a phase that moves from 0 to 2 is recovered from its readings in f32. *)
Example C139_applied : let n := float_of_Z 24 128 in exists u : f32, returns (fun fuel => unwrap_loop_float fuel (n 0, n 0) [n 1; n 2]) (n 2, u) /\ (Rabs (B2R u - 2) <= / 100000)%R.
Proof.
  cbv zeta. destruct (small32 0 eq_refl) as [V0 F0]. destruct (small32 1 eq_refl) as [V1 F1]. destruct (small32 2 eq_refl) as [V2 F2].
  generalize dependent (float_of_Z 24 128 0). intros a0 V0 F0. generalize dependent (float_of_Z 24 128 1). intros a1 V1 F1. generalize dependent (float_of_Z 24 128 2). intros a2 V2 F2.
  destruct C139_unwrap_f32 as (p & Ep & H). pose proof (three_pi p Ep) as P3.
  assert (G : forall a : f32, (IZR 0 <= B2R a <= 2)%R -> (Rabs (B2R a) <= B2R p)%R) by (intros a A; rewrite Rabs_pos_eq; lra).
  assert (B22 : bpow radix2 (2 - 24) = (/ 4194304)%R) by (cbn; lra). assert (B21 : bpow radix2 (3 - 1 - 24) = (/ 4194304)%R) by (cbn; lra). assert (B3 : bpow radix2 3 = 8%R) by (cbn; lra).
  destruct (H (B2R p) 0%R 1%R 3 a0 F0 ltac:(lia)) with (rs := [Reading a1 1%R 0; Reading a2 2%R 0]) (r0 := Reading a0 0%R 0) as (u & R1 & _ & R2).
  - rewrite Rminus_eq_0, Rabs_R0, B22. lra.
  - rewrite B22, B21, B3. repeat (apply Forall_cons || apply Forall_nil); unfold reads; cbn [seen true_phase turns length INR]; (split; [|split; [assumption|split; [apply G; lra|]]]); rewrite ?V0, ?V1, ?V2;
      rewrite ?Z.sub_diag, ?Rmult_0_l, ?Rplus_0_r; apply Rabs_le || (rewrite Rabs_pos_eq; lra); lra.
  - cbn [slow true_phase]. repeat split; apply Rabs_le; lra.
  - exists u. cbn [last seen true_phase turns map length INR] in R1, R2. split; [exact R1|]. rewrite V0, Rminus_eq_0, Rabs_R0, B22, B21 in R2. replace (B2R u - IZR 2)%R with (B2R u - 0 - (2 - 0))%R by lra.
    eapply Rle_trans; [exact R2|]. lra.
Qed.

(** C144: 3 + 4i turned by a phase that advances by one radian per sample, for any number of samples. *)
Example C144_applied : forall N, let n := float_of_Z 24 128 in exists ys, returns (fun fuel => mix_float fuel (n 0) (repeat (n 1, mkC (n 3) (n 4)) N)) ys /\ length ys = N /\ Forall (fun y => finite y) ys.
Proof.
  intros N. cbv zeta. destruct (small32 0 eq_refl) as [V0 F0]. destruct (small32 1 eq_refl) as [V1 F1]. destruct (small32 3 eq_refl) as [V3 F3]. destruct (small32 4 eq_refl) as [V4 F4].
  generalize dependent (float_of_Z 24 128 0). intros a0 V0 F0. generalize dependent (float_of_Z 24 128 1). intros a1 V1 F1.
  generalize dependent (float_of_Z 24 128 3). intros a3 V3 F3. generalize dependent (float_of_Z 24 128 4). intros a4 V4 F4.
  destruct C144_mixer_f32_partial as (p & Ep & H). pose proof (three_pi p Ep) as P3.
  destruct (H (repeat (a1, mkC a3 a4) N) a0 F0) as (ys & R1 & R2 & R3 & _).
  - rewrite V0. lra.
  - apply Forall_forall. intros sx I. apply repeat_spec in I. subst sx. cbn [fst snd re im]. split; [split; [exact F1|rewrite V1, Rabs_R1; lra]|]. split; [split; assumption|].
    unfold cabs, cvalf. cbn [re im fst snd]. rewrite V3, V4, five. apply pow_large; [lia|lra].
  - exists ys. split; [exact R1|]. split; [rewrite R2; apply repeat_length|exact R3].
Qed.

(** C173: s = s / 2 + 1 in f32, for any number of rounds. *)
Definition half32 : f32 := @B754_finite 24 128 false 8388608 (-24) eq_refl.
Lemma half32_value : B2R half32 = (/ 2)%R.
Proof. unfold B2R, half32, F2R. cbn. lra. Qed.
Lemma step_small : (2 * (bpow radix2 (- 24) * 16 + / 2 * bpow radix2 (3 - 128 - 24)) <= / 100000)%R.
Proof. assert (bpow radix2 (3 - 128 - 24) <= bpow radix2 (-24))%R by (apply bpow_le; lia). assert (E : bpow radix2 (-24) = (/ 16777216)%R) by (cbn; lra). change (- 24) with (-24). rewrite E in *. lra. Qed.
Example C173_applied : forall N, let n := float_of_Z 24 128 in exists r, state_space float_ops [[half32]] [n 0] (repeat [n 1] N) = Ok r /\
  bounded 4 [1%R] (map B2R r) /\ close (2 / 100000) [1%R] (map B2R r) (state_spaceR [[/ 2]] [0] (repeat [1] N))%R.
Proof.
  intros N. cbv zeta. pose proof half32_value as VH. pose proof step_small as ST. assert (FH : is_finite half32 = true) by reflexivity. destruct (small32 0 eq_refl) as [V0 F0]. destruct (small32 1 eq_refl) as [V1 F1].
  generalize dependent half32. intros h VH FH. generalize dependent (float_of_Z 24 128 0). intros a0 V0 F0. generalize dependent (float_of_Z 24 128 1). intros a1 V1 F1.
  assert (H2 : (Rabs (/ 2) = / 2)%R) by (apply Rabs_pos_eq; lra).
  destruct (C173_float 24 128 ltac:(lia) ltac:(lia) 16%R) with (X := 4%R) (U := 1%R) (L := (/ 2)%R) (kappa := 0%R) (q := 0%R) (nu := (/ 100000)%R) (w := [1%R]) (A := [[h]]) (A' := [[(/ 2)%R]])
    (cs := repeat [a1] N) (cs' := repeat [1%R] N) (s := [a0]) (y := [0%R]) (rho := 0%R) as (r & R1 & _ & R2 & _ & R3).
  - apply pow_large; [lia|lra].
  - lra.
  - repeat constructor. exact FH.
  - unfold stable, gain. cbn [map wsum length INR]. rewrite VH. repeat (apply conj || apply Forall2_cons || apply Forall2_nil || apply Forall_cons || apply Forall_nil); cbn [wsum]; rewrite ?H2; try lra. rewrite Rmult_1_l, Rmult_1_r. exact ST.
  - lra.
  - lra.
  - unfold matrix_near, gain, minus. cbn [map combine fst snd]. rewrite VH. repeat (apply conj || apply Forall2_cons || apply Forall2_nil || apply Forall_cons || apply Forall_nil); [reflexivity|]. cbn [wsum]. rewrite Rminus_eq_0, Rabs_R0. lra.
  - induction N as [|N IH]; cbn [repeat]; constructor; [|exact IH]. unfold bounded. cbn [map close]. rewrite V1. repeat (apply conj || apply Forall2_cons || apply Forall2_nil || apply Forall_cons || apply Forall_nil); rewrite ?Rminus_eq_0, ?Rabs_R0, ?Rabs_R1; try lra; try exact I; try exact F1.
  - lra.
  - repeat constructor. exact F0.
  - unfold bounded. cbn [map]. rewrite V0. apply Forall2_cons; [|apply Forall2_nil]. rewrite Rabs_R0. lra.
  - unfold bounded. apply Forall2_cons; [|apply Forall2_nil]. rewrite Rabs_R0. lra.
  - cbn [map close]. rewrite V0, Rminus_eq_0, Rabs_R0. split; [lra|exact I].
  - exists r. split; [exact R1|]. split; [exact R2|]. set (y := state_spaceR _ _ _) in *. destruct r as [|r0 [|]], y as [|y0 [|]]; cbn [map close] in *; try tauto.
    destruct R3 as [R3 _]. split; [|exact I]. eapply Rle_trans; [exact R3|]. rewrite !Rmult_1_r. rewrite repeat_length.
    pose proof (pow_lt (/ 2) N ltac:(lra)) as L0. set (l := ((/ 2) ^ N)%R) in *. replace ((0 + 0 * 4 + / 100000) * (1 - l) / (1 - / 2))%R with (2 / 100000 * (1 - l))%R by field. nra.
Qed.
