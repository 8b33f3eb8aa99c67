(** * Wrapping far-away float angles: where the accumulated rounding stays small, and where it does not. *)

From Coq Require Import ZArith Reals Lia Lra Psatz.
From Flocq Require Import Core.Core IEEE754.BinarySingleNaN.
From Verif Require Import Base FloatBase Literals Traits Trig FloatImpl Lemmas WrapProofs WrapProofs2 FloatLemmas SinReal FloatPolar.
Open Scope Z_scope.

(** more fuel does not change an answer *)
Lemma wrap_mono : forall {T} (O : MixedOps T) (S : MixedNumSigned T) (P : MixedPi T) n phi r,
  wrap_phase O S P n phi = Ok r -> returns (fun fuel => wrap_phase O S P fuel phi) r.
Proof.
  intros T O S P n phi r E. exists n. intros k L. unfold wrap_phase in *.
  destruct (mixed_pi P) as [pi| |]; cbn [bind] in *; try discriminate.
  destruct (o_of_i32 O 2) as [two| |]; cbn [bind] in *; try discriminate.
  destruct (o_mul O two pi) as [tau| |]; cbn [bind] in *; try discriminate.
  match type of E with bind (while _ ?c ?b _) _ = _ => destruct (while n c b phi) as [t| |] eqn:W; cbn [bind] in E; try discriminate;
    rewrite (while_mono c b n phi _ W ltac:(discriminate) k L) end. cbn [bind].
  exact (while_mono _ _ n t _ E ltac:(discriminate) k L).
Qed.

Definition far32 : f32 := float_of_Z 24 128 40960.
Definition far32_wrapped : f32 := @B754_finite 24 128 false 9846586 (-22) eq_refl.

Lemma far32_run : wrap_phase float_ops float_signed float_pi (Z.to_nat 7000) far32 = Ok far32_wrapped.
Proof.
  assert (H : map_res B2SF (wrap_phase float_ops float_signed float_pi (Z.to_nat 7000) far32) = Ok (B2SF far32_wrapped)) by (vm_compute; reflexivity).
  destruct (wrap_phase _ _ _ _ _) as [r| |]; cbn [map_res bind] in H; try discriminate. f_equal. apply B2SF_inj. injection H as H. rewrite H. reflexivity.
Qed.
Lemma far32_val : B2R far32 = 40960%R /\ is_finite far32 = true.
Proof.
  assert (H : B2SF far32 = SpecFloat.S754_finite false 10485760 (-8)) by (vm_compute; reflexivity).
  destruct far32 as [| | |s m e b]; cbn in H; try discriminate. injection H as -> -> ->. split; [|reflexivity].
  unfold B2R, F2R. cbn [Fnum Fexp cond_Zopp]. change (bpow radix2 (-8)) with (/ 256)%R. lra.
Qed.
Lemma far32_wrapped_val : B2R far32_wrapped = (IZR 9846586 / 4194304)%R.
Proof. unfold B2R, far32_wrapped, F2R. cbn [Fnum Fexp cond_Zopp]. change (bpow radix2 (-22)) with (/ 4194304)%R. lra. Qed.

Lemma far32_off : exists (phi r : f32), is_finite phi = true /\ (Rabs (B2R phi) <= bpow radix2 16)%R /\
  returns (fun fuel => mixed_wrap_phase (float_wrap_phase fuel) phi) r /\ forall k, (24 / 10 <= Rabs (B2R r - (B2R phi - IZR k * (2 * PI))))%R.
Proof.
  exists far32, far32_wrapped. destruct far32_val as [V F]. rewrite V, far32_wrapped_val. split; [exact F|]. split.
  { change (bpow radix2 16) with 65536%R. rewrite Rabs_pos_eq; lra. }
  split; [exact (wrap_mono _ _ _ _ _ _ far32_run)|]. intros k. pose proof pi_bounds as PB.
  destruct (Z.le_gt_cases k 6518) as [L|L].
  - apply IZR_le in L. rewrite Rabs_left1; nra.
  - assert (G : (6519 <= k)%Z) by lia. apply IZR_le in G. rewrite Rabs_pos_eq; nra.
Qed.

Lemma near_ok : forall a c m U, (0 <= U)%R -> (0 <= m)%R -> (Rabs a <= m)%R -> ((m * m / 3 + m) * U <= c)%R -> ((a * a / 3 + Rabs a) * U <= c)%R.
Proof.
  intros a c m U U0 M0 L H. eapply Rle_trans; [|exact H]. apply Rmult_le_compat_r; auto. replace (a * a)%R with (Rabs a * Rabs a)%R.
  - pose proof (Rabs_pos a). assert (Rabs a * Rabs a <= m * m)%R by (apply Rmult_le_compat; auto). lra.
  - unfold Rabs. destruct (Rcase_abs a); ring.
Qed.
Lemma near_f32 : forall phi : f32, is_finite phi = true -> (Rabs (B2R phi) <= 700)%R -> exists (r : f32) k,
  returns (fun fuel => mixed_wrap_phase (float_wrap_phase fuel) phi) r /\ (Rabs (B2R r - (B2R phi - IZR k * (2 * PI))) <= / 100)%R.
Proof.
  intros phi F L. destruct (wrap_f32 phi F) as (r & k & R & _ & _ & _ & E). { eapply Rle_lt_trans; [exact L|]. change (bpow radix2 24) with 16777216%R. lra. }
  exists r, k. split; auto. eapply Rle_trans; [exact E|]. apply near_ok with 700%R; auto; [apply bpow_ge_0|lra|]. change (bpow radix2 (-24)) with (/ 16777216)%R. lra.
Qed.
Lemma near_f64 : forall phi : f64, is_finite phi = true -> (Rabs (B2R phi) <= 16000000)%R -> exists (r : f64) k,
  returns (fun fuel => mixed_wrap_phase (float_wrap_phase fuel) phi) r /\ (Rabs (B2R r - (B2R phi - IZR k * (2 * PI))) <= / 100)%R.
Proof.
  intros phi F L. destruct (wrap_f64 phi F) as (r & k & R & _ & _ & _ & E). { eapply Rle_lt_trans; [exact L|]. change (bpow radix2 53) with 9007199254740992%R. lra. }
  exists r, k. split; auto. eapply Rle_trans; [exact E|]. apply near_ok with 16000000%R; auto; [apply bpow_ge_0|lra|]. change (bpow radix2 (-53)) with (/ 9007199254740992)%R. lra.
Qed.
