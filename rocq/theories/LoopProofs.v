(** * Proofs about feedback loops. *)

From Coq Require Import ZArith Reals Lia Lra List Bool.
From Flocq Require Import Core.Core IEEE754.BinarySingleNaN.
From Verif Require Import Base FloatBase Traits Trig FixedPrim FixedImpl FloatImpl Spec SpecFormula SpecProgram SpecLoop PolarProofs FormulaProofs ProgramProofs.
Import ListNotations.
Open Scope Z_scope.

Section Any.
Context {T : Type} (O : MixedOps T) (N : MixedNumSigned T) (A : MixedAbs T) (Q : nat -> MixedSqrt T) (val : T -> R) (ok : T -> Prop) (u : rounding) (top : R) (body : formula).
Hypothesis Hexpr : forall env x d, (forall i, ok (env i) /\ (Rabs (val (env i) - x i) <= d i)%R) -> safe x u d top body ->
  exists r, returns (fun fuel => compute O N A (Q fuel) env body) r /\ ok r /\ (Rabs (val r - value x body) <= slack x u d body)%R.
Variables (lo hi L delta : R).
Hypothesis L1 : (0 <= L < 1)%R.
Theorem loop_near : forall ins xs, Forall2 (fun v x => exists d, (forall i, ok (v i) /\ (Rabs (val (v i) - x i) <= d i)%R) /\ contracting u top body lo hi L delta x d) ins xs ->
  forall s y, ok s -> (lo <= val s <= hi)%R -> (lo <= y <= hi)%R ->
  exists r, returns (fun fuel => loop O N A (Q fuel) body s ins) r /\ ok r /\ (lo <= val r <= hi)%R /\
  (Rabs (val r - ideal body y xs) <= L ^ length ins * Rabs (val s - y) + delta * (1 - L ^ length ins) / (1 - L))%R.
Proof using Hexpr L1.
  induction 1 as [|v x ins xs (d & Hv & Hs & Hc) HF IH]; intros s y Vs Bs By.
  - exists s. split; [exists 0%nat; reflexivity|]. split; [auto|]. split; [auto|]. cbn [length ideal pow]. apply Req_le. field. lra.
  - destruct (Hs _ Bs) as (S1 & S2 & S3). destruct (Hs _ By) as (_ & _ & Y3).
    destruct (Hexpr (push s v) (push (val s) x) (push 0%R d)) as (q & Eq & Vq & Bq).
    { intros [|i]; cbn [push]; [|apply Hv]. split; [exact Vs|]. rewrite Rminus_diag_eq, Rabs_R0 by reflexivity. lra. }
    { exact S1. }
    pose proof (Rle_trans _ _ _ (Rabs_pos _) Bq) as D0. assert (Bq' : (Rabs (val q - value (push (val s) x) body) <= delta)%R) by lra. apply Rabs_le_inv in Bq'.
    destruct (IH q (value (push y x) body) Vq) as (r & Er & Vr & Rr & Br); [lra|lra|].
    exists r. split; [cbn [loop]; eapply returns_bind2; [exact Eq|exact Er]|]. split; [auto|]. split; [auto|]. cbn [length ideal].
    eapply Rle_trans; [exact Br|]. pose proof (Hc _ _ Bs By) as C.
    assert (E1 : (Rabs (val q - value (push y x) body) <= delta + L * Rabs (val s - y))%R).
    { replace (val q - value (push y x) body)%R with ((val q - value (push (val s) x) body) + (value (push (val s) x) body - value (push y x) body))%R by ring.
      eapply Rle_trans; [apply Rabs_triang|]. apply Rplus_le_compat; [apply Rabs_le; lra|exact C]. }
    cbn [pow]. set (n := length ins). assert (P0 : (0 <= L ^ n)%R) by (apply pow_le; lra).
    assert (E2 : (L ^ n * Rabs (val q - value (push y x) body) <= L ^ n * (delta + L * Rabs (val s - y)))%R) by (apply Rmult_le_compat_l; auto).
    assert (E3 : (delta * (1 - L * L ^ n) / (1 - L) = L ^ n * delta + delta * (1 - L ^ n) / (1 - L))%R) by (field; lra). lra.
Qed.
End Any.

Theorem loop_fixed : forall m f, supported f = true -> fsigned f = true -> forall body, (rootless body = false -> 2 <= ffrac f <= fwidth f - 4) ->
  forall lo hi L delta, (0 <= L < 1)%R -> forall ins xs,
  Forall2 (fun v x => exists d, (forall i, fvalid f (v i) /\ (Rabs (fval f (v i) - x i) <= d i)%R) /\ contracting (round_fixed (ulp f)) (fval f (fmax f)) body lo hi L delta x d) ins xs ->
  forall s y, fvalid f s -> (lo <= fval f s <= hi)%R -> (lo <= y <= hi)%R ->
  exists r, returns (fun fuel => loop (fixed_ops m f) (fixed_signed m f) (fixed_abs m f) (fixed_sqrt m f fuel) body s ins) r /\ fvalid f r /\ (lo <= fval f r <= hi)%R /\
  (Rabs (fval f r - ideal body y xs) <= L ^ length ins * Rabs (fval f s - y) + delta * (1 - L ^ length ins) / (1 - L))%R.
Proof.
  intros m f Hf Sg body HR lo hi L delta L1. apply loop_near; [|exact L1]. intros env x d HE HS. apply formula_fixed; auto.
Qed.
Theorem loop_float : forall p e {Hp : Prec_gt_0 p} {He : Prec_lt_emax p e}, 24 <= p -> 128 <= e -> forall m (sq : binary_float p e -> binary_float p e), (forall x, sq x = Bsqrt mode_NE x) ->
  forall body lo hi L delta, (0 <= L < 1)%R -> let u := round_float (bpow radix2 (- p)) (bpow radix2 (3 - e - p)) in forall ins xs,
  Forall2 (fun v x => exists d, (forall i, is_finite (v i) = true /\ (Rabs (B2R (v i) - x i) <= d i)%R) /\ contracting u (bpow radix2 e - bpow radix2 (e - p)) body lo hi L delta x d) ins xs ->
  forall s y, is_finite s = true -> (lo <= B2R s <= hi)%R -> (lo <= y <= hi)%R ->
  exists r, returns (fun fuel => loop float_ops float_signed float_abs (float_sqrt m sq fuel) body s ins) r /\ is_finite r = true /\ (lo <= B2R r <= hi)%R /\
  (Rabs (B2R r - ideal body y xs) <= L ^ length ins * Rabs (B2R s - y) + delta * (1 - L ^ length ins) / (1 - L))%R.
Proof.
  intros p e Hp He P E m sq Hsq body lo hi L delta L1 u. refine (loop_near float_ops float_signed float_abs (float_sqrt m sq) B2R (fun r => is_finite r = true) u _ body _ lo hi L delta L1).
  intros env x d HE HS. destruct (formula_float P E m sq Hsq env x d HE body HS) as (r & Er & F). exists r. split; [exists 0%nat; intros; apply Er|exact F].
Qed.

(** ** constant inputs: the loop settles at the fixed point *)
Lemma ideal_fixpoint : forall body x y n, value (push y x) body = y -> ideal body y (repeat x n) = y.
Proof. intros body x y n H. induction n as [|n IH]; cbn [repeat ideal]; [reflexivity|]. rewrite H. exact IH. Qed.
Lemma settle_bound : forall L delta n c, (0 <= L < 1)%R -> (0 <= delta)%R -> (c + delta * (1 - L ^ n) / (1 - L) <= c + delta / (1 - L))%R.
Proof.
  intros L delta n c L1 D. apply Rplus_le_compat_l. unfold Rdiv. apply Rmult_le_compat_r; [apply Rlt_le, Rinv_0_lt_compat; lra|]. rewrite <- (Rmult_1_r delta) at 2. apply Rmult_le_compat_l; [exact D|].
  assert (0 <= L ^ n)%R by (apply pow_le; lra). lra.
Qed.
Lemma forall2_repeat : forall A B (P : A -> B -> Prop) a b n, P a b -> Forall2 P (repeat a n) (repeat b n).
Proof. intros A B P a b n H. induction n; cbn [repeat]; constructor; auto. Qed.
Theorem settles_fixed : forall m f, supported f = true -> fsigned f = true -> forall body, (rootless body = false -> 2 <= ffrac f <= fwidth f - 4) ->
  forall lo hi L delta v x d, (0 <= L < 1)%R -> (0 <= delta)%R -> (forall i, fvalid f (v i) /\ (Rabs (fval f (v i) - x i) <= d i)%R) ->
  contracting (round_fixed (ulp f)) (fval f (fmax f)) body lo hi L delta x d ->
  forall s y n, fvalid f s -> (lo <= fval f s <= hi)%R -> (lo <= y <= hi)%R -> value (push y x) body = y ->
  exists r, returns (fun fuel => loop (fixed_ops m f) (fixed_signed m f) (fixed_abs m f) (fixed_sqrt m f fuel) body s (repeat v n)) r /\ (lo <= fval f r <= hi)%R /\
  (Rabs (fval f r - y) <= L ^ n * Rabs (fval f s - y) + delta / (1 - L))%R.
Proof.
  intros m f Hf Sg body HR lo hi L delta v x d L1 D HE HC s y n Vs Bs By FY.
  destruct (loop_fixed m f Hf Sg body HR lo hi L delta L1 (repeat v n) (repeat x n)) with (s := s) (y := y) as (r & Er & _ & Rr & Br); auto.
  { apply forall2_repeat. exists d. auto. }
  exists r. split; [exact Er|]. split; [exact Rr|]. rewrite ideal_fixpoint, repeat_length in Br by exact FY. eapply Rle_trans; [exact Br|]. apply settle_bound; auto.
Qed.
Theorem settles_float : forall p e {Hp : Prec_gt_0 p} {He : Prec_lt_emax p e}, 24 <= p -> 128 <= e -> forall m (sq : binary_float p e -> binary_float p e), (forall x, sq x = Bsqrt mode_NE x) ->
  forall body lo hi L delta v x d, (0 <= L < 1)%R -> (0 <= delta)%R -> (forall i, is_finite (v i) = true /\ (Rabs (B2R (v i) - x i) <= d i)%R) ->
  contracting (round_float (bpow radix2 (- p)) (bpow radix2 (3 - e - p))) (bpow radix2 e - bpow radix2 (e - p)) body lo hi L delta x d ->
  forall s y n, is_finite s = true -> (lo <= B2R s <= hi)%R -> (lo <= y <= hi)%R -> value (push y x) body = y ->
  exists r, returns (fun fuel => loop float_ops float_signed float_abs (float_sqrt m sq fuel) body s (repeat v n)) r /\ is_finite r = true /\ (lo <= B2R r <= hi)%R /\
  (Rabs (B2R r - y) <= L ^ n * Rabs (B2R s - y) + delta / (1 - L))%R.
Proof.
  intros p e Hp He P E m sq Hsq body lo hi L delta v x d L1 D HE HC s y n Vs Bs By FY.
  destruct (loop_float p e P E m sq Hsq body lo hi L delta L1 (repeat v n) (repeat x n)) with (s := s) (y := y) as (r & Er & Fr & Rr & Br); auto.
  { apply forall2_repeat. exists d. auto. }
  exists r. split; [exact Er|]. split; [exact Fr|]. split; [exact Rr|]. rewrite ideal_fixpoint, repeat_length in Br by exact FY. eapply Rle_trans; [exact Br|]. apply settle_bound; auto.
Qed.
