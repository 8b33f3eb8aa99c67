(** * Proofs about feedback loops with several state variables. *)

From Coq Require Import ZArith Reals Lia Lra List Bool.
From Flocq Require Import Core.Core IEEE754.BinarySingleNaN.
From Verif Require Import Base FloatBase Traits FixedPrim FixedImpl FloatImpl Spec SpecFormula SpecUFormula SpecTwoSort SpecVLoop PolarProofs FormulaProofs LoopProofs TwoSortProofs.
Import ListNotations.
Open Scope Z_scope.

Lemma forall2_nth : forall A B (P : A -> B -> Prop) l l' k a b0, Forall2 P l l' -> nth_error l k = Some a -> P a (nth k l' b0).
Proof. intros A B P l l' k a b0 H. revert k. induction H as [|x y l l' Hxy HF IH]; intros [|k] E; cbn in E |- *; try discriminate; [congruence|auto]. Qed.

Section Any.
Context {T : Type} (O : MixedOps T) (N : MixedNumSigned T) (A : MixedAbs T) (Q : nat -> MixedSqrt T) (val : T -> R) (ok : T -> Prop)
  (S : (nat -> R) -> (nat -> R) -> formula -> Prop) (u : rounding) (bs : list formula).
Hypothesis Hexpr : forall env x d b, In b bs -> (forall i, ok (env i) /\ (Rabs (val (env i) - x i) <= d i)%R) -> S x d b ->
  exists r, returns (fun fuel => compute O N A (Q fuel) env b) r /\ ok r /\ (Rabs (val r - value x b) <= slack x u d b)%R.
Variables (lo hi w : nat -> R) (L delta : R).
Hypothesis L1 : (0 <= L < 1)%R.
Lemma eval_near : forall env x d, (forall i, ok (env i) /\ (Rabs (val (env i) - x i) <= d i)%R) -> forall cs, incl cs bs -> Forall (S x d) cs ->
  exists q, returns (fun fuel => eval_all O N A (Q fuel) env cs) q /\ Forall ok q /\ length q = length cs /\ Forall2 (fun b r => (Rabs (val r - value x b) <= slack x u d b)%R) cs q.
Proof using Hexpr.
  intros env x d HE. induction cs as [|c cs IH]; intros I HS.
  - exists []. split; [exists 0%nat; reflexivity|]. split; [constructor|]. split; [reflexivity|constructor].
  - inversion HS as [|? ? S1 S2]; subst. destruct (Hexpr env x d c) as (r & Er & Vr & Br); [apply I; left; reflexivity|exact HE|exact S1|].
    destruct IH as (q & Eq & Vq & Lq & Bq); [intros b Hb; apply I; right; exact Hb|exact S2|].
    exists (r :: q). split; [|split; [constructor; auto|split; [cbn [length]; lia|constructor; auto]]].
    cbn [eval_all]. eapply returns_bind2; [exact Er|]. eapply returns_bind2; [exact Eq|]. exists 0%nat. reflexivity.
Qed.
Lemma spread_env : forall s v x d, Forall ok s -> length s = length bs -> (forall i, ok (v i) /\ (Rabs (val (v i) - x i) <= d i)%R) ->
  forall i, ok (spread s v i) /\ (Rabs (val (spread s v i) - spread (map val s) x i) <= spread (repeat 0 (length bs)) d i)%R.
Proof using.
  intros s v x d Os Ls Hv i. unfold spread. rewrite map_length, repeat_length, <- Ls. destruct (Nat.lt_ge_cases i (length s)) as [H|H].
  - split; [rewrite Forall_forall in Os; apply Os, nth_In, H|].
    rewrite (nth_indep (map val s) _ (val (v (i - length s)%nat))) by (rewrite map_length; exact H). rewrite map_nth. rewrite Rminus_diag_eq, Rabs_R0 by reflexivity.
    rewrite (nth_indep (repeat 0%R (length s)) _ 0%R) by (rewrite repeat_length; exact H). rewrite nth_repeat. lra.
  - rewrite !nth_overflow by (rewrite ?map_length, ?repeat_length; exact H). apply Hv.
Qed.
Theorem vloop_near : forall ins xs, Forall2 (fun v x => exists d, (forall i, ok (v i) /\ (Rabs (val (v i) - x i) <= d i)%R) /\ vcontracting S u bs lo hi w L delta x d) ins xs ->
  forall s y rho, Forall ok s -> length s = length bs -> length y = length bs -> within lo hi (map val s) -> within lo hi y -> apart w rho (map val s) y ->
  exists r, returns (fun fuel => vloop O N A (Q fuel) bs s ins) r /\ Forall ok r /\ length r = length bs /\ within lo hi (map val r) /\
  apart w (L ^ length ins * rho + delta * (1 - L ^ length ins) / (1 - L)) (map val r) (videal bs y xs).
Proof using Hexpr L1.
  induction 1 as [|v x ins xs (d & Hv & Hs & Hc) HF IH]; intros s y rho Os Ls Ly Bs By Ap.
  - exists s. split; [exists 0%nat; reflexivity|]. split; [auto|]. split; [auto|]. split; [auto|]. cbn [length videal pow]. replace (1 * rho + delta * (1 - 1) / (1 - L))%R with rho by (field; lra). exact Ap.
  - assert (Lm : length (map val s) = length bs) by (rewrite map_length; exact Ls).
    pose proof (Hs _ Lm Bs) as HS. pose proof (Hs _ Ly By) as HY. cbv zeta in HS, HY.
    set (e := spread (repeat 0%R (length bs)) d) in HS, HY.
    destruct (eval_near (spread s v) (spread (map val s) x) e (spread_env s v x d Os Ls Hv) bs) as (q & Eq & Oq & Lq & Bq).
    { apply incl_refl. } { apply Forall_forall. intros b Hb. apply In_nth_error in Hb as (k & Hk). apply (HS k b Hk). }
    assert (K : forall k, (k < length bs)%nat -> exists b, nth_error bs k = Some b /\ forall t, nth k (update bs x t) 0%R = value (spread t x) b).
    { intros k Hk. destruct (nth_error bs k) as [b|] eqn:E; [|apply nth_error_None in E; lia]. exists b. split; [reflexivity|]. intros t. unfold update.
      erewrite nth_error_nth; [reflexivity|]. rewrite nth_error_map, E. reflexivity. }
    assert (NQ : forall k, (k < length bs)%nat -> nth k (map val q) 0%R = val (nth k q (v 0%nat))).
    { intros k Hk. rewrite (nth_indep _ _ (val (v 0%nat))) by (rewrite map_length; lia). apply map_nth. }
    assert (D : apart w delta (map val q) (update bs x (map val s))).
    { intros k Hk. rewrite map_length, Lq in Hk. destruct (K k Hk) as (b & Eb & Ev). rewrite Ev, NQ by exact Hk. pose proof (forall2_nth _ _ _ _ _ k b (v 0%nat) Bq Eb) as B. cbv beta in B.
      destruct (HS k b Eb) as (_ & B2 & _). lra. }
    assert (Wq : within lo hi (map val q)).
    { intros k Hk. pose proof (D k Hk) as B. rewrite map_length, Lq in Hk. destruct (K k Hk) as (b & Eb & Ev). rewrite Ev in B. apply Rabs_le_inv in B. destruct (HS k b Eb) as (_ & B1 & B2). lra. }
    assert (LU : forall t, length (update bs x t) = length bs) by (intros; apply map_length).
    assert (D0 : forall k, (k < length bs)%nat -> (0 <= delta * w k)%R).
    { intros k Hk. assert (Hq : (k < length (map val q))%nat) by (rewrite map_length; lia). eapply Rle_trans; [apply Rabs_pos|exact (D k Hq)]. }
    assert (Wy : within lo hi (update bs x y)).
    { intros k Hk. rewrite LU in Hk. pose proof (D0 k Hk) as P0. destruct (K k Hk) as (b & Eb & Ev). rewrite Ev. destruct (HY k b Eb) as (_ & _ & B2). lra. }
    assert (Aq : apart w (delta + L * rho) (map val q) (update bs x y)).
    { intros k Hk. pose proof (D k Hk) as B. pose proof (Hc _ _ _ Lm Ly Bs By Ap k) as C. rewrite map_length, Lq in Hk. rewrite LU in C. specialize (C Hk).
      replace (nth k (map val q) 0 - nth k (update bs x y) 0)%R with ((nth k (map val q) 0 - nth k (update bs x (map val s)) 0) + (nth k (update bs x (map val s)) 0 - nth k (update bs x y) 0))%R by ring.
      eapply Rle_trans; [apply Rabs_triang|]. lra. }
    destruct (IH q (update bs x y) (delta + L * rho)%R Oq Lq (LU y) Wq Wy Aq) as (r & Er & Or & Lr & Wr & Br).
    exists r. split; [cbn [vloop]; eapply returns_bind2; [exact Eq|exact Er]|]. split; [auto|]. split; [auto|]. split; [auto|]. cbn [length videal pow].
    replace (L * L ^ length ins * rho + delta * (1 - L * L ^ length ins) / (1 - L))%R with (L ^ length ins * (delta + L * rho) + delta * (1 - L ^ length ins) / (1 - L))%R by (field; lra). exact Br.
Qed.
Lemma videal_fixpoint : forall x y n, update bs x y = y -> videal bs y (repeat x n) = y.
Proof using. intros x y n H. induction n as [|n IH]; cbn [repeat videal]; [reflexivity|]. rewrite H. exact IH. Qed.
Theorem vsettles : (0 <= delta)%R -> (forall k, (0 <= w k)%R) -> forall v x d, (forall i, ok (v i) /\ (Rabs (val (v i) - x i) <= d i)%R) -> vcontracting S u bs lo hi w L delta x d ->
  forall s y rho n, Forall ok s -> length s = length bs -> length y = length bs -> within lo hi (map val s) -> within lo hi y -> apart w rho (map val s) y -> update bs x y = y ->
  exists r, returns (fun fuel => vloop O N A (Q fuel) bs s (repeat v n)) r /\ Forall ok r /\ length r = length bs /\ within lo hi (map val r) /\ apart w (L ^ n * rho + delta / (1 - L)) (map val r) y.
Proof using Hexpr L1.
  intros D W v x d Hv HC s y rho n Os Ls Ly Bs By Ap FY.
  destruct (vloop_near (repeat v n) (repeat x n)) with (s := s) (y := y) (rho := rho) as (r & Er & Or & Lr & Wr & Br); auto.
  { apply forall2_repeat. exists d. auto. }
  exists r. split; [exact Er|]. split; [exact Or|]. split; [exact Lr|]. split; [exact Wr|]. rewrite videal_fixpoint, repeat_length in Br by exact FY.
  intros k Hk. eapply Rle_trans; [exact (Br k Hk)|]. apply Rmult_le_compat_r; [apply W|]. apply settle_bound; auto.
Qed.
End Any.

Theorem vloop_fixed : forall m f, supported f = true -> forall bs lo hi w L delta, (0 <= L < 1)%R -> forall ins xs,
  Forall2 (fun v x => exists d, (forall i, fvalid f (v i) /\ (Rabs (fval f (v i) - x i) <= d i)%R) /\ vcontracting (fits f) (round_fixed (ulp f)) bs lo hi w L delta x d) ins xs ->
  forall s y rho, Forall (fvalid f) s -> length s = length bs -> length y = length bs -> within lo hi (map (fval f) s) -> within lo hi y -> apart w rho (map (fval f) s) y ->
  exists r, returns (fun fuel => vloop (fixed_ops m f) (fixed_signed m f) (fixed_abs m f) (fixed_sqrt m f fuel) bs s ins) r /\ Forall (fvalid f) r /\ length r = length bs /\
  within lo hi (map (fval f) r) /\ apart w (L ^ length ins * rho + delta * (1 - L ^ length ins) / (1 - L)) (map (fval f) r) (videal bs y xs).
Proof.
  intros m f Hf bs lo hi w L delta L1. apply vloop_near; [|exact L1]. intros env x d b _ HE HS. apply fits_near; auto.
Qed.
Theorem vsettles_fixed : forall m f, supported f = true -> forall bs lo hi w L delta, (0 <= L < 1)%R -> (0 <= delta)%R -> (forall k, (0 <= w k)%R) ->
  forall v x d, (forall i, fvalid f (v i) /\ (Rabs (fval f (v i) - x i) <= d i)%R) -> vcontracting (fits f) (round_fixed (ulp f)) bs lo hi w L delta x d ->
  forall s y rho n, Forall (fvalid f) s -> length s = length bs -> length y = length bs -> within lo hi (map (fval f) s) -> within lo hi y -> apart w rho (map (fval f) s) y -> update bs x y = y ->
  exists r, returns (fun fuel => vloop (fixed_ops m f) (fixed_signed m f) (fixed_abs m f) (fixed_sqrt m f fuel) bs s (repeat v n)) r /\ Forall (fvalid f) r /\ length r = length bs /\
  within lo hi (map (fval f) r) /\ apart w (L ^ n * rho + delta / (1 - L)) (map (fval f) r) y.
Proof.
  intros m f Hf bs lo hi w L delta L1. apply vsettles; [|exact L1]. intros env x d b _ HE HS. apply fits_near; auto.
Qed.

Section Flt.
Context {p e : Z} {Hp : Prec_gt_0 p} {He : Prec_lt_emax p e}.
Hypotheses (Pp : 24 <= p) (Pe : 128 <= e).
Variables (m : mode) (sq : binary_float p e -> binary_float p e).
Hypothesis Hsq : forall x, sq x = Bsqrt mode_NE x.
Notation u := (round_float (bpow radix2 (- p)) (bpow radix2 (3 - e - p))).
Notation fitsf := (fun x d => safe x u d (bpow radix2 e - bpow radix2 (e - p))).
Theorem vloop_float : forall bs lo hi w L delta, (0 <= L < 1)%R -> forall ins xs,
  Forall2 (fun v x => exists d, (forall i, is_finite (v i) = true /\ (Rabs (B2R (v i) - x i) <= d i)%R) /\ vcontracting fitsf u bs lo hi w L delta x d) ins xs ->
  forall s y rho, Forall (fun r => is_finite r = true) s -> length s = length bs -> length y = length bs -> within lo hi (map B2R s) -> within lo hi y -> apart w rho (map B2R s) y ->
  exists r, returns (fun fuel => vloop float_ops float_signed float_abs (float_sqrt m sq fuel) bs s ins) r /\ Forall (fun r => is_finite r = true) r /\ length r = length bs /\
  within lo hi (map B2R r) /\ apart w (L ^ length ins * rho + delta * (1 - L ^ length ins) / (1 - L)) (map B2R r) (videal bs y xs).
Proof using Pp Pe Hsq.
  intros bs lo hi w L delta L1. refine (vloop_near float_ops float_signed float_abs (float_sqrt m sq) B2R (fun r => is_finite r = true) fitsf u bs _ lo hi w L delta L1).
  intros env x d b _ HE HS. apply (flt_near Pp Pe m sq Hsq env x d HE b HS).
Qed.
Theorem vsettles_float : forall bs lo hi w L delta, (0 <= L < 1)%R -> (0 <= delta)%R -> (forall k, (0 <= w k)%R) ->
  forall v x d, (forall i, is_finite (v i) = true /\ (Rabs (B2R (v i) - x i) <= d i)%R) -> vcontracting fitsf u bs lo hi w L delta x d ->
  forall s y rho n, Forall (fun r => is_finite r = true) s -> length s = length bs -> length y = length bs -> within lo hi (map B2R s) -> within lo hi y -> apart w rho (map B2R s) y -> update bs x y = y ->
  exists r, returns (fun fuel => vloop float_ops float_signed float_abs (float_sqrt m sq fuel) bs s (repeat v n)) r /\ Forall (fun r => is_finite r = true) r /\ length r = length bs /\
  within lo hi (map B2R r) /\ apart w (L ^ n * rho + delta / (1 - L)) (map B2R r) y.
Proof using Pp Pe Hsq.
  intros bs lo hi w L delta L1. refine (vsettles float_ops float_signed float_abs (float_sqrt m sq) B2R (fun r => is_finite r = true) fitsf u bs _ lo hi w L delta L1).
  intros env x d b _ HE HS. apply (flt_near Pp Pe m sq Hsq env x d HE b HS).
Qed.
End Flt.
