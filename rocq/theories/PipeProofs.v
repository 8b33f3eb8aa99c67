(** * Proofs about chains of stages. *)

From Coq Require Import ZArith Reals Lia Lra List Bool.
From Flocq Require Import Core.Core IEEE754.BinarySingleNaN.
From Verif Require Import Base FloatBase Traits FixedPrim FixedImpl FloatImpl Spec SpecFormula SpecUFormula SpecTwoSort SpecVLoop SpecPipe PolarProofs FormulaProofs TwoSortProofs VLoopProofs.
Import ListNotations.
Open Scope Z_scope.

Section Any.
Context {T : Type} (O : MixedOps T) (N : MixedNumSigned T) (A : MixedAbs T) (Q : nat -> MixedSqrt T) (val : T -> R) (ok : T -> Prop)
  (S : (nat -> R) -> (nat -> R) -> formula -> Prop) (u : rounding).
Hypothesis Hexpr : forall env x d b, (forall i, ok (env i) /\ (Rabs (val (env i) - x i) <= d i)%R) -> S x d b ->
  exists r, returns (fun fuel => compute O N A (Q fuel) env b) r /\ ok r /\ (Rabs (val r - value x b) <= slack x u d b)%R.
Notation good := (fun t x d => ok t /\ (Rabs (val t - x) <= d)%R).
Lemma spread_env' : forall s v x d, Forall ok s -> (forall i, ok (v i) /\ (Rabs (val (v i) - x i) <= d i)%R) ->
  forall i, ok (spread s v i) /\ (Rabs (val (spread s v i) - spread (map val s) x i) <= spread (repeat 0 (length s)) d i)%R.
Proof using.
  intros s v x d Os Hv i. pose proof (spread_env val ok (repeat (Whole 0) (length s)) s v x d Os) as H. rewrite !repeat_length in *. apply H; auto.
Qed.
Theorem stage_near : forall B B' L delta bs v x d, (forall i, good (v i) (x i) (d i)) -> stage_ok S u B B' L delta bs x d ->
  forall s y rho, Forall ok s -> inside B (map val s) -> inside B y -> apart (weight B) rho (map val s) y ->
  exists q, returns (fun fuel => eval_all O N A (Q fuel) (spread s v) bs) q /\ Forall ok q /\ inside B' (map val q) /\ inside B' (update bs x y) /\
  apart (weight B') (L * rho + delta) (map val q) (update bs x y).
Proof using Hexpr.
  intros B B' L delta bs v x d Hv (Lb & Hs & Hc) s y rho Os Bs By Ap. pose proof (Hs _ Bs) as HS. pose proof (Hs _ By) as HY. cbv zeta in HS, HY.
  assert (Ls : length s = dim B) by (destruct Bs as [E _]; rewrite map_length in E; exact E).
  set (e := spread (repeat 0%R (dim B)) d) in HS, HY.
  destruct (eval_near O N A Q val ok S u bs (fun env x d b _ => Hexpr env x d b) (spread s v) (spread (map val s) x) e) with (cs := bs) as (q & Eq & Oq & Lq & Bq).
  { unfold e. rewrite <- Ls. apply spread_env'; auto. } { apply incl_refl. } { apply Forall_forall. intros b Hb. apply In_nth_error in Hb as (k & Hk). apply (HS k b Hk). }
  assert (K : forall k, (k < length bs)%nat -> exists b, nth_error bs k = Some b /\ forall t, nth k (update bs x t) 0%R = value (spread t x) b).
  { intros k Hk. destruct (nth_error bs k) as [b|] eqn:E; [|apply nth_error_None in E; lia]. exists b. split; [reflexivity|]. intros t. unfold update.
    erewrite nth_error_nth; [reflexivity|]. rewrite nth_error_map, E. reflexivity. }
  assert (NQ : forall k, (k < length bs)%nat -> nth k (map val q) 0%R = val (nth k q (v 0%nat))).
  { intros k Hk. rewrite (nth_indep _ _ (val (v 0%nat))) by (rewrite map_length; lia). apply map_nth. }
  assert (D : apart (weight B') delta (map val q) (update bs x (map val s))).
  { intros k Hk. rewrite map_length, Lq in Hk. destruct (K k Hk) as (b & Eb & Ev). rewrite Ev, NQ by exact Hk. pose proof (forall2_nth _ _ _ _ _ k b (v 0%nat) Bq Eb) as X. cbv beta in X.
    destruct (HS k b Eb) as (_ & B2 & _). lra. }
  assert (LU : forall t, length (update bs x t) = length bs) by (intros; apply map_length).
  exists q. split; [exact Eq|]. split; [exact Oq|]. split; [|split].
  - split; [rewrite map_length; lia|]. intros k Hk. pose proof (D k Hk) as X. rewrite map_length, Lq in Hk. destruct (K k Hk) as (b & Eb & Ev). rewrite Ev in X. apply Rabs_le_inv in X. destruct (HS k b Eb) as (_ & B1 & B2). lra.
  - split; [rewrite LU; exact Lb|]. intros k Hk. rewrite LU in Hk. assert (Hq : (k < length (map val q))%nat) by (rewrite map_length; lia).
    pose proof (Rle_trans _ _ _ (Rabs_pos _) (D k Hq)) as P0. destruct (K k Hk) as (b & Eb & Ev). rewrite Ev. destruct (HY k b Eb) as (_ & _ & B2). lra.
  - intros k Hk. pose proof (D k Hk) as X. pose proof (Hc _ _ _ Bs By Ap k) as C. rewrite map_length, Lq in Hk. rewrite LU in C. specialize (C Hk).
    replace (nth k (map val q) 0 - nth k (update bs x y) 0)%R with ((nth k (map val q) 0 - nth k (update bs x (map val s)) 0) + (nth k (update bs x (map val s)) 0 - nth k (update bs x y) 0))%R by ring.
    eapply Rle_trans; [apply Rabs_triang|]. lra.
Qed.
Theorem pipe_near : forall B E l B' E', tracked S u good B E l B' E' -> forall s y, Forall ok s -> inside B (map val s) -> inside B y -> apart (weight B) E (map val s) y ->
  exists r, returns (fun fuel => pipe O N A (Q fuel) s (map fst l)) r /\ Forall ok r /\ inside B' (map val r) /\
  apart (weight B') E' (map val r) (pipe_exact y (map (fun c => (fst (fst c), snd c)) l)).
Proof using Hexpr.
  induction 1 as [B E|B E bs v x d B1 L delta l B' E' Hv HS HT IH]; intros s y Os Bs By Ap.
  - exists s. split; [exists 0%nat; reflexivity|]. auto.
  - destruct (stage_near B B1 L delta bs v x d Hv HS s y E Os Bs By Ap) as (q & Eq & Oq & Iq & Iy & Aq). destruct (IH q _ Oq Iq Iy Aq) as (r & Er & Or & Ir & Ar).
    exists r. split; [|auto]. cbn [map fst pipe]. eapply returns_bind2; [exact Eq|exact Er].
Qed.
End Any.

Theorem pipe_fixed : forall m f, supported f = true -> forall B E l B' E',
  tracked (fits f) (round_fixed (ulp f)) (fun t x d => fvalid f t /\ (Rabs (fval f t - x) <= d)%R) B E l B' E' ->
  forall s y, Forall (fvalid f) s -> inside B (map (fval f) s) -> inside B y -> apart (weight B) E (map (fval f) s) y ->
  exists r, returns (fun fuel => pipe (fixed_ops m f) (fixed_signed m f) (fixed_abs m f) (fixed_sqrt m f fuel) s (map fst l)) r /\ Forall (fvalid f) r /\ inside B' (map (fval f) r) /\
  apart (weight B') E' (map (fval f) r) (pipe_exact y (map (fun c => (fst (fst c), snd c)) l)).
Proof. intros m f Hf. apply pipe_near. intros env x d b HE HS. apply fits_near; auto. Qed.
Theorem pipe_float : forall p e {Hp : Prec_gt_0 p} {He : Prec_lt_emax p e}, 24 <= p -> 128 <= e -> forall m (sq : binary_float p e -> binary_float p e), (forall x, sq x = Bsqrt mode_NE x) ->
  let u := round_float (bpow radix2 (- p)) (bpow radix2 (3 - e - p)) in let S := fun x d => safe x u d (bpow radix2 e - bpow radix2 (e - p)) in forall B E l B' E',
  tracked S u (fun t x d => is_finite t = true /\ (Rabs (B2R t - x) <= d)%R) B E l B' E' ->
  forall s y, Forall (fun t => is_finite t = true) s -> inside B (map B2R s) -> inside B y -> apart (weight B) E (map B2R s) y ->
  exists r, returns (fun fuel => pipe float_ops float_signed float_abs (float_sqrt m sq fuel) s (map fst l)) r /\ Forall (fun t => is_finite t = true) r /\ inside B' (map B2R r) /\
  apart (weight B') E' (map B2R r) (pipe_exact y (map (fun c => (fst (fst c), snd c)) l)).
Proof.
  intros p e Hp He P E m sq Hsq u S. refine (pipe_near float_ops float_signed float_abs (float_sqrt m sq) B2R (fun t => is_finite t = true) S u _).
  intros env x d b HE HS. apply (flt_near P E m sq Hsq env x d HE b HS).
Qed.
