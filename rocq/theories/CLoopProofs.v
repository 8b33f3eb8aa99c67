(** * Proofs about feedback loops with complex state. *)

From Coq Require Import ZArith Reals Lia Lra List Bool.
From Flocq Require Import Core.Core IEEE754.BinarySingleNaN.
From Verif Require Import Base FloatBase Traits FixedPrim FixedImpl FloatImpl Complex Spec SpecFilter SpecRotor SpecFourier SpecCFormula SpecProgram SpecCLoop FilterProofs RotorProofs CFormulaProofs LoopProofs.
Import ListNotations.
Open Scope Z_scope.

Lemma csub_self : forall z, csub z z = (0, 0)%R.
Proof. intros [a b]. unfold csub. cbn [fst snd]. f_equal; ring. Qed.
Lemma cabs_00 : cabs (0, 0)%R = 0%R.
Proof. unfold cabs. cbn [fst snd]. replace (0 * 0 + 0 * 0)%R with 0%R by ring. apply sqrt_0. Qed.
Section Any.
Context {T : Type} (O : MixedOps T) (N : MixedNumSigned T) (val : Cartesian T -> R * R) (ok : Cartesian T -> Prop) (u : crounding) (top : R) (body : cformula).
Hypothesis Hexpr : forall env x d, (forall i, ok (env i) /\ (cabs (csub (val (env i)) (x i)) <= d i)%R) -> csafe x u d top body ->
  exists r, ccompute O N env body = Ok r /\ ok r /\ (cabs (csub (val r) (cvalue x body)) <= cslack x u d body)%R.
Variables (rho L delta : R).
Hypothesis L1 : (0 <= L < 1)%R.
Theorem cloop_near : forall ins xs, Forall2 (fun v x => exists d, (forall i, ok (v i) /\ (cabs (csub (val (v i)) (x i)) <= d i)%R) /\ ccontracting u top body rho L delta x d) ins xs ->
  forall s y, ok s -> (cabs (val s) <= rho)%R -> (cabs y <= rho)%R ->
  exists r, cloop O N body s ins = Ok r /\ ok r /\ (cabs (val r) <= rho)%R /\
  (cabs (csub (val r) (cideal body y xs)) <= L ^ length ins * cabs (csub (val s) y) + delta * (1 - L ^ length ins) / (1 - L))%R.
Proof using Hexpr L1.
  induction 1 as [|v x ins xs (d & Hv & Hs & Hc) HF IH]; intros s y Vs Bs By.
  - exists s. split; [reflexivity|]. split; [auto|]. split; [auto|]. cbn [length cideal pow]. apply Req_le. field. lra.
  - destruct (Hs _ Bs) as (S1 & S2 & S3). destruct (Hs _ By) as (_ & _ & Y3).
    destruct (Hexpr (push s v) (push (val s) x) (push 0%R d)) as (q & Eq & Vq & Bq).
    { intros [|i]; cbn [push]; [|apply Hv]. split; [exact Vs|]. rewrite csub_self, cabs_00. lra. }
    { exact S1. }
    pose proof (Rle_trans _ _ _ (cabs_pos _) Bq) as D0. assert (Bq' : (cabs (csub (val q) (cvalue (push (val s) x) body)) <= delta)%R) by lra.
    pose proof (cabs_near _ _ _ Bq') as Nq.
    destruct (IH q (cvalue (push y x) body) Vq) as (r & Er & Vr & Rr & Br); [lra|lra|].
    exists r. split; [cbn [cloop]; rewrite Eq; exact Er|]. split; [auto|]. split; [auto|]. cbn [length cideal].
    eapply Rle_trans; [exact Br|]. pose proof (Hc _ _ Bs By) as C. pose proof (csub_tri (val q) (cvalue (push (val s) x) body) (cvalue (push y x) body)) as TR.
    assert (E1 : (cabs (csub (val q) (cvalue (push y x) body)) <= delta + L * cabs (csub (val s) y))%R) by lra.
    cbn [pow]. set (n := length ins). assert (P0 : (0 <= L ^ n)%R) by (apply pow_le; lra).
    assert (E2 : (L ^ n * cabs (csub (val q) (cvalue (push y x) body)) <= L ^ n * (delta + L * cabs (csub (val s) y)))%R) by (apply Rmult_le_compat_l; auto).
    assert (E3 : (delta * (1 - L * L ^ n) / (1 - L) = L ^ n * delta + delta * (1 - L ^ n) / (1 - L))%R) by (field; lra). lra.
Qed.
End Any.

Theorem cloop_fixed : forall m f, supported f = true -> fsigned f = true -> forall body rho L delta, (0 <= L < 1)%R -> forall ins xs,
  Forall2 (fun v x => exists d, (forall i, (cabs (csub (cval f (v i)) (x i)) <= d i)%R) /\ ccontracting (cround_fixed (ulp f)) (fval f (fmax f)) body rho L delta x d) ins xs ->
  forall s y, (cabs (cval f s) <= rho)%R -> (cabs y <= rho)%R ->
  exists r, cloop (fixed_ops m f) (fixed_signed m f) body s ins = Ok r /\ (cabs (cval f r) <= rho)%R /\
  (cabs (csub (cval f r) (cideal body y xs)) <= L ^ length ins * cabs (csub (cval f s) y) + delta * (1 - L ^ length ins) / (1 - L))%R.
Proof.
  intros m f Hf Sg body rho L delta L1 ins xs HF s y Bs By.
  destruct (cloop_near (fixed_ops m f) (fixed_signed m f) (cval f) (fun _ => True) (cround_fixed (ulp f)) (fval f (fmax f)) body) with (rho := rho) (L := L) (delta := delta) (ins := ins) (xs := xs) (s := s) (y := y) as (r & E & _ & R & B); auto.
  - intros env x d HE HS. destruct (cformula_fixed m f Hf Sg env x d (fun i => proj2 (HE i)) body HS) as (r & E & B). eauto.
  - clear - HF. induction HF as [|v x ins xs (d & H & C)]; constructor; auto. exists d. auto.
  - eauto.
Qed.
Theorem cloop_float : forall p e {Hp : Prec_gt_0 p} {He : Prec_lt_emax p e}, 5 <= p -> let fin (z : Cartesian (binary_float p e)) := is_finite (re z) = true /\ is_finite (im z) = true in
  forall body rho L delta, (0 <= L < 1)%R -> let u := cround_float (bpow radix2 (- p)) (bpow radix2 (3 - e - p)) in forall ins xs,
  Forall2 (fun v x => exists d, (forall i, fin (v i) /\ (cabs (csub (cvalf (v i)) (x i)) <= d i)%R) /\ ccontracting u (bpow radix2 e - bpow radix2 (e - p)) body rho L delta x d) ins xs ->
  forall s y, fin s -> (cabs (cvalf s) <= rho)%R -> (cabs y <= rho)%R ->
  exists r, cloop float_ops float_signed body s ins = Ok r /\ fin r /\ (cabs (cvalf r) <= rho)%R /\
  (cabs (csub (cvalf r) (cideal body y xs)) <= L ^ length ins * cabs (csub (cvalf s) y) + delta * (1 - L ^ length ins) / (1 - L))%R.
Proof.
  intros p e Hp He P fin body rho L delta L1 u. refine (cloop_near float_ops float_signed cvalf fin u _ body _ rho L delta L1).
  intros env x d HE HS. exact (cformula_float P env x d HE body HS).
Qed.

(** ** constant inputs *)
Lemma cideal_fixpoint : forall body x y n, cvalue (push y x) body = y -> cideal body y (repeat x n) = y.
Proof. intros body x y n H. induction n as [|n IH]; cbn [repeat cideal]; [reflexivity|]. rewrite H. exact IH. Qed.
Theorem csettles_fixed : forall m f, supported f = true -> fsigned f = true -> forall body rho L delta v x d, (0 <= L < 1)%R -> (0 <= delta)%R ->
  (forall i, (cabs (csub (cval f (v i)) (x i)) <= d i)%R) -> ccontracting (cround_fixed (ulp f)) (fval f (fmax f)) body rho L delta x d ->
  forall s y n, (cabs (cval f s) <= rho)%R -> (cabs y <= rho)%R -> cvalue (push y x) body = y ->
  exists r, cloop (fixed_ops m f) (fixed_signed m f) body s (repeat v n) = Ok r /\ (cabs (cval f r) <= rho)%R /\
  (cabs (csub (cval f r) y) <= L ^ n * cabs (csub (cval f s) y) + delta / (1 - L))%R.
Proof.
  intros m f Hf Sg body rho L delta v x d L1 D HE HC s y n Bs By FY.
  destruct (cloop_fixed m f Hf Sg body rho L delta L1 (repeat v n) (repeat x n)) with (s := s) (y := y) as (r & Er & Rr & Br); auto.
  { apply forall2_repeat. exists d. auto. }
  exists r. split; [exact Er|]. split; [exact Rr|]. rewrite cideal_fixpoint, repeat_length in Br by exact FY. eapply Rle_trans; [exact Br|]. apply settle_bound; auto.
Qed.
Theorem csettles_float : forall p e {Hp : Prec_gt_0 p} {He : Prec_lt_emax p e}, 5 <= p -> let fin (z : Cartesian (binary_float p e)) := is_finite (re z) = true /\ is_finite (im z) = true in
  forall body rho L delta v x d, (0 <= L < 1)%R -> (0 <= delta)%R ->
  (forall i, fin (v i) /\ (cabs (csub (cvalf (v i)) (x i)) <= d i)%R) -> ccontracting (cround_float (bpow radix2 (- p)) (bpow radix2 (3 - e - p))) (bpow radix2 e - bpow radix2 (e - p)) body rho L delta x d ->
  forall s y n, fin s -> (cabs (cvalf s) <= rho)%R -> (cabs y <= rho)%R -> cvalue (push y x) body = y ->
  exists r, cloop float_ops float_signed body s (repeat v n) = Ok r /\ fin r /\ (cabs (cvalf r) <= rho)%R /\
  (cabs (csub (cvalf r) y) <= L ^ n * cabs (csub (cvalf s) y) + delta / (1 - L))%R.
Proof.
  intros p e Hp He P fin body rho L delta v x d L1 D HE HC s y n Vs Bs By FY.
  destruct (cloop_float p e P body rho L delta L1 (repeat v n) (repeat x n)) with (s := s) (y := y) as (r & Er & Fr & Rr & Br); auto.
  { apply forall2_repeat. exists d. auto. }
  exists r. split; [exact Er|]. split; [exact Fr|]. split; [exact Rr|]. rewrite cideal_fixpoint, repeat_length in Br by exact FY. eapply Rle_trans; [exact Br|]. apply settle_bound; auto.
Qed.

(** ** what a state started elsewhere remembers *)
Theorem cforgets_fixed : forall m f, supported f = true -> fsigned f = true -> forall body rho L delta, (0 <= L < 1)%R -> (0 <= delta)%R -> forall ins xs,
  Forall2 (fun v x => exists d, (forall i, (cabs (csub (cval f (v i)) (x i)) <= d i)%R) /\ ccontracting (cround_fixed (ulp f)) (fval f (fmax f)) body rho L delta x d) ins xs ->
  forall s s', (cabs (cval f s) <= rho)%R -> (cabs (cval f s') <= rho)%R ->
  exists r r', cloop (fixed_ops m f) (fixed_signed m f) body s ins = Ok r /\ cloop (fixed_ops m f) (fixed_signed m f) body s' ins = Ok r' /\
  (cabs (csub (cval f r) (cval f r')) <= L ^ length ins * cabs (csub (cval f s) (cval f s')) + 2 * delta / (1 - L))%R.
Proof.
  intros m f Hf Sg body rho L delta L1 D ins xs HF s s' Bs Bs'.
  destruct (cloop_fixed m f Hf Sg body rho L delta L1 ins xs HF s (cval f s') Bs Bs') as (r & Er & _ & Br).
  destruct (cloop_fixed m f Hf Sg body rho L delta L1 ins xs HF s' (cval f s') Bs' Bs') as (r' & Er' & _ & Br').
  exists r, r'. split; [exact Er|]. split; [exact Er'|]. rewrite csub_self, cabs_00, Rmult_0_r in Br'.
  pose proof (settle_bound L delta (length ins) (L ^ length ins * cabs (csub (cval f s) (cval f s'))) L1 D) as X. pose proof (settle_bound L delta (length ins) 0 L1 D) as Y.
  set (w := cideal body (cval f s') xs) in *. pose proof (csub_tri (cval f r) w (cval f r')) as TR.
  assert (SY : cabs (csub w (cval f r')) = cabs (csub (cval f r') w)). { unfold cabs, csub. cbn [fst snd]. f_equal. ring. }
  rewrite SY in TR. replace (2 * delta / (1 - L))%R with (delta / (1 - L) + delta / (1 - L))%R by (field; lra). lra.
Qed.
