(** * Proofs about programs with named results and calls. *)

From Coq Require Import ZArith Reals Lia Lra List Bool.
From Flocq Require Import Core.Core IEEE754.BinarySingleNaN.
From Verif Require Import Base FloatBase Traits Trig IntImpl FixedPrim FixedImpl FloatImpl Spec SpecFormula SpecProgram SpecProfile Lemmas ScalarProofs ScalarProofs2 ProfileProofs WideProofs
  PhaseAcc FilterProofs PolarProofs SinReal RotorProofs AtanProofs CsqrtProofs FormulaProofs.
Import ListNotations.
Open Scope Z_scope.

Lemma atan_lipschitz : forall a b, (Rabs (Ratan.atan a - Ratan.atan b) <= Rabs (a - b))%R.
Proof.
  intros a b. destruct (MVT_abs Ratan.atan (fun x => / (1 + x ^ 2))%R b a) as (c & E & _).
  { intros c _. apply derivable_pt_lim_atan. }
  rewrite E. rewrite <- (Rmult_1_l (Rabs (a - b))) at 2. apply Rmult_le_compat_r; [apply Rabs_pos|]. pose proof (pow2_ge_0 c).
  rewrite Rabs_pos_eq by (apply Rlt_le, Rinv_0_lt_compat; lra). rewrite <- Rinv_1. apply Rinv_le_contravar; lra.
Qed.
Lemma exact_lip : forall k a b, (Rabs (exact k a - exact k b) <= Rabs (a - b))%R.
Proof. intros [] a b; [apply sin_lipschitz|apply cos_lipschitz|apply atan_lipschitz]. Qed.

Section Any.
Context {T : Type} (O : MixedOps T) (N : MixedNumSigned T) (A : MixedAbs T) (Q : nat -> MixedSqrt T) (fn : nat -> func -> T -> res T)
  (val : T -> R) (ok : T -> Prop) (u : rounding) (tol : func -> R) (dom : func -> R -> Prop) (top : R).
Hypothesis Hexpr : forall env x d, (forall i, ok (env i) /\ (Rabs (val (env i) - x i) <= d i)%R) -> forall e, safe x u d top e ->
  exists r, returns (fun fuel => compute O N A (Q fuel) env e) r /\ ok r /\ (Rabs (val r - value x e) <= slack x u d e)%R.
Hypothesis Hcall : forall k a t, ok a -> (Rabs (val a) <= t)%R -> dom k t -> exists r, returns (fun fuel => fn fuel k a) r /\ ok r /\ (Rabs (val r - exact k (val a)) <= tol k)%R.
Lemma push_near : forall (env : nat -> T) x d v w s, (forall i, ok (env i) /\ (Rabs (val (env i) - x i) <= d i)%R) -> ok v -> (Rabs (val v - w) <= s)%R ->
  forall i, ok (push v env i) /\ (Rabs (val (push v env i) - push w x i) <= push s d i)%R.
Proof using. intros env x d v w s H Hv Hw [|i]; cbn [push]; auto. Qed.
Theorem exec_near : forall p env x d e, (forall i, ok (env i) /\ (Rabs (val (env i) - x i) <= d i)%R) -> psafe u tol dom top x d p e ->
  exists r, returns (fun fuel => exec O N A (Q fuel) (fn fuel) env p e) r /\ ok r /\ (Rabs (val r - pvalue x p e) <= pslack u tol x d p e)%R.
Proof using Hexpr Hcall.
  induction p as [|[a|k a] p IH]; intros env x d e HE HS; cbn [psafe exec pvalue pslack] in *.
  - apply Hexpr; assumption.
  - destruct HS as [Sa Sp]. destruct (Hexpr env x d HE a Sa) as (v & Ev & Vv & Bv). destruct (IH _ _ _ e (push_near _ _ _ _ _ _ HE Vv Bv) Sp) as (r & Er & Vr & Br).
    exists r. split; [|auto]. eapply returns_bind2; [exact Ev|exact Er].
  - destruct HS as (Sa & Sd & Sp). destruct (Hexpr env x d HE a Sa) as (v & Ev & Vv & Bv). destruct (Hcall k v _ Vv (abs_near _ _ _ Bv) Sd) as (w & Ew & Vw & Bw).
    assert (B : (Rabs (val w - exact k (value x a)) <= slack x u d a + tol k)%R). { eapply near_step; [exact Bw|]. eapply Rle_trans; [apply exact_lip|exact Bv]. }
    destruct (IH _ _ _ e (push_near _ _ _ _ _ _ HE Vw B) Sp) as (r & Er & Vr & Br).
    exists r. split; [|auto]. eapply returns_bind2; [exact Ev|]. eapply returns_bind2; [exact Ew|exact Er].
Qed.
End Any.


Theorem program_fixed : forall m f, supported f = true -> fsigned f = true -> 2 <= ffrac f <= fwidth f - 4 ->
  forall env x d, (forall i, fvalid f (env i) /\ (Rabs (fval f (env i) - x i) <= d i)%R) ->
  forall p e, let top := fval f (fmax f) in psafe (round_fixed (ulp f)) (tol_fixed (ulp f)) (dom_fixed f top) top x d p e ->
  exists r, returns (fun fuel => exec (fixed_ops m f) (fixed_signed m f) (fixed_abs m f) (fixed_sqrt m f fuel) (fixed_fn m f fuel) env p e) r /\
  fvalid f r /\ (Rabs (fval f r - pvalue x p e) <= pslack (round_fixed (ulp f)) (tol_fixed (ulp f)) x d p e)%R.
Proof.
  intros m f Hf Sg F env x d HE p e top HS. assert (U : (0 < ulp f)%R) by apply bpow_gt_0.
  pose proof (fmax_seven f Hf Sg ltac:(lia)) as M7. fold top in M7. pose proof (supported_fwf f Hf) as W.
  assert (U4 : (ulp f <= / 4)%R) by (unfold ulp; change (/ 4)%R with (bpow radix2 (-2)); apply bpow_le; lia).
  refine (exec_near (fixed_ops m f) (fixed_signed m f) (fixed_abs m f) (fixed_sqrt m f) (fixed_fn m f) (fval f) (fvalid f) (round_fixed (ulp f)) (tol_fixed (ulp f)) (dom_fixed f top) top _ _ p env x d e HE HS).
  - intros env' x' d' HE' e' HS'. apply formula_fixed; auto.
  - assert (V : forall r w t, (Rabs (fval f r - w) <= t)%R -> (Rabs w + t <= 7)%R -> fvalid f r).
    { intros r w t B L. apply in_rangeb_spec, fval_inj_range; auto. pose proof (abs_near _ _ _ B). fold top. lra. }
    intros k a t Va Ba Da. destruct k; cbn [dom_fixed tol_fixed exact fixed_fn] in *.
    + destruct Da as [F20 T]. destruct (sincos_fixed m f Hf Sg F20 a) as (s & c & Es & Ec & As & Ac); [lra|]. exists s. split; [exists 0%nat; intros; exact Es|]. split; [|exact As].
      apply (V s _ _ As). assert (Rabs (Rtrigo_def.sin (fval f a)) <= 1)%R by (apply Rabs_le; apply SIN_bound). lra.
    + destruct Da as [F20 T]. destruct (sincos_fixed m f Hf Sg F20 a) as (s & c & Es & Ec & As & Ac); [lra|]. exists c. split; [exact Ec|]. split; [|exact Ac].
      apply (V c _ _ Ac). assert (Rabs (Rtrigo_def.cos (fval f a)) <= 1)%R by (apply Rabs_le; apply COS_bound). lra.
    + destruct Da as [F4 T]. assert (U16 : (ulp f <= / 16)%R) by (unfold ulp; change (/ 16)%R with (bpow radix2 (-4)); apply bpow_le; lia).
      destruct (c56_fixed m f Hf Sg F4 a) as (r & Er & Br).
      { fold top. eapply Rle_trans; [|exact T]. apply Rmult_le_compat_l; [lra|]. assert (SQ : (fval f a * fval f a = Rabs (fval f a) * Rabs (fval f a))%R) by (rewrite <- Rabs_mult, Rabs_pos_eq; [reflexivity|nra]). rewrite SQ.
        apply Rmult_le_compat; auto using Rabs_pos. }
      exists r. split; [exists 0%nat; intros; exact Er|]. split; [|exact Br]. apply (V r _ _ Br). pose proof (atan_bound (fval f a)) as AB. pose proof PI_4 as P4.
      assert (Rabs (Ratan.atan (fval f a)) <= 2)%R by (apply Rabs_le; lra). lra.
Qed.

Section Flt.
Context {prec emax : Z} {Hp : Prec_gt_0 prec} {He : Prec_lt_emax prec emax}.
Notation float := (binary_float prec emax).
Notation u := (round_float (bpow radix2 (- prec)) (bpow radix2 (3 - emax - prec))).
Notation top := (bpow radix2 emax - bpow radix2 (emax - prec))%R.
Hypotheses (P24 : 24 <= prec) (E128 : 128 <= emax).
Variable big : R.
Hypothesis HT : forall x : float, is_finite x = true -> (Rabs (B2R x) <= PI)%R -> exists s c : float, flt_sin x = Ok s /\ (forall fuel, (2 <= fuel)%nat -> flt_cos fuel x = Ok c) /\
  is_finite s = true /\ is_finite c = true /\ (Rabs (B2R s - Rtrigo_def.sin (B2R x)) <= 5 / 1000000)%R /\ (Rabs (B2R c - Rtrigo_def.cos (B2R x)) <= 5 / 1000000)%R.
Hypothesis HA : @atan1_claims prec emax _ _ big.
Theorem program_float : forall m sq, (forall x : float, sq x = Bsqrt mode_NE x) ->
  forall env x d, (forall i, is_finite (env i) = true /\ (Rabs (B2R (env i) - x i) <= d i)%R) ->
  forall p e, psafe u tol_float (dom_float big) top x d p e ->
  exists r, returns (fun fuel => exec float_ops float_signed float_abs (float_sqrt m sq fuel) (float_fn fuel) env p e) r /\ is_finite r = true /\
  (Rabs (B2R r - pvalue x p e) <= pslack u tol_float x d p e)%R.
Proof using All.
  intros m sq Hsq env x d HE p e HS.
  refine (exec_near float_ops float_signed float_abs (float_sqrt m sq) float_fn B2R (fun r => is_finite r = true) u tol_float (dom_float big) top _ _ p env x d e HE HS).
  - intros env' x' d' HE' e' HS'. destruct (formula_float P24 E128 m sq Hsq env' x' d' HE' e' HS') as (r & Er & F). exists r. split; [exists 0%nat; intros; apply Er|exact F].
  - intros k a t Fa Ba Da. destruct k; cbn [dom_float tol_float exact float_fn] in *.
    + destruct (HT a Fa) as (s & c & Es & Ec & Fs & Fc & As & Ac); [lra|]. exists s. split; [exists 0%nat; intros; exact Es|]. auto.
    + destruct (HT a Fa) as (s & c & Es & Ec & Fs & Fc & As & Ac); [lra|]. exists c. split; [exists 2%nat; exact Ec|]. auto.
    + destruct (HA a Fa) as (r & Er & Fr & Br); [lra|]. exists r. split; [exists 0%nat; intros; exact Er|]. auto.
Qed.
End Flt.
Definition program_f32 := program_float (prec := 24) (emax := 128) ltac:(lia) ltac:(lia) _ sincos_f32 c56_f32.
Definition program_f64 := program_float (prec := 53) (emax := 1024) ltac:(lia) ltac:(lia) _ sincos_f64 c56_f64.

Theorem program_wide : forall m f g, supported f = true -> fsigned g = fsigned f -> ffrac g = ffrac f -> fwidth f <= fwidth g -> forall fuel p env e,
  refines (exec (fixed_ops Debug f) (fixed_signed Debug f) (fixed_abs Debug f) (fixed_sqrt Debug f fuel) (fixed_fn Debug f fuel) env p e)
    (exec (fixed_ops m g) (fixed_signed m g) (fixed_abs m g) (fixed_sqrt m g fuel) (fixed_fn m g fuel) env p e).
Proof.
  intros m f g Hf SG FR WD fuel. pose proof (formula_wide m f g Hf SG FR WD fuel) as H.
  assert (C : forall k a, refines (fixed_fn Debug f fuel k a) (fixed_fn m g fuel k a)).
  { intros k a. destruct (wide_scalar m f g SG FR (conj (wide_width f Hf) WD) a a 0 fuel 0) as (_ & _ & _ & _ & _ & _ & _ & _ & _ & _ & _ & S1 & S2 & _ & S3). destruct k; cbn [fixed_fn]; assumption. }
  induction p as [|[a|k a] p IH]; intros env e; cbn [exec]; [apply H|apply ref_bind; [apply H|intro; apply IH]|].
  apply ref_bind; [apply H|intro]. apply ref_bind; [apply C|intro; apply IH].
Qed.
