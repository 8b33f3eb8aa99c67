(** * Whole programs return the same in a release build and on a wider type (proofs for C174). *)

From Coq Require Import ZArith List Lia.
From Verif Require Import Base Traits IntImpl FixedPrim FixedImpl Complex Spec SpecProfile SpecFilter SpecFormula SpecCFormula SpecProgram SpecLoop SpecCLoop SpecTwoSort SpecVLoop SpecPipe SpecStateSpace
  Lemmas ProfileProofs WideProofs FormulaProofs TwoSortProofs.
Import ListNotations.
Open Scope Z_scope.

Section Two.
Variable T : Type.
Variables D R : MixedOps T.
Variables Dn Rn : MixedNumSigned T.
Variables Da Ra : MixedAbs T.
Variables Dq Rq : MixedSqrt T.
Variables Dw Rw : MixedPowi T.
Hypothesis HO : ref_ops D R.
Hypothesis HN : ref_neg Dn Rn.
Hypothesis HA : ref_abs Da Ra.
Hypothesis HQ : ref_sqrt Dq Rq.
Hypothesis HW : ref_powi Dw Rw.

Lemma ref_two : forall env, (forall e, refines (reval D Dn Da Dq Dw env e) (reval R Rn Ra Rq Rw env e)) /\ (forall e, refines (zeval D Dn Da Dq Dw env e) (zeval R Rn Ra Rq Rw env e)).
Proof using HO HN HA HQ HW.
  intros env. pose proof HO as [O1 O2 O3 O4 _ O5 _].
  apply two_ind; intros; first [rewrite (reval_eq D), (reval_eq R) | rewrite (zeval_eq D), (zeval_eq R)]; try apply ref_refl;
    repeat (apply ref_bind; [assumption|intro]); auto using ref_refl.
  all: first [apply (ref_mag D R HO); assumption | apply (ref_cadd D R HO) | apply (ref_conj Dn Rn HN _ (mkP (re a) (im a)))].
Qed.
Lemma ref_loop : forall body ins s, refines (loop D Dn Da Dq body s ins) (loop R Rn Ra Rq body s ins).
Proof using HO HN HA HQ. induction ins as [|v ins IH]; intros s; [apply ref_refl|]. cbn [loop]. apply ref_bind; [apply compute_ref; assumption|exact IH]. Qed.
Lemma ref_ccompute : forall env e, refines (ccompute D Dn env e) (ccompute R Rn env e).
Proof using HO HN.
  intros env. induction e; cbn [ccompute]; auto using ref_refl; repeat (apply ref_bind; [assumption|intro]); try apply (ref_cadd D R HO).
  apply (ref_conj Dn Rn HN _ (mkP (re a) (im a))).
Qed.
Lemma ref_cloop : forall body ins s, refines (cloop D Dn body s ins) (cloop R Rn body s ins).
Proof using HO HN. induction ins as [|v ins IH]; intros s; [apply ref_refl|]. cbn [cloop]. apply ref_bind; [apply ref_ccompute|exact IH]. Qed.
Lemma ref_eval_all : forall bs env, refines (eval_all D Dn Da Dq env bs) (eval_all R Rn Ra Rq env bs).
Proof using HO HN HA HQ.
  induction bs as [|b bs IH]; intros env; [apply ref_refl|]. cbn [eval_all]. apply ref_bind; [apply compute_ref; assumption|intro].
  apply ref_bind; [apply IH|intro; apply ref_refl].
Qed.
Lemma ref_vloop : forall bs ins s, refines (vloop D Dn Da Dq bs s ins) (vloop R Rn Ra Rq bs s ins).
Proof using HO HN HA HQ. induction ins as [|v ins IH]; intros s; [apply ref_refl|]. cbn [vloop]. apply ref_bind; [apply ref_eval_all|exact IH]. Qed.
Lemma ref_pipe : forall stages s, refines (pipe D Dn Da Dq s stages) (pipe R Rn Ra Rq s stages).
Proof using HO HN HA HQ. induction stages as [|[bs v] l IH]; intros s; [apply ref_refl|]. cbn [pipe]. apply ref_bind; [apply ref_eval_all|exact IH]. Qed.
Lemma ref_add_dot : forall a s acc, refines (add_dot D acc a s) (add_dot R acc a s).
Proof using HO.
  induction a as [|a0 a IH]; intros [|s0 s] acc; try apply ref_refl. cbn [add_dot]. apply ref_bind; [apply (r_mul _ _ HO)|intro].
  apply ref_bind; [apply (r_add _ _ HO)|intro; apply IH].
Qed.
Lemma ref_affine : forall M c s, refines (affine D M c s) (affine R M c s).
Proof using HO.
  induction M as [|a M IH]; intros [|c0 c] s; try apply ref_refl. cbn [affine]. apply ref_bind; [apply ref_add_dot|intro].
  apply ref_bind; [apply IH|intro; apply ref_refl].
Qed.
Lemma ref_state_space : forall M cs s, refines (state_space D M s cs) (state_space R M s cs).
Proof using HO. induction cs as [|c cs IH]; intros s; [apply ref_refl|]. cbn [state_space]. apply ref_bind; [apply ref_affine|exact IH]. Qed.
End Two.

Section Wide.
Variables (m : mode) (f g : fty) (fuel : nat).
Hypothesis Hf : supported f = true.
Hypothesis SG : fsigned g = fsigned f.
Hypothesis FR : ffrac g = ffrac f.
Hypothesis WD : fwidth f <= fwidth g.
Let W : 0 < fwidth f <= fwidth g.
Proof. split; [apply wide_width; exact Hf|exact WD]. Qed.
Let HO := wide_ops m f g SG FR W.
Let HN := wide_neg m f g SG W.
Let HA := wide_abs m f g SG W.
Let HQ := wide_sqrt m f g SG FR W fuel.
Let HW := wide_powi m f g SG FR W.

Theorem two_wide : forall env,
  (forall e, refines (reval (fixed_ops Debug f) (fixed_signed Debug f) (fixed_abs Debug f) (fixed_sqrt Debug f fuel) (fixed_powi Debug f) env e)
    (reval (fixed_ops m g) (fixed_signed m g) (fixed_abs m g) (fixed_sqrt m g fuel) (fixed_powi m g) env e)) /\
  (forall e, refines (zeval (fixed_ops Debug f) (fixed_signed Debug f) (fixed_abs Debug f) (fixed_sqrt Debug f fuel) (fixed_powi Debug f) env e)
    (zeval (fixed_ops m g) (fixed_signed m g) (fixed_abs m g) (fixed_sqrt m g fuel) (fixed_powi m g) env e)).
Proof using Hf SG FR WD. intros env. apply ref_two; assumption. Qed.
Theorem loops_wide :
  (forall body s ins, refines (loop (fixed_ops Debug f) (fixed_signed Debug f) (fixed_abs Debug f) (fixed_sqrt Debug f fuel) body s ins)
    (loop (fixed_ops m g) (fixed_signed m g) (fixed_abs m g) (fixed_sqrt m g fuel) body s ins)) /\
  (forall bodies s ins, refines (vloop (fixed_ops Debug f) (fixed_signed Debug f) (fixed_abs Debug f) (fixed_sqrt Debug f fuel) bodies s ins)
    (vloop (fixed_ops m g) (fixed_signed m g) (fixed_abs m g) (fixed_sqrt m g fuel) bodies s ins)) /\
  (forall body s ins, refines (cloop (fixed_ops Debug f) (fixed_signed Debug f) body s ins) (cloop (fixed_ops m g) (fixed_signed m g) body s ins)).
Proof using Hf SG FR WD.
  split; [|split]; intros; [apply ref_loop|apply ref_vloop|apply ref_cloop]; assumption.
Qed.
Theorem chains_wide :
  (forall s stages, refines (pipe (fixed_ops Debug f) (fixed_signed Debug f) (fixed_abs Debug f) (fixed_sqrt Debug f fuel) s stages)
    (pipe (fixed_ops m g) (fixed_signed m g) (fixed_abs m g) (fixed_sqrt m g fuel) s stages)) /\
  (forall A s cs, refines (state_space (fixed_ops Debug f) A s cs) (state_space (fixed_ops m g) A s cs)).
Proof using Hf SG FR WD. split; intros; [apply ref_pipe|apply ref_state_space]; assumption. Qed.
End Wide.

(** ** integers *)
Theorem ints_release : forall t Q, let N m := int_signed m t in let A m := int_abs m t in let O m := int_ops m t in
  (forall body s ins, refines (loop (O Debug) (N Debug) (A Debug) Q body s ins) (loop (O Release) (N Release) (A Release) Q body s ins)) /\
  (forall bodies s ins, refines (vloop (O Debug) (N Debug) (A Debug) Q bodies s ins) (vloop (O Release) (N Release) (A Release) Q bodies s ins)) /\
  (forall s stages, refines (pipe (O Debug) (N Debug) (A Debug) Q s stages) (pipe (O Release) (N Release) (A Release) Q s stages)).
Proof.
  intros t Q N A O. assert (HQ : ref_sqrt Q Q) by (intros a; apply ref_refl).
  split; [|split]; intros; [apply ref_loop|apply ref_vloop|apply ref_pipe]; first [apply ref_int_ops|apply ref_int_neg|apply ref_int_abs|exact HQ].
Qed.
(** [strict] differs from debug arithmetic in literals only. *)
Lemma cloop_strict : forall t N body ins s, cloop (int_ops Debug t) N body s ins = cloop (strict t) N body s ins.
Proof.
  intros t N body. assert (C : forall env, ccompute (int_ops Debug t) N env body = ccompute (strict t) N env body).
  { intros env. induction body; cbn [ccompute]; try reflexivity; rewrite ?IHbody1, ?IHbody2, ?IHbody; reflexivity. }
  induction ins as [|i ins IH]; intros s; cbn [cloop]; [reflexivity|]. rewrite C. destruct (ccompute _ _ _ body); cbn [bind]; [apply IH|reflexivity|reflexivity].
Qed.
Lemma state_space_strict : forall t A cs s, state_space (int_ops Debug t) A s cs = state_space (strict t) A s cs.
Proof. reflexivity. Qed.
Theorem ints_wide : forall m t u, In t int_types -> In u int_types -> imin u <= imin t -> imax t <= imax u ->
  (forall body s ins, refines (cloop (int_ops Debug t) (int_signed Debug t) body s ins) (cloop (int_ops m u) (int_signed m u) body s ins)) /\
  (forall A s cs, refines (state_space (int_ops Debug t) A s cs) (state_space (int_ops m u) A s cs)).
Proof.
  intros m t u It Iu Mn Mx. destruct (int_width t It) as [Wt _]. destruct (int_width u Iu) as [Wu _].
  assert (IN : within t u) by (intros x X; unfold in_range in *; lia).
  assert (SO := strict_ops m t u IN ltac:(lia) ltac:(lia)).
  assert (SN : ref_neg (int_signed Debug t) (int_signed m u)) by (intros a; apply fin_wide; exact IN).
  split; intros.
  - rewrite cloop_strict. exact (ref_cloop Z (strict t) (int_ops m u) _ _ SO SN body ins s).
  - rewrite state_space_strict. exact (ref_state_space Z (strict t) (int_ops m u) SO A cs s).
Qed.
