(** * Combined statements about the sine and cosine. *)

From Coq Require Import ZArith Reals Lia Lra List.
From Flocq Require Import Core.Core IEEE754.BinarySingleNaN.
From Verif Require Import Base FloatBase Literals Traits Trig IntImpl FixedPrim FixedImpl FloatImpl Spec
  Lemmas ScalarProofs ScalarProofs2 WrapProofs SinReal SinFixed SinFloat.
Open Scope Z_scope.

Lemma fval_le : forall f a b, 0 <= ffrac f -> ((fval f a <= fval f b)%R <-> a <= b).
Proof.
  intros f a b F. rewrite !fval_eq by auto. pose proof (fone_IZR_pos f F) as P. apply Rinv_0_lt_compat in P. split; intros H.
  - apply le_IZR. eapply Rmult_le_reg_r; eauto.
  - apply Rmult_le_compat_r; [lra|]. apply IZR_le; auto.
Qed.
Lemma fval_abs : forall f a, 0 <= ffrac f -> Rabs (fval f a) = fval f (Z.abs a).
Proof.
  intros f a F. rewrite !fval_eq by auto. pose proof (fone_IZR_pos f F) as P.
  unfold Rdiv. rewrite Rabs_mult, Rabs_inv, (Rabs_pos_eq (IZR (fone f))), abs_IZR by lra. reflexivity.
Qed.

Lemma c19 : forall m f, supported f = true -> fsigned f = true -> ffrac f <= fwidth f - 20 ->
  exists p, mixed_pi (fixed_pi m f) = Ok p /\
  (forall x, (Rabs (fval f x) <= PI)%R -> (Rabs (fval f x) <= fval f p)%R) /\
  forall x, (Rabs (fval f x) <= fval f p)%R -> exists r,
    sin (fixed_ops m f) (fixed_signed m f) (fixed_pi m f) (fixed_powi m f) x = Ok r /\
    (Rabs (fval f r - Rtrigo_def.sin (fval f x)) <= 362 / 100000000 + 405 / 100 * ulp f)%R.
Proof.
  intros m f Hf S I. pose proof (supported_fwf f Hf) as W. pose proof (supported_inv f Hf) as HI.
  exists (pi_bits f). split; [apply fixed_pi_eq; auto|]. split; intros x H.
  - rewrite fval_abs, fval_le by apply W. apply below_pi; auto; lia.
  - rewrite fval_abs, fval_le in H by apply W. apply sin_acc; auto; lia.
Qed.

Lemma c20 : forall f, supported f = true -> fsigned f = true ->
  (fwidth f - 20 < ffrac f -> forall x, sin (fixed_ops Debug f) (fixed_signed Debug f) (fixed_pi Debug f) (fixed_powi Debug f) x = Panic POverflow) /\
  (fwidth f - ffrac f <= 7 -> forall x, sin (fixed_ops Release f) (fixed_signed Release f) (fixed_pi Release f) (fixed_powi Release f) x = Panic PDivZero).
Proof.
  intros f Hf S. pose proof (supported_fwf f Hf) as W. split; intros L x.
  - apply sin_debug_panics; auto.
  - apply sin_release; auto.
Qed.
Lemma c20_total : forall f, supported f = true -> fsigned f = true ->
  (ffrac f <= fwidth f - 20 -> forall p x, mixed_pi (fixed_pi Debug f) = Ok p -> (Rabs (fval f x) <= fval f p)%R ->
     exists r, sin (fixed_ops Debug f) (fixed_signed Debug f) (fixed_pi Debug f) (fixed_powi Debug f) x = Ok r) /\
  (8 <= fwidth f - ffrac f -> forall x, exists r, sin (fixed_ops Release f) (fixed_signed Release f) (fixed_pi Release f) (fixed_powi Release f) x = Ok r).
Proof.
  intros f Hf S. pose proof (supported_fwf f Hf) as W. split.
  - intros L p x Ep H. destruct (c19 Debug f Hf S L) as [p' [Ep' [_ A]]]. assert (p' = p) by congruence. subst.
    destruct (A x H) as [r [E _]]. eauto.
  - intros L x. apply sin_release; auto.
Qed.

Lemma c21 : forall m f, supported f = true -> fsigned f = true -> ffrac f <= fwidth f - 20 ->
  exists p, mixed_pi (fixed_pi m f) = Ok p /\
  forall x, fvalid f x -> (fval f x + fval f p / 2 <= fval f (fmax f))%R -> exists r,
    returns (fun fuel => cos (fixed_ops m f) (fixed_signed m f) (fixed_pi m f) (fixed_powi m f) fuel x) r /\
    (Rabs (fval f r - Rtrigo_def.cos (fval f x)) <= 362 / 100000000 + (6 + Rabs (fval f x) / 5) * ulp f)%R.
Proof.
  intros m f Hf S I. pose proof (supported_fwf f Hf) as W. pose proof (supported_inv f Hf) as HI. pose proof (proj1 W) as F0.
  pose proof (pi_bits_bounds f W) as PB. pose proof (fone_pos f F0).
  exists (pi_bits f). split; [apply fixed_pi_eq; auto|]. intros x V H1. apply cos_acc; auto; try lia.
  assert (L : x + pi_bits f / 2 <= fmax f).
  { rewrite !fval_eq in H1 by auto. pose proof (fone_IZR_pos f F0) as P.
    assert (H2 : (IZR x + IZR (pi_bits f) / 2 <= IZR (fmax f))%R).
    { apply Rmult_le_reg_r with (/ IZR (fone f))%R; [apply Rinv_0_lt_compat; auto|]. unfold Rdiv in *. lra. }
    pose proof (floor_real (pi_bits f) 2 ltac:(lia)). apply le_IZR. rewrite plus_IZR. lra. }
  pose proof (Z.div_pos (pi_bits f) 2 ltac:(lia) ltac:(lia)).
  unfold fvalid, in_range in *. unfold fmax in L. split; [lia|exact L].
Qed.
Lemma c21_ex : supported (mkFty true 32 12) = true /\
  cos (fixed_ops Debug (mkFty true 32 12)) (fixed_signed Debug (mkFty true 32 12)) (fixed_pi Debug (mkFty true 32 12)) (fixed_powi Debug (mkFty true 32 12)) 10 (2 * 2 ^ 12) = Ok (-1704) /\
  (fval (mkFty true 32 12) 8192 + fval (mkFty true 32 12) 12868 / 2 <= fval (mkFty true 32 12) (fmax (mkFty true 32 12)))%R.
Proof.
  split; [reflexivity|]. split; [vm_compute; reflexivity|].
  rewrite !fval_eq by (cbn; lia). change (fmax (mkFty true 32 12)) with 2147483647. change (fone (mkFty true 32 12)) with 4096. lra.
Qed.

Lemma c22_of : forall {prec emax : Z} {Hp : Prec_gt_0 prec} {He : Prec_lt_emax prec emax}, @sin_claims prec emax Hp He ->
  (forall x : binary_float prec emax, exists r r', sin float_ops float_signed float_pi float_powi x = Ok r /\
     sin float_ops float_signed float_pi float_powi (Bopp x) = Ok r' /\ same_float r' (Bopp r)) /\
  exists p : binary_float prec emax, mixed_pi float_pi = Ok p /\
  (forall x : binary_float prec emax, is_finite x = true -> (Rabs (B2R x) <= PI)%R -> (Rabs (B2R x) <= B2R p)%R) /\
  (forall x : binary_float prec emax, is_finite x = true -> (Rabs (B2R x) <= B2R p)%R ->
    exists r, sin float_ops float_signed float_pi float_powi x = Ok r /\ is_finite r = true /\ (Rabs (B2R r - Rtrigo_def.sin (B2R x)) <= 5 / 1000000)%R).
Proof.
  intros prec emax Hp He [A [p [Ep [B C]]]]. split; [exact A|]. exists p. split; auto. split; auto.
  intros x F H. destruct (C x F H) as [[r [E [Fr Ar]]] _]. exists r. split; auto. split; auto. lra.
Qed.
Definition c22_f32 := c22_of sin_claims_f32.
Definition c22_f64 := c22_of sin_claims_f64.
Lemma c54_of : forall {prec emax : Z} {Hp : Prec_gt_0 prec} {He : Prec_lt_emax prec emax}, @sin_claims prec emax Hp He ->
  exists p : binary_float prec emax, mixed_pi float_pi = Ok p /\
  (forall x : binary_float prec emax, is_finite x = true -> (Rabs (B2R x) <= B2R p)%R -> exists r : binary_float prec emax, is_finite r = true /\
    (Rabs (B2R r - Rtrigo_def.cos (B2R x)) <= 5 / 1000000)%R /\
    forall fuel, (2 <= fuel)%nat -> cos float_ops float_signed float_pi float_powi fuel x = Ok r).
Proof. intros prec emax Hp He [A [p [Ep [B C]]]]. exists p. split; auto. intros x F H. destruct (C x F H) as [_ D]. exact D. Qed.
Definition c54_f32 := c54_of sin_claims_f32.
Definition c54_f64 := c54_of sin_claims_f64.
