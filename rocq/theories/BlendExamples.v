(** * Concrete interpolations, averages and smoothings (examples and counterexamples for C132 to C135). *)

From Coq Require Import ZArith Reals List Lia Lra.
From Flocq Require Import Core.Core IEEE754.BinarySingleNaN.
From Verif Require Import Base FloatBase Traits FixedPrim FixedImpl FloatImpl Spec Lemmas FloatLemmas SpecBlend BlendProofs BlendFloat.
Import ListNotations.
Open Scope Z_scope.

Lemma mean_example : supported (mkFty true 16 8) = true /\ mean (fixed_ops Debug (mkFty true 16 8)) 0 [-384; 512; 1088; -128] = Ok 272 /\
  forall k, fvalid (mkFty true 16 8) (sumZ (firstn k [-384; 512; 1088; -128])).
Proof.
  split; [reflexivity|]. split; [vm_compute; reflexivity|]. intros [|[|[|[|k]]]]; try (unfold fvalid, in_range; vm_compute; split; discriminate).
  cbn [firstn]. rewrite firstn_nil. unfold fvalid, in_range. vm_compute. split; discriminate.
Qed.
Lemma lerp_example : lerp (fixed_ops Release (mkFty true 16 8)) 2560 (-640) 85 = Ok 1497 /\ fvalid (mkFty true 16 8) (-640 - 2560) /\ 0 <= 85 <= fone (mkFty true 16 8).
Proof. repeat split; try (vm_compute; (reflexivity || discriminate)). Qed.
Lemma smooth_example : smooth (fixed_ops Debug (mkFty true 16 8)) 64 0 [256; 512; -256; 1024] = Ok 307 /\ fvalid (mkFty true 16 8) (1024 - -256).
Proof. repeat split; try (vm_compute; (reflexivity || discriminate)). Qed.

Lemma smooth_fixed : forall m f alpha lo hi, supported f = true -> 0 < alpha <= fone f -> fvalid f lo -> fvalid f hi -> fvalid f (hi - lo) -> fvalid f (lo - hi) ->
  forall l y, lo <= y <= hi -> (forall x, In x l -> lo <= x <= hi) ->
  exists r, smooth (fixed_ops m f) alpha y l = Ok r /\ lo <= r <= hi /\
  (0 <= smoothR (fval f alpha) (fval f y) (map (fval f) l) - fval f r <= ulp f / fval f alpha)%R.
Proof.
  intros m f alpha lo hi Hf Ha Hlo Hhi Hd Hd' l y Y L. apply (smooth_track_fixed m f alpha lo hi); auto.
  pose proof (al_range f alpha Hf Ha). rewrite Rminus_diag_eq by reflexivity. split; [lra|]. apply Rmult_le_pos; [left; apply bpow_gt_0 | left; apply Rinv_0_lt_compat; lra].
Qed.

Lemma B2R_SF : forall p e (x : binary_float p e), B2R x = SF2R radix2 (B2SF x).
Proof. intros p e [s|s| |s m k b]; reflexivity. Qed.
Lemma endpoint_missed : exists a b r : f32, B2R a = 33554432%R /\ B2R b = 1%R /\ lerp float_ops a b Bone = Ok r /\ B2R r = 0%R.
Proof.
  pose (a := Bplus mode_NE (float_of_Z 24 128 16777216) (float_of_Z 24 128 16777216)). pose (b := float_of_Z 24 128 1).
  eexists a, b, _. split; [|split; [|split; [reflexivity|]]]; rewrite B2R_SF.
  - let x := eval vm_compute in (B2SF a) in replace (B2SF a) with x by (vm_compute; reflexivity). cbn. unfold F2R. cbn. lra.
  - let x := eval vm_compute in (B2SF b) in replace (B2SF b) with x by (vm_compute; reflexivity). cbn. unfold F2R. cbn. lra.
  - match goal with |- SF2R _ (B2SF ?y) = _ => let x := eval vm_compute in (B2SF y) in replace (B2SF y) with x by (vm_compute; reflexivity) end. cbn. reflexivity.
Qed.
Lemma overshoot : exists a b r : f32, B2R a = (-16777216)%R /\ B2R b = 3%R /\ lerp float_ops a b Bone = Ok r /\ B2R r = 4%R.
Proof.
  pose (a := float_of_Z 24 128 (-16777216)). pose (b := float_of_Z 24 128 3).
  eexists a, b, _. split; [|split; [|split; [reflexivity|]]]; rewrite B2R_SF.
  - let x := eval vm_compute in (B2SF a) in replace (B2SF a) with x by (vm_compute; reflexivity). cbn. unfold F2R. cbn. lra.
  - let x := eval vm_compute in (B2SF b) in replace (B2SF b) with x by (vm_compute; reflexivity). cbn. unfold F2R. cbn. lra.
  - match goal with |- SF2R _ (B2SF ?y) = _ => let x := eval vm_compute in (B2SF y) in replace (B2SF y) with x by (vm_compute; reflexivity) end. cbn. unfold F2R. cbn. lra.
Qed.
Lemma less : forall p e (x y : binary_float p e), is_finite x = true -> is_finite y = true -> Bcompare x y = Some Lt -> (B2R x < B2R y)%R.
Proof. intros p e x y Fx Fy C. rewrite Bcompare_correct in C by auto. injection C as C. apply Rcompare_Lt_inv. exact C. Qed.
Lemma low_average : exists x r : f64, is_finite x = true /\ mean float_ops (B754_zero false) (repeat x 10) = Ok r /\ is_finite r = true /\ (B2R r < B2R x)%R.
Proof.
  pose (x := Bdiv mode_NE (float_of_Z 53 1024 1) (float_of_Z 53 1024 10)).
  eexists x, _. split; [vm_compute; reflexivity|]. split; [reflexivity|]. split; [vm_compute; reflexivity|].
  apply less; vm_compute; reflexivity.
Qed.
Lemma stuck : forall m n, smooth (fixed_ops m (mkFty true 32 16)) 655 0 (repeat 100 n) = Ok 0.
Proof. intros m n. apply (smooth_stuck m (mkFty true 32 16) eq_refl 655 0 100); try (unfold fvalid, in_range); vm_compute; try split; try reflexivity; discriminate. Qed.
