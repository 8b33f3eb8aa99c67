(** * The float cosine of far-away angles: always bounded, not always right (proofs for C100). *)

From Coq Require Import ZArith Reals Lia Lra Psatz.
From Flocq Require Import Core.Core IEEE754.BinarySingleNaN.
From Verif Require Import Base FloatBase Literals Traits Trig FloatImpl Complex Spec Lemmas WrapProofs WrapProofs2 FloatLemmas SinReal SinFloat TrigProofs PolarProofs FloatPolar
  CosLarge WrapFar.
Open Scope Z_scope.

Section Bounded.
Context {prec emax : Z} {Hp : Prec_gt_0 prec} {He : Prec_lt_emax prec emax}.
Notation float := (binary_float prec emax).
Notation pf := (float_of_float prec emax lit_pi).
Notation fh := (Bdiv mode_NE pf (float_of_Z prec emax 2)).
Notation fcos := (Trig.cos float_ops float_signed float_pi float_powi).
Notation fsin := (Trig.sin float_ops float_signed float_pi float_powi).

Lemma cos_bounded : is_finite fh = true ->
  (forall x : float, is_finite x = true -> (Rabs (B2R x) <= B2R pf)%R -> exists r, fsin x = Ok r /\ is_finite r = true /\ (Rabs (B2R r - Rtrigo_def.sin (B2R x)) <= 5 / 1000000)%R) ->
  (forall fuel (phi r : float), mixed_wrap_phase (float_wrap_phase fuel) phi = Ok r ->
    (phi = B754_nan /\ r = B754_nan) \/ (is_finite phi = true /\ is_finite r = true /\ (- B2R pf <= B2R r < B2R pf)%R)) ->
  forall fuel (x r : float), is_finite x = true -> fcos fuel x = Ok r -> is_finite r = true /\ (Rabs (B2R r) <= 1 + 5 / 1000000)%R.
Proof.
  intros Fh HS HW fuel x r Fx E.
  change (bind (mixed_wrap_phase (float_wrap_phase fuel) (Bplus mode_NE x fh)) (fun w => fsin w) = Ok r) in E.
  destruct (mixed_wrap_phase (float_wrap_phase fuel) (Bplus mode_NE x fh)) as [w| |] eqn:W; cbn [bind] in E; try discriminate.
  destruct (HW _ _ _ W) as [[N _]|[_ [Fw Bw]]].
  - exfalso. destruct x as [[]|[]| |[] ? ? ?], fh as [[]|[]| |[] ? ? ?]; try discriminate.
    all: match type of N with Bplus mode_NE ?a ?b = _ => pose proof (Bplus_correct prec emax _ _ mode_NE a b eq_refl eq_refl) as BC end.
    all: destruct (Rlt_bool _ _) in BC; [destruct BC as [_ [BC _]]; rewrite N in BC; discriminate | destruct BC as [BC _]; rewrite N in BC; discriminate].
  - destruct (HS w Fw) as (q & Eq & Fq & Aq); [apply Rabs_le; lra|]. assert (q = r) by congruence. subst q. split; auto.
    pose proof (SIN_bound (B2R w)) as SB. apply Rabs_le_inv in Aq. apply Rabs_le. lra.
Qed.
End Bounded.
Lemma cos_bounded_f32 : forall fuel (x r : f32), is_finite x = true -> Trig.cos float_ops float_signed float_pi float_powi fuel x = Ok r ->
  is_finite r = true /\ (Rabs (B2R r) <= 1 + 5 / 1000000)%R.
Proof.
  destruct f32_half_val as [_ Fh]. apply (@cos_bounded 24 128 _ _ Fh).
  - destruct sin_claims_f32 as [_ (p & Ep & _ & H)]. assert (p = f32_pi) by (change (Ok f32_pi = Ok p) in Ep; congruence). subst p.
    intros x F X. destruct (H x F X) as [(r & A & B & C) _]. exists r. repeat split; auto. lra.
  - intros fuel phi r R. destruct (c10_of 27 wrap_claims_f32) as (p & Ep & _ & _ & Rg). assert (p = f32_pi) by (change (Ok f32_pi = Ok p) in Ep; congruence). subst p.
    exact (Rg fuel phi r R).
Qed.
Lemma cos_bounded_f64 : forall fuel (x r : f64), is_finite x = true -> Trig.cos float_ops float_signed float_pi float_powi fuel x = Ok r ->
  is_finite r = true /\ (Rabs (B2R r) <= 1 + 5 / 1000000)%R.
Proof.
  destruct f64_half_val as [_ Fh]. apply (@cos_bounded 53 1024 _ _ Fh).
  - destruct sin_claims_f64 as [_ (p & Ep & _ & H)]. assert (p = f64_pi) by (change (Ok f64_pi = Ok p) in Ep; congruence). subst p.
    intros x F X. destruct (H x F X) as [(r & A & B & C) _]. exists r. repeat split; auto. lra.
  - intros fuel phi r R. destruct (c10_of 56 wrap_claims_f64) as (p & Ep & _ & _ & Rg). assert (p = f64_pi) by (change (Ok f64_pi = Ok p) in Ep; congruence). subst p.
    exact (Rg fuel phi r R).
Qed.

(** more fuel does not change an answer *)
Lemma cos_mono : forall n (x r : f32), Trig.cos float_ops float_signed float_pi float_powi n x = Ok r ->
  returns (fun fuel => Trig.cos float_ops float_signed float_pi float_powi fuel x) r.
Proof.
  intros n x r. set (y := Bplus mode_NE x (Bdiv mode_NE (float_of_float 24 128 lit_pi) (float_of_Z 24 128 2))).
  assert (E : forall fuel, Trig.cos float_ops float_signed float_pi float_powi fuel x =
    bind (wrap_phase float_ops float_signed float_pi fuel y) (fun w => Trig.sin float_ops float_signed float_pi float_powi w)) by reflexivity.
  clearbody y. intros R. rewrite E in R.
  destruct (wrap_phase float_ops float_signed float_pi n y) as [w| |] eqn:W; cbn [bind] in R; try discriminate.
  destruct (wrap_mono _ _ _ _ _ _ W) as [k Hk]. exists k. intros fuel L. rewrite E. cbv beta in Hk. rewrite (Hk fuel L). exact R.
Qed.

(** The f32 cosine of 42000 has the wrong sign. *)
Definition far42 : f32 := float_of_Z 24 128 42000.
Definition far42_cos : f32 := @B754_finite 24 128 false 15814708 (-24) eq_refl.
Lemma far42_run : Trig.cos float_ops float_signed float_pi float_powi (Z.to_nat 7000) far42 = Ok far42_cos.
Proof.
  assert (H : map_res B2SF (Trig.cos float_ops float_signed float_pi float_powi (Z.to_nat 7000) far42) = Ok (B2SF far42_cos)) by (vm_compute; reflexivity).
  destruct (Trig.cos _ _ _ _ _ _) as [r| |]; cbn [map_res bind] in H; try discriminate. f_equal. apply B2SF_inj. injection H as H. rewrite H. reflexivity.
Qed.
Lemma far42_val : B2R far42 = 42000%R /\ is_finite far42 = true.
Proof.
  assert (H : B2SF far42 = SpecFloat.S754_finite false 10752000 (-8)) by (vm_compute; reflexivity).
  destruct far42 as [| | |s m e b]; cbn in H; try discriminate. injection H as -> -> ->. split; [|reflexivity].
  unfold B2R, F2R. cbn [Fnum Fexp cond_Zopp]. change (bpow radix2 (-8)) with (/ 256)%R. lra.
Qed.
Lemma cos_42000 : (Rtrigo_def.cos 42000 <= - (99 / 100))%R.
Proof.
  pose proof pi_bounds as PB. set (t := (42000 - 13369 * PI)%R).
  assert (T : (0 <= t <= 5 / 100)%R) by (unfold t; lra).
  replace 42000%R with (t + PI + 2 * IZR 6684 * PI)%R by (unfold t; lra).
  rewrite cos_turns, neg_cos.
  assert (C : (1 - t * t / 2 <= Rtrigo_def.cos t)%R).
  { destruct (pre_cos_bound t 0 ltac:(lra) ltac:(lra)) as [L _]. unfold cos_approx, cos_term in L. cbn in L. lra. }
  nra.
Qed.
Lemma cos_far_off : exists (x r : f32), is_finite x = true /\ (Rabs (B2R x) <= bpow radix2 16)%R /\
  returns (fun fuel => Trig.cos float_ops float_signed float_pi float_powi fuel x) r /\ (94 / 100 <= B2R r)%R /\ (Rtrigo_def.cos (B2R x) <= - (99 / 100))%R.
Proof.
  exists far42, far42_cos. destruct far42_val as [V F]. split; [exact F|]. rewrite V. split.
  { change (bpow radix2 16) with 65536%R. rewrite Rabs_pos_eq; lra. }
  split; [|split; [|exact cos_42000]].
  - exact (cos_mono _ _ _ far42_run).
  - unfold B2R, far42_cos, F2R. cbn [Fnum Fexp cond_Zopp]. change (bpow radix2 (-24)) with (/ 16777216)%R. lra.
Qed.
