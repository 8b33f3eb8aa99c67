(** * Polar multiplication followed by conversion, against the product of the two numbers (proofs for C89). *)

From Coq Require Import ZArith Reals Lia Lra Psatz List Bool.
From Flocq Require Import Core.Core IEEE754.BinarySingleNaN.
From Verif Require Import Base FloatBase Literals Traits Trig FixedPrim FixedImpl FloatImpl Complex Spec SpecAngle SpecPolar SpecFloatPolar
  Lemmas ScalarProofs FloatLemmas ScalarProofs2 WrapProofs WrapProofs2 SinReal TrigProofs AtanReal MagProofs ComplexProofs ComplexProofs2 ComplexProofs3
  FloatKit FloatWrap FloatWrap2 FloatArith PolarProofs PolarProofs2 PolarProofs3 FloatPolar.
Open Scope Z_scope.

Lemma prod_re : forall g h a b, (g * Rtrigo_def.cos a * (h * Rtrigo_def.cos b) - g * Rtrigo_def.sin a * (h * Rtrigo_def.sin b) = g * h * Rtrigo_def.cos (a + b))%R.
Proof. intros. rewrite cos_plus. ring. Qed.
Lemma prod_im : forall g h a b, (g * Rtrigo_def.cos a * (h * Rtrigo_def.sin b) + g * Rtrigo_def.sin a * (h * Rtrigo_def.cos b) = g * h * Rtrigo_def.sin (a + b))%R.
Proof. intros. rewrite sin_plus. ring. Qed.

Lemma close : forall z g v e t B, (Rabs (z - g * t) <= B -> Rabs (g - v) <= e -> Rabs t <= 1 -> Rabs (z - v * t) <= B + e)%R.
Proof.
  intros. replace (z - v * t)%R with ((z - g * t) + (g - v) * t)%R by ring. eapply Rle_trans; [apply Rabs_triang|].
  rewrite Rabs_mult. pose proof (Rabs_pos t). pose proof (Rabs_pos (g - v)). nra.
Qed.

Lemma add_ok : forall m f a b, fwf f -> fsigned f = true -> (Rabs (fval f a + fval f b) <= fval f (fmax f))%R ->
  fvalid f (a + b) /\ fx_fin m f (a + b) = Ok (a + b) /\ (fval f (a + b) = fval f a + fval f b)%R.
Proof.
  intros m f a b W S H. assert (E : (fval f (a + b) = fval f a + fval f b)%R) by (unfold fval; rewrite plus_IZR; ring).
  assert (V : fvalid f (a + b)).
  { apply fvalid_iff. rewrite S. rewrite <- E in H. rewrite (fmax_signed f) in H by auto. apply Rabs_le_inv in H. destruct H as [H1 H2].
    assert (N : (- fval f (2 ^ (fwidth f - 1) - 1) = fval f (- (2 ^ (fwidth f - 1) - 1)))%R) by (unfold fval; rewrite opp_IZR; ring).
    rewrite N in H1. apply fval_le in H1; [|apply W]. apply fval_le in H2; [|apply W]. lia. }
  split; auto. split; auto. apply fx_fin_ok; auto.
Qed.

Lemma polar_mul_fixed : forall m f, supported f = true -> fsigned f = true -> ffrac f <= fwidth f - 4 ->
  forall p, mixed_pi (fixed_pi m f) = Ok p -> forall Sn d, accurate_sincos f (fval f p) d Sn ->
  forall q1 q2, let g := fval f (mag q1) in let h := fval f (mag q2) in let a := fval f (ang q1) in let b := fval f (ang q2) in
  ((Rabs (g * h) + ulp f) * (1 + d) <= fval f (fmax f))%R -> (Rabs (a + b) <= fval f (fmax f))%R ->
  exists z, returns (fun fuel => q <- polar_mul (fixed_ops m f) q1 q2 ;; polar_to_cartesian (fixed_ops m f) (fixed_wrap_phase m f fuel) Sn q) z /\
  let B := ((Rabs (g * h) + ulp f) * (d + (Rabs (a + b) / 6 + / 2) * (ulp f + 2 / 1000000000000000)) + 2 * ulp f)%R in
  (Rabs (fval f (re z) - (g * Rtrigo_def.cos a * (h * Rtrigo_def.cos b) - g * Rtrigo_def.sin a * (h * Rtrigo_def.sin b))) <= B)%R /\
  (Rabs (fval f (im z) - (g * Rtrigo_def.cos a * (h * Rtrigo_def.sin b) + g * Rtrigo_def.sin a * (h * Rtrigo_def.cos b))) <= B)%R.
Proof.
  intros m f Hf S F p Hp Sn d AS q1 q2 g h a b G A. pose proof (supported_fwf f Hf) as W.
  assert (U : (0 < ulp f)%R) by (unfold ulp; apply bpow_gt_0).
  assert (D : (0 <= d)%R).
  { destruct (AS 0) as (s & c & _ & E & _).
    - pose proof W. apply fvalid_iff. rewrite S. assert (0 < 2 ^ (fwidth f - 1)) by (apply Z.pow_pos_nonneg; unfold fwf in W; lia). lia.
    - unfold fval at 1. rewrite Rmult_0_l, Rabs_R0. rewrite fixed_pi_eq in Hp by auto. injection Hp as <-.
      pose proof (pi_bits_bounds f W) as PB. rewrite <- (Rmult_0_l (ulp f)). unfold fval. apply Rmult_le_compat_r; [unfold ulp in U; lra|]. apply IZR_le.
      pose proof (fone_pos f (proj1 W)). nia.
    - pose proof (Rabs_pos (fval f s - Rtrigo_def.sin (fval f 0))). lra. }
  pose proof (Rabs_pos (g * h)) as G0. pose proof (Rabs_pos (a + b)) as A0.
  assert (K : forall r, fvalid f (ang r) -> (Rabs (fval f (mag r) - g * h) <= ulp f)%R -> (fval f (ang r) = a + b)%R \/ (g * h = 0)%R /\ ang r = 0 /\ mag r = 0 ->
    polar_mul (fixed_ops m f) q1 q2 = Ok r ->
    exists z, returns (fun fuel => q <- polar_mul (fixed_ops m f) q1 q2 ;; polar_to_cartesian (fixed_ops m f) (fixed_wrap_phase m f fuel) Sn q) z /\
    let B := ((Rabs (g * h) + ulp f) * (d + (Rabs (a + b) / 6 + / 2) * (ulp f + 2 / 1000000000000000)) + 2 * ulp f)%R in
    (Rabs (fval f (re z) - g * h * Rtrigo_def.cos (a + b)) <= B)%R /\ (Rabs (fval f (im z) - g * h * Rtrigo_def.sin (a + b)) <= B)%R).
  { intros r Vr M0 Ang Er.
    assert (Mr : (Rabs (fval f (mag r)) <= Rabs (g * h) + ulp f)%R).
    { replace (fval f (mag r)) with ((fval f (mag r) - g * h) + g * h)%R by ring. eapply Rle_trans; [apply Rabs_triang|]. lra. }
    destruct (to_cartesian_all m f Hf S F p Hp Sn d AS r Vr) as [z [Rz [[B1 B2] _]]].
    { eapply Rle_trans; [|exact G]. apply Rmult_le_compat_r; lra. }
    exists z. split. { destruct Rz as [n0 Rz]. exists n0. intros n Hn. rewrite Er. exact (Rz n Hn). }
    cbv zeta. set (ex := fun t => (d + (Rabs t / 6 + / 2) * (ulp f + 2 / 1000000000000000))%R) in *.
    change (d + (Rabs (a + b) / 6 + / 2) * (ulp f + 2 / 1000000000000000))%R with (ex (a + b)%R).
    change (d + (Rabs (fval f (ang r)) / 6 + / 2) * (ulp f + 2 / 1000000000000000))%R with (ex (fval f (ang r))) in B1, B2.
    assert (X0 : forall t, (0 <= ex t)%R). { intros t. unfold ex. pose proof (Rabs_pos t). nra. }
    destruct Ang as [Ang|(Z1 & Z2 & Z3)].
    - rewrite Ang in B1, B2. pose proof (Rmult_le_compat_r _ _ _ (X0 (a + b)%R) Mr).
      split; (eapply Rle_trans; [eapply close; [eassumption | exact M0 | first [apply abs_cos | apply abs_sin]] | lra]).
    - rewrite Z1, Z3 in *. assert (Z0 : fval f 0 = 0%R) by (unfold fval; ring). rewrite Z0 in B1, B2. rewrite Rabs_R0 in *. rewrite !Rmult_0_l in B1, B2. rewrite !Rmult_0_l.
      pose proof (X0 (a + b)%R). split; nra. }
  rewrite prod_re, prod_im.
  destruct (polar_mul_word_all m (fity f) (fixed_ops m f) (word_fixed m (fity f) f eq_refl) (or_introl (ex_intro _ f (conj eq_refl Hf))) q1 q2) as [Zc [Nz _]].
  assert (Z0 : fval f 0 = 0%R) by (unfold fval; ring).
  assert (V0 : fvalid f 0). { apply fvalid_iff. rewrite S. assert (0 < 2 ^ (fwidth f - 1)) by (apply Z.pow_pos_nonneg; unfold fwf in W; lia). lia. }
  destruct (Z.eq_dec (mag q1) 0) as [E1|N1]; [|destruct (Z.eq_dec (mag q2) 0) as [E2|N2]].
  - assert (GH : (g * h = 0)%R) by (unfold g; rewrite E1, Z0; ring).
    apply (K (mkP 0 0)); cbn [mag ang]; auto; try (rewrite Z0, GH, Rminus_0_r, Rabs_R0; lra).
  - assert (GH : (g * h = 0)%R) by (unfold h; rewrite E2, Z0; ring).
    apply (K (mkP 0 0)); cbn [mag ang]; auto; try (rewrite Z0, GH, Rminus_0_r, Rabs_R0; lra).
  - destruct (fmul_ok m f (mag q1) (mag q2) W S) as [Em Mv]. { fold g h. nra. }
    destruct (add_ok m f (ang q1) (ang q2) W S A) as [Va [Ea Av]].
    apply (K (mkP (mag q1 * mag q2 / fone f) (ang q1 + ang q2))); cbn [mag ang]; auto.
    + unfold g, h. lra.
    + apply Nz; auto.
Qed.

Section FM.
Context {prec emax : Z} {Hp : Prec_gt_0 prec} {He : Prec_lt_emax prec emax}.
Notation float := (binary_float prec emax).
Notation rnd := (round radix2 (SpecFloat.fexp prec emax) ZnearestE).
Notation u := (bpow radix2 (- prec)).
Notation eta := (bpow radix2 (3 - emax - prec)).
Hypothesis P24 : 24 <= prec.
Hypothesis E4 : prec + 40 < emax.
Variables pf tau : float.
Hypothesis Hpi : float_of_float prec emax lit_pi = pf.
Hypothesis Htau : Bmult mode_NE (float_of_Z prec emax 2) pf = tau.
Hypothesis Fpf : is_finite pf = true.
Hypothesis Ftau : is_finite tau = true.
Hypothesis Vpf : (3 <= B2R pf <= 22 / 7)%R.
Hypothesis Vtau : (B2R tau = 2 * B2R pf)%R.
Hypothesis Vpi : (Rabs (B2R pf - PI) <= 3 / 2 * u)%R.

Lemma cmp_zero : forall x : float, is_finite x = true -> Bcompare x (B754_zero false) = Some Eq \/ Bcompare x (B754_zero false) <> Some Eq.
Proof using. intros. destruct (Bcompare x (B754_zero false)) as [[| |]|]; auto; right; discriminate. Qed.
Lemma cmp_zero_val : forall x : float, is_finite x = true -> Bcompare x (B754_zero false) = Some Eq -> B2R x = 0%R.
Proof using. intros x F H. rewrite (Bcompare_correct prec emax x (B754_zero false) F eq_refl) in H. injection H as H. apply Rcompare_Eq_inv in H. exact H. Qed.

Lemma polar_mul_float : forall Sn d, accurate_sincos_float 4 d Sn -> (0 <= d <= 1)%R -> forall q1 q2 : Polar float,
  is_finite (mag q1) = true -> is_finite (ang q1) = true -> is_finite (mag q2) = true -> is_finite (ang q2) = true ->
  let g := B2R (mag q1) in let h := B2R (mag q2) in let a := B2R (ang q1) in let b := B2R (ang q2) in
  (Rabs (g * h) <= bpow radix2 (emax - 3))%R -> (Rabs (a + b) <= 119 / 10)%R ->
  exists z, returns (fun fuel => q <- polar_mul float_ops q1 q2 ;; polar_to_cartesian float_ops (float_wrap_phase fuel) Sn q) z /\ cfin z /\
  let B := (Rabs (g * h) * (d + 31 * u) + 4 * eta)%R in
  (Rabs (B2R (re z) - (g * Rtrigo_def.cos a * (h * Rtrigo_def.cos b) - g * Rtrigo_def.sin a * (h * Rtrigo_def.sin b))) <= B)%R /\
  (Rabs (B2R (im z) - (g * Rtrigo_def.cos a * (h * Rtrigo_def.sin b) + g * Rtrigo_def.sin a * (h * Rtrigo_def.cos b))) <= B)%R.
Proof using All.
  intros Sn d AS D q1 q2 Fg Fa Fh Fb g h a b G A. rewrite prod_re, prod_im. cbv zeta.
  pose proof (ep_small P24) as EP. pose proof (bpow_gt_0 radix2 (- prec)) as U0. pose proof (bpow_gt_0 radix2 (3 - emax - prec)) as H0.
  pose proof (Rabs_pos (g * h)) as G0.
  assert (ET : (eta <= / 1000 * u)%R).
  { apply Rle_trans with (bpow radix2 (- prec + -10)); [apply bpow_le; lia|]. rewrite bpow_plus. change (bpow radix2 (-10)) with (/ 1024)%R. lra. }
  destruct (polar_mul_float_all q1 q2) as (Zc & Nz & _).
  destruct (Req_dec (g * h) 0) as [GZ|GN].
  - assert (X : exists r : Polar float, polar_mul float_ops q1 q2 = Ok r /\ is_finite (mag r) = true /\ B2R (mag r) = 0%R /\ is_finite (ang r) = true /\ (Rabs (B2R (ang r)) <= 12)%R).
    { destruct (plus_r (ang q1) (ang q2) Fa Fb 4) as [Fp Vp]; [lia | fold a b; change (bpow radix2 4) with 16%R; lra |].
      destruct (mult_r (mag q1) (mag q2) Fg Fh 0) as [Fm Vm]; [lia | fold g h; rewrite GZ, Rabs_R0; apply bpow_ge_0 |].
      destruct (cmp_zero (mag q1) Fg) as [Z1|N1]; [|destruct (cmp_zero (mag q2) Fh) as [Z2|N2]].
      1, 2: eexists; split; [apply Zc; auto|]; cbn [mag ang is_finite B2R]; rewrite Rabs_R0; repeat split; lra.
      eexists. split; [apply Nz; auto|]. cbn [mag ang]. rewrite Fm, Fp, Vm, Vp. fold g h a b. rewrite GZ, round_0 by typeclasses eauto. repeat split; auto.
      pose proof (rnd_rel (prec := prec) (emax := emax) (a + b)) as R. replace (rnd (a + b)) with ((rnd (a + b) - (a + b)) + (a + b))%R by ring.
      eapply Rle_trans; [apply Rabs_triang|]. pose proof (Rmult_le_compat_l u _ _ ltac:(lra) A). lra. }
    destruct X as (r & Er & Fm & Vm & Fr & Vr).
    destruct (tc_float P24 E4 pf tau Hpi Htau Fpf Ftau Vpf Vtau Vpi Sn d AS D r Fm Fr) as (z & [n0 R] & Fz & _ & B).
    { rewrite Vm, Rabs_R0. apply bpow_ge_0. }
    { eapply Rle_lt_trans; [exact Vr|]. apply Rlt_le_trans with (bpow radix2 4); [change (bpow radix2 4) with 16%R; lra | apply bpow_le; lia]. }
    cbv zeta in B. destruct (B ltac:(lra)) as [B1 B2]. rewrite Vm, Rabs_R0, !Rmult_0_l in B1, B2.
    exists z. split; [exists n0; intros n Hn; rewrite Er; apply R; auto|]. split; [exact Fz|]. rewrite GZ, Rabs_R0, !Rmult_0_l. split; lra.
  - assert (N1 : Bcompare (mag q1) (B754_zero false) <> Some Eq). { intros C. apply cmp_zero_val in C; auto. apply GN. unfold g. rewrite C. ring. }
    assert (N2 : Bcompare (mag q2) (B754_zero false) <> Some Eq). { intros C. apply cmp_zero_val in C; auto. apply GN. unfold h. rewrite C. ring. }
    specialize (Nz N1 N2).
    destruct (mult_r (mag q1) (mag q2) Fg Fh (emax - 3)) as [Fm Vm]; [lia | exact G |].
    destruct (plus_r (ang q1) (ang q2) Fa Fb 4) as [Fp Vp]; [lia | fold a b; change (bpow radix2 4) with 16%R; lra |].
    fold g h in Vm. fold a b in Vp. pose proof (rnd_rel (prec := prec) (emax := emax) (a + b)) as Ra. pose proof (rnd_rel (prec := prec) (emax := emax) (g * h)) as Rg.
    rewrite <- Vm in Rg. rewrite <- Vp in Ra. set (mr := Bmult mode_NE (mag q1) (mag q2)) in *. set (ar := Bplus mode_NE (ang q1) (ang q2)) in *.
    pose proof (Rmult_le_compat_l u _ _ ltac:(lra) A) as UA.
    assert (Ra' : (Rabs (B2R ar - (a + b)) <= 12 * u)%R) by lra.
    assert (AR : (Rabs (B2R ar) <= 12)%R).
    { replace (B2R ar) with ((B2R ar - (a + b)) + (a + b))%R by ring. eapply Rle_trans; [apply Rabs_triang|]. lra. }
    set (gh := Rabs (g * h)) in *.
    assert (MR : (Rabs (B2R mr) <= gh * (1 + u) + eta)%R).
    { replace (B2R mr) with ((B2R mr - g * h) + g * h)%R by ring. eapply Rle_trans; [apply Rabs_triang|]. fold gh. lra. }
    destruct (tc_float P24 E4 pf tau Hpi Htau Fpf Ftau Vpf Vtau Vpi Sn d AS D (mkP mr ar) Fm Fp) as (z & [n0 R] & Fz & _ & B).
    { cbn [mag]. eapply Rle_trans; [exact MR|]. replace (emax - 2) with (1 + (emax - 3)) by ring. rewrite bpow_plus. change (bpow radix2 1) with 2%R.
      assert (1 <= bpow radix2 (emax - 3))%R by (change 1%R with (bpow radix2 0); apply bpow_le; lia).
      assert (gh * (1 + u) <= bpow radix2 (emax - 3) * (1 + / 1000000))%R by (apply Rmult_le_compat; lra). lra. }
    { cbn [ang]. eapply Rle_lt_trans; [exact AR|]. apply Rlt_le_trans with (bpow radix2 4); [change (bpow radix2 4) with 16%R; lra | apply bpow_le; lia]. }
    cbn [mag ang] in B. cbv zeta in B. destruct (B ltac:(lra)) as [B1 B2].
    exists z. split; [exists n0; intros n Hn; rewrite Nz; apply R; auto|]. split; [exact Fz|].
    assert (E0 : (0 <= Rabs (B2R ar) * u <= 12 * u)%R). { split; [apply Rmult_le_pos; [apply Rabs_pos|lra] | apply Rmult_le_compat_r; lra]. }
    assert (UD : (0 <= u * d <= u)%R) by (split; [apply Rmult_le_pos; lra | rewrite <- (Rmult_1_r u) at 2; apply Rmult_le_compat_l; lra]).
    assert (BB : (Rabs (B2R mr) * (d + Rabs (B2R ar) * u + u * (1 + d)) + eta <= gh * (d + 16 * u) + 3 * eta)%R).
    { assert (Q : (Rabs (B2R mr) * (d + Rabs (B2R ar) * u + u * (1 + d)) <= (gh * (1 + u) + eta) * (d + 14 * u))%R).
      { apply Rmult_le_compat; auto using Rabs_pos; lra. }
      assert (Q1 : ((1 + u) * (d + 14 * u) <= d + 16 * u)%R). { assert (u * u <= / 1000000 * u)%R by (apply Rmult_le_compat_r; lra). lra. }
      apply (Rmult_le_compat_l gh) in Q1; [|lra].
      assert (Q2 : (eta * (d + 14 * u) <= eta * 2)%R) by (apply Rmult_le_compat_l; lra). lra. }
    assert (CL : forall zr t v, (Rabs (zr - B2R mr * t) <= Rabs (B2R mr) * (d + Rabs (B2R ar) * u + u * (1 + d)) + eta)%R -> (Rabs t <= 1)%R -> (Rabs (t - v) <= 12 * u)%R ->
      (Rabs (zr - g * h * v) <= gh * (d + 31 * u) + 4 * eta)%R).
    { intros zr t v Hz T V. replace (zr - g * h * v)%R with ((zr - B2R mr * t) + ((B2R mr - g * h) * t + (g * h) * (t - v)))%R by ring.
      eapply Rle_trans; [apply Rabs_triang|]. assert (Rabs ((B2R mr - g * h) * t + g * h * (t - v)) <= (u * gh + / 2 * eta) * 1 + gh * (12 * u))%R.
      { eapply Rle_trans; [apply Rabs_triang|]. rewrite (Rabs_mult (g * h)), Rabs_mult. fold gh. apply Rplus_le_compat; [|apply Rmult_le_compat_l; lra].
        apply Rmult_le_compat; auto using Rabs_pos. }
      pose proof (Rmult_le_pos gh u G0 ltac:(lra)). lra. }
    split.
    + apply (CL _ (Rtrigo_def.cos (B2R ar))); auto using abs_cos. eapply Rle_trans; [apply cos_lipschitz|]. exact Ra'.
    + apply (CL _ (Rtrigo_def.sin (B2R ar))); auto using abs_sin. eapply Rle_trans; [apply sin_lipschitz|]. exact Ra'.
Qed.
End FM.

Lemma polar_mul_f32 : forall Sn d, accurate_sincos_float 4 d Sn -> (0 <= d <= 1)%R -> forall q1 q2 : Polar f32,
  is_finite (mag q1) = true -> is_finite (ang q1) = true -> is_finite (mag q2) = true -> is_finite (ang q2) = true ->
  let g := B2R (mag q1) in let h := B2R (mag q2) in let a := B2R (ang q1) in let b := B2R (ang q2) in
  (Rabs (g * h) <= bpow radix2 125)%R -> (Rabs (a + b) <= 119 / 10)%R ->
  exists z, returns (fun fuel => q <- polar_mul float_ops q1 q2 ;; polar_to_cartesian float_ops (float_wrap_phase fuel) Sn q) z /\ is_finite (re z) = true /\ is_finite (im z) = true /\
  let B := (Rabs (g * h) * (d + 31 * bpow radix2 (-24)) + 4 * bpow radix2 (-149))%R in
  (Rabs (B2R (re z) - (g * Rtrigo_def.cos a * (h * Rtrigo_def.cos b) - g * Rtrigo_def.sin a * (h * Rtrigo_def.sin b))) <= B)%R /\
  (Rabs (B2R (im z) - (g * Rtrigo_def.cos a * (h * Rtrigo_def.sin b) + g * Rtrigo_def.sin a * (h * Rtrigo_def.cos b))) <= B)%R.
Proof.
  intros Sn d AS D q1 q2 F1 F2 F3 F4 g h a b G A.
  destruct (@polar_mul_float 24 128 _ _ ltac:(lia) ltac:(lia) f32_pi f32_tau eq_refl eq_refl eq_refl eq_refl f32_pi_bounds f32_tau_two f32_pi_err Sn d AS D q1 q2 F1 F2 F3 F4 G A) as (z & R & [G1 G2] & B).
  exists z. split; [exact R|]. split; [exact G1|]. split; [exact G2|]. exact B.
Qed.
Lemma polar_mul_f64 : forall Sn d, accurate_sincos_float 4 d Sn -> (0 <= d <= 1)%R -> forall q1 q2 : Polar f64,
  is_finite (mag q1) = true -> is_finite (ang q1) = true -> is_finite (mag q2) = true -> is_finite (ang q2) = true ->
  let g := B2R (mag q1) in let h := B2R (mag q2) in let a := B2R (ang q1) in let b := B2R (ang q2) in
  (Rabs (g * h) <= bpow radix2 1021)%R -> (Rabs (a + b) <= 119 / 10)%R ->
  exists z, returns (fun fuel => q <- polar_mul float_ops q1 q2 ;; polar_to_cartesian float_ops (float_wrap_phase fuel) Sn q) z /\ is_finite (re z) = true /\ is_finite (im z) = true /\
  let B := (Rabs (g * h) * (d + 31 * bpow radix2 (-53)) + 4 * bpow radix2 (-1074))%R in
  (Rabs (B2R (re z) - (g * Rtrigo_def.cos a * (h * Rtrigo_def.cos b) - g * Rtrigo_def.sin a * (h * Rtrigo_def.sin b))) <= B)%R /\
  (Rabs (B2R (im z) - (g * Rtrigo_def.cos a * (h * Rtrigo_def.sin b) + g * Rtrigo_def.sin a * (h * Rtrigo_def.cos b))) <= B)%R.
Proof.
  intros Sn d AS D q1 q2 F1 F2 F3 F4 g h a b G A.
  destruct (@polar_mul_float 53 1024 _ _ ltac:(lia) ltac:(lia) f64_pi f64_tau eq_refl eq_refl eq_refl eq_refl f64_pi_bounds f64_tau_two f64_pi_err Sn d AS D q1 q2 F1 F2 F3 F4 G A) as (z & R & [G1 G2] & B).
  exists z. split; [exact R|]. split; [exact G1|]. split; [exact G2|]. exact B.
Qed.
