(** * Proofs: the frequency discriminator (C160). *)

From Coq Require Import ZArith Reals Lia Lra Psatz Bool List.
From Flocq Require Import Core.Core IEEE754.BinarySingleNaN.
From Verif Require Import SinReal Base FloatBase Literals Traits Trig IntImpl FixedPrim FixedImpl FloatImpl Complex Spec SpecAngle SpecFilter SpecRotor SpecFourier SpecUnit SpecPhase SpecPolar SpecFloatPolar SpecFm
  Lemmas FloatLemmas FloatKit ScalarProofs ScalarProofs2 WrapProofs WrapProofs2 ComplexProofs3 PolarProofs AtanReal AtanProofs ProdProofs FilterProofs FloatProofs FloatArith FloatFilter PhaseAcc MagMul RotorProofs UnitProofs InvTrig AngleProofs.
Import ListNotations.
Open Scope Z_scope.

Section Real.
Open Scope R_scope.
Lemma sin_half_low : forall x, 0 <= x <= PI / 2 -> x / 2 <= Rtrigo_def.sin x.
Proof.
  intros x X. pose proof pi_bounds as PB. assert (E : exists h, x = 2 * h) by (exists (x / 2); field). destruct E as [h ->]. replace (2 * h / 2) with h by field. rewrite sin_2a.
  assert (C : 0 < Rtrigo_def.cos h) by (apply cos_gt_0; lra). pose proof (le_tan h ltac:(lra)) as T. unfold tan in T.
  assert (H : h * Rtrigo_def.cos h <= Rtrigo_def.sin h). { apply Rmult_le_compat_r with (r := Rtrigo_def.cos h) in T; [|lra]. unfold Rdiv in T. rewrite Rmult_assoc, Rinv_l, Rmult_1_r in T by lra. exact T. }
  assert (C2 : 0 <= Rtrigo_def.cos (2 * h)) by (apply cos_ge_0; lra). rewrite cos_2a_cos in C2.
  assert (h * (2 * Rtrigo_def.cos h * Rtrigo_def.cos h) <= 2 * Rtrigo_def.sin h * Rtrigo_def.cos h) by nra. nra.
Qed.
Lemma cis_dist : forall a b, cabs (csub (cis a) (cis b)) = 2 * Rabs (Rtrigo_def.sin ((a - b) / 2)).
Proof.
  intros a b. apply Rsqr_inj; [apply cabs_pos | pose proof (Rabs_pos (Rtrigo_def.sin ((a - b) / 2))); lra |]. unfold Rsqr. rewrite cabs_sq. unfold csub, cis. cbn [fst snd].
  set (h := (a - b) / 2). replace (2 * Rabs (Rtrigo_def.sin h) * (2 * Rabs (Rtrigo_def.sin h))) with (4 * (Rabs (Rtrigo_def.sin h) * Rabs (Rtrigo_def.sin h))) by ring.
  rewrite <- Rabs_mult, (Rabs_pos_eq (Rtrigo_def.sin h * Rtrigo_def.sin h)) by apply Rle_0_sqr.
  pose proof (sin2_cos2 a) as S1. pose proof (sin2_cos2 b) as S2. unfold Rsqr in S1, S2. pose proof (cos_minus a b) as CM.
  assert (E : Rtrigo_def.cos (a - b) = 1 - 2 * (Rtrigo_def.sin h * Rtrigo_def.sin h)) by (replace (a - b) with (2 * h) by (unfold h; field); rewrite cos_2a_sin; ring). nra.
Qed.
Lemma cis_close : forall th t s d, Rabs th <= PI -> Rabs t <= s -> 0 <= d -> cabs (csub (cis th) (cis t)) <= d -> s + 2 * d < PI -> Rabs (th - t) <= 2 * d.
Proof.
  intros th t s d H1 H2 D H3 H4. rewrite cis_dist in H3. set (x := Rabs (th - t) / 2). assert (EX : Rabs (th - t) = 2 * x) by (unfold x; field).
  assert (TR : Rabs (th - t) <= PI + s) by (unfold Rminus; eapply Rle_trans; [apply Rabs_triang|]; rewrite Rabs_Ropp; lra).
  assert (X0 : 0 <= x) by (unfold x; pose proof (Rabs_pos (th - t)); lra). pose proof pi_bounds as PB.
  assert (SX : Rabs (Rtrigo_def.sin ((th - t) / 2)) = Rtrigo_def.sin x).
  { unfold x, Rabs at 2. destruct (Rcase_abs (th - t)) as [N|N].
    - replace (- (th - t) / 2) with (- ((th - t) / 2)) by field. rewrite sin_neg. apply Rabs_left1. rewrite <- (Ropp_involutive ((th - t) / 2)), sin_neg.
      rewrite Rabs_left in EX, TR by lra. assert (0 <= Rtrigo_def.sin (- ((th - t) / 2))) by (apply sin_ge_0; lra). lra.
    - rewrite Rabs_pos_eq in EX, TR by lra. apply Rabs_pos_eq, sin_ge_0; lra. }
  rewrite SX in H3. clear SX. rewrite EX in *. clearbody x. destruct (Rle_or_lt x (PI / 2)) as [L|L].
  - pose proof (sin_half_low x ltac:(lra)). lra.
  - pose proof (sin_half_low (PI - x) ltac:(lra)) as Q. rewrite <- sin_PI_x in H3. lra.
Qed.
Lemma step_angle : forall z w p a b th s g, 0 < cabs z -> 0 < cabs w -> 0 < cabs p -> cunit z = cis a -> cunit w = cis b -> is_angle (snd p) (fst p) th ->
  cabs (csub p (cmul w (cconj z))) <= g -> Rabs (b - a) <= s -> s + 4 * g / (cabs w * cabs z) < PI -> Rabs (th - (b - a)) <= 4 * g / (cabs w * cabs z).
Proof.
  intros z w p a b th s g Z W P Ua Ub A N B L. set (d := 2 * g / (cabs w * cabs z)). assert (E : 4 * g / (cabs w * cabs z) = 2 * d) by (unfold d; field; lra). rewrite E in *.
  assert (Q : cabs (cconj z) = cabs z) by apply cconj_abs. assert (WZ : 0 < cabs (cmul w (cconj z))) by (rewrite cabs_cmul, Q; apply Rmult_lt_0_compat; auto).
  assert (G0 : 0 <= g) by (pose proof (cabs_pos (csub p (cmul w (cconj z)))); lra).
  assert (I : 0 < / (cabs w * cabs z)) by (apply Rinv_0_lt_compat, Rmult_lt_0_compat; auto).
  assert (D0 : 0 <= d) by (unfold d, Rdiv; apply Rmult_le_pos; lra).
  pose proof (cunit_diff p (cmul w (cconj z)) P WZ) as D. rewrite cunit_mul, cunit_conj, Ua, Ub, <- cis_neg, cis_add, cabs_cmul, Q in D by (rewrite ?Q; auto).
  destruct p as [x y]. cbn [fst snd] in A. rewrite (angle_unit _ _ _ A) in D.
  apply (cis_close th (b - a) s d); auto; [destruct A as [A _]; apply Rabs_le; lra|]. unfold Rminus. eapply Rle_trans; [exact D|]. unfold d, Rdiv. apply Rmult_le_compat_r; lra.
Qed.
Lemma diff_sum : forall n (v : n -> R) e ts cs t0, Forall2 (fun d c => Rabs (v c - d) <= e) (differences t0 ts) cs ->
  Rabs (fold_right Rplus 0 (map v cs) - (last ts t0 - t0)) <= INR (length ts) * e.
Proof.
  intros n v e ts. induction ts as [|t ts IH]; intros cs t0 H; cbn [differences] in H; inversion H as [|? c ? cs' H1 H2]; subst.
  - cbn. rewrite Rminus_eq_0, Rminus_0_r, Rabs_R0. lra.
  - specialize (IH _ _ H2). cbn [map fold_right length]. rewrite S_INR.
    assert (EL : last (t :: ts) t0 = last ts t) by (clear; revert t; induction ts as [|b ts IH]; intros t; [reflexivity|]; change (last (t :: b :: ts) t0) with (last (b :: ts) t0); rewrite IH; destruct ts; [reflexivity|]; clear; cbn [last]; revert r; induction ts; intros; [reflexivity|]; cbn; apply IHts).
    rewrite EL. set (S1 := fold_right Rplus 0 (map v cs')) in *. set (z := last ts t) in *.
    replace (v c + S1 - (z - t0)) with ((v c - (t - t0)) + (S1 - (z - t))) by ring. eapply Rle_trans; [apply Rabs_triang|]. lra.
Qed.
End Real.

Section Loop.
Context {T : Type} (O : MixedOps T) (Sg : MixedNumSigned T) (ang : Cartesian T -> res T) (val : Cartesian T -> R * R) (out : T -> R) (okc : T -> Prop) (ok : Cartesian T -> Prop) (a b s e : R).
Hypothesis step : forall z w t v, ok z -> ok w -> has_phase val a b (z, t) -> has_phase val a b (w, v) -> (Rabs (v - t) <= s)%R ->
  exists q p c, cartesian_conj Sg z = Ok q /\ cartesian_mul O w q = Ok p /\ ang p = Ok c /\ okc c /\ (Rabs (out c - (v - t)) <= e)%R.
Lemma discriminator_ok : forall l r, ok (fst r) -> has_phase val a b r -> Forall (fun x => ok (fst x)) l -> Forall (has_phase val a b) l -> turns_by s (snd r) (map snd l) ->
  exists cs, discriminator O Sg ang (fst r) (map fst l) = Ok cs /\ Forall okc cs /\ Forall2 (fun d c => (Rabs (out c - d) <= e)%R) (differences (snd r) (map snd l)) cs /\
  (Rabs (fold_right Rplus 0 (map out cs) - (last (map snd l) (snd r) - snd r)) <= INR (length l) * e)%R.
Proof using step.
  intros l r K P KS PS TS. cut (exists cs, discriminator O Sg ang (fst r) (map fst l) = Ok cs /\ Forall okc cs /\ Forall2 (fun d c => (Rabs (out c - d) <= e)%R) (differences (snd r) (map snd l)) cs).
  { intros (cs & E & F & D). exists cs. repeat (split; [assumption|]). rewrite <- (map_length snd l). apply (diff_sum _ out); auto. }
  revert r K P KS PS TS. induction l as [|[w v] l IH]; intros [z t] K P KS PS TS; cbn [map fst snd discriminator differences turns_by] in *.
  - exists []. repeat split; constructor.
  - inversion KS as [|? ? K1 K2]; subst. inversion PS as [|? ? P1 P2]; subst. destruct TS as [T1 T2]. destruct (step z w t v K K1 P P1 T1) as (q & p & c & E1 & E2 & E3 & O1 & D1).
    destruct (IH (w, v) K1 P1 K2 P2 T2) as (cs & E4 & O2 & D2). cbn [fst snd] in E4, D2. exists (c :: cs). rewrite E1. cbn [bind]. rewrite E2. cbn [bind]. rewrite E3. cbn [bind]. rewrite E4. cbn [bind].
    split; [reflexivity|]. split; constructor; auto.
Qed.
End Loop.

Lemma inv_mono : forall c x y, (0 <= c -> 0 < x -> x <= y -> c / y <= c / x)%R.
Proof. intros c x y C X Y. unfold Rdiv. apply Rmult_le_compat_l; auto. apply Rinv_le; auto. Qed.

Lemma sq_fmax : forall f b, supported f = true -> fsigned f = true -> (0 <= b)%R -> (3 / 2 * ((b * b + g f) * (b * b + g f)) <= fval f (fmax f) -> b <= fval f (fmax f))%R.
Proof.
  intros f b Hf S B H. assert (U : (0 < ulp f)%R) by apply bpow_gt_0. pose proof (fmax_two f Hf S). destruct (Rle_or_lt b 1); [lra|].
  assert (b <= b * b)%R by nra. set (q := (b * b)%R) in *. assert (q <= (q + g f) * (q + g f))%R; [|lra]. apply Rle_trans with (q * 1)%R; [lra|]. apply Rmult_le_compat; lra.
Qed.
Section Fixed.
Variables (m : mode) (f : fty) (a b s : R).
Hypotheses (Hf : supported f = true) (S : fsigned f = true).
Hypotheses (A0 : (0 < a)%R) (A1 : (23 * ulp f <= a * a)%R) (A2 : (40 * ulp f <= a * a * (a * a))%R) (B1 : (3 / 2 * ((b * b + g f) * (b * b + g f)) <= fval f (fmax f))%R).
Hypothesis HS : (s + 896 / 100 * ulp f / (a * a) < PI)%R.
Notation e := (492 / 100000 + (3 + 13 / (a * a * (a * a)) + 896 / 100 / (a * a)) * ulp f)%R.

Lemma step_fixed : forall z w t v, has_phase (cval f) a b (z, t) -> has_phase (cval f) a b (w, v) -> (Rabs (v - t) <= s)%R ->
  exists q p c, cartesian_conj (fixed_signed m f) z = Ok q /\ cartesian_mul (fixed_ops m f) w q = Ok p /\ fixed_atan2_poly m f (im p) (re p) = Ok c /\ True /\ (Rabs (fval f c - (v - t)) <= e)%R.
Proof using Hf S A0 A1 A2 B1 HS.
  intros z w t v [[Z1 Z2] Uz] [[W1 W2] Uw] D. cbn [fst snd] in *. assert (U : (0 < ulp f)%R) by apply bpow_gt_0.
  assert (B2 : (b <= fval f (fmax f))%R) by (apply (sq_fmax f b); auto; lra).
  destruct (conj_fixed m f z Hf S ltac:(lra)) as (q & Eq & Vq). assert (Q : cabs (cval f q) = cabs (cval f z)) by (rewrite Vq; apply cconj_abs).
  set (A := cabs (cval f z)) in *. set (B := cabs (cval f w)) in *. assert (PL : (a * a <= B * A)%R) by (apply Rmult_le_compat; lra). assert (PU : (B * A <= b * b)%R) by (apply Rmult_le_compat; lra).
  assert (PP : (a * a * (a * a) <= B * A * (B * A))%R) by (apply Rmult_le_compat; nra).
  assert (P3 : (3 / 2 * ((B * A + g f) * (B * A + g f)) <= fval f (fmax f))%R) by (eapply Rle_trans; [|exact B1]; apply Rmult_le_compat_l; [lra|]; apply Rmult_le_compat; nra).
  destruct (fixed_mul_near m f Hf S w q) as (p & Ep & N); [rewrite Q; fold A B; apply (small_fmax f Hf S); [nra|exact P3]|]. rewrite Vq in N.
  pose proof (cabs_diff (cval f p) (cmul (cval f w) (cconj (cval f z)))) as Dp. rewrite cabs_cmul, cconj_abs in Dp. fold A B in Dp.
  assert (Dq : (Rabs (cabs (cval f p) - B * A) <= g f)%R) by lra.
  destruct (P_near f w z Hf S ltac:(fold A B; lra) ltac:(fold A B; lra) P3 _ Dq) as [(N0 & N1 & N2) N3]. fold A B in N3.
  pose proof (angle_ex _ N0) as I. set (th := angle (snd (cval f p)) (fst (cval f p))) in *.
  destruct (cabs_max (fval f (re p)) (fval f (im p))) as [M1 M2]. change (cabs (fval f (re p), fval f (im p))) with (cabs (cval f p)) in M1, M2.
  set (M := Rmax _ _) in *. set (NN := cabs (cval f p)) in *.
  assert (M0 : (0 <= M)%R) by (apply Rle_trans with (Rabs (fval f (re p))); [apply Rabs_pos|apply Rmax_l]). assert (MM : (M * M <= NN * NN)%R) by (apply Rmult_le_compat; lra).
  destruct (c24 m f Hf S (im p) (re p) th ltac:(fold M; lra) ltac:(fold M; lra) I) as (c & Ec & Dc). fold M in Dc.
  exists q, p, c. repeat (split; [assumption|]). split; [exact Logic.I|].
  assert (X1 : (4 * g f / (B * A) <= 896 / 100 * ulp f / (a * a))%R) by (replace (4 * g f)%R with (896 / 100 * ulp f)%R by field; apply inv_mono; nra).
  assert (X2 : (Rabs (th - (v - t)) <= 896 / 100 * ulp f / (a * a))%R).
  { eapply Rle_trans; [|exact X1]. apply (step_angle (cval f z) (cval f w) (cval f p) t v th s (g f)); auto; fold A B; try lra. }
  assert (X3 : (5 / (M * M) <= 10 / (NN * NN))%R). { replace (10 / (NN * NN))%R with (5 / (NN * NN / 2))%R by (field; lra). apply inv_mono; nra. }
  assert (X4 : (5 / (M * M) * ulp f <= 10 / (NN * NN) * ulp f)%R) by (apply Rmult_le_compat_r; lra).
  assert (X5 : (13 / (B * A * (B * A)) * ulp f <= 13 / (a * a * (a * a)) * ulp f)%R) by (apply Rmult_le_compat_r; [lra|]; apply inv_mono; nra).
  replace (fval f c - (v - t))%R with ((fval f c - th) + (th - (v - t)))%R by ring. eapply Rle_trans; [apply Rabs_triang|].
  replace (896 / 100 * ulp f / (a * a))%R with (896 / 100 / (a * a) * ulp f)%R in X2 by (field; lra). lra.
Qed.
Lemma fm_fixed : forall z0 l, has_phase (cval f) a b z0 -> Forall (has_phase (cval f) a b) l -> turns_by s (snd z0) (map snd l) ->
  exists cs, discriminator (fixed_ops m f) (fixed_signed m f) (fun p => fixed_atan2_poly m f (im p) (re p)) (fst z0) (map fst l) = Ok cs /\
  Forall2 (fun d c => (Rabs (fval f c - d) <= e)%R) (differences (snd z0) (map snd l)) cs /\
  (Rabs (fold_right Rplus 0 (map (fval f) cs) - (last (map snd l) (snd z0) - snd z0)) <= INR (length l) * e)%R.
Proof using Hf S A0 A1 A2 B1 HS.
  intros z0 l P PS TS. destruct (discriminator_ok (fixed_ops m f) (fixed_signed m f) (fun p => fixed_atan2_poly m f (im p) (re p)) (cval f) (fval f) (fun _ => True) (fun _ => True) a b s e) with (l := l) (r := z0) as (cs & E & _ & D); auto.
  - intros; apply step_fixed; auto.
  - apply Forall_forall. auto.
  - exists cs. split; auto.
Qed.
End Fixed.
Section FixedArg.
Variables (m : mode) (f : fty) (At : MixedAtan Z) (d a b s : R).
Hypotheses (Hf : supported f = true) (S : fsigned f = true).
Hypotheses (A0 : (0 < a)%R) (A1 : (g f < a * a)%R) (B1 : (b * b + g f <= fval f (fmax f))%R) (B2 : (b <= fval f (fmax f))%R).
Hypothesis HS : (s + 896 / 100 * ulp f / (a * a) < PI)%R.
Hypothesis HA : forall p, (cabs (cval f p) <= b * b + g f)%R -> accurate_atan2_at f d At (im p) (re p).
Notation e := (d + 896 / 100 / (a * a) * ulp f)%R.
Lemma step_fixed_arg : forall z w t v, has_phase (cval f) a b (z, t) -> has_phase (cval f) a b (w, v) -> (Rabs (v - t) <= s)%R ->
  exists q p c, cartesian_conj (fixed_signed m f) z = Ok q /\ cartesian_mul (fixed_ops m f) w q = Ok p /\ cartesian_arg At p = Ok c /\ True /\ (Rabs (fval f c - (v - t)) <= e)%R.
Proof using Hf S A0 A1 B1 B2 HS HA.
  intros z w t v [[Z1 Z2] Uz] [[W1 W2] Uw] D. cbn [fst snd] in *. assert (U : (0 < ulp f)%R) by apply bpow_gt_0.
  destruct (conj_fixed m f z Hf S ltac:(lra)) as (q & Eq & Vq). assert (Q : cabs (cval f q) = cabs (cval f z)) by (rewrite Vq; apply cconj_abs).
  set (A := cabs (cval f z)) in *. set (B := cabs (cval f w)) in *. assert (PL : (a * a <= B * A)%R) by (apply Rmult_le_compat; lra). assert (PU : (B * A <= b * b)%R) by (apply Rmult_le_compat; lra).
  destruct (fixed_mul_near m f Hf S w q) as (p & Ep & N); [rewrite Q; fold A B; lra|]. rewrite Vq in N.
  pose proof (cabs_diff (cval f p) (cmul (cval f w) (cconj (cval f z)))) as Dp. rewrite cabs_cmul, cconj_abs in Dp. fold A B in Dp.
  assert (Dq : (Rabs (cabs (cval f p) - B * A) <= g f)%R) by lra. apply Rabs_le_inv in Dq. assert (N0 : (0 < cabs (cval f p))%R) by lra.
  pose proof (angle_ex _ N0) as I. destruct (HA p ltac:(lra) _ I) as (c & Ec & _ & Dc). set (th := angle (snd (cval f p)) (fst (cval f p))) in *.
  exists q, p, c. repeat (split; [assumption|]). split; [exact Logic.I|].
  assert (X1 : (4 * g f / (B * A) <= 896 / 100 * ulp f / (a * a))%R) by (replace (4 * g f)%R with (896 / 100 * ulp f)%R by field; apply inv_mono; nra).
  assert (X2 : (Rabs (th - (v - t)) <= 896 / 100 * ulp f / (a * a))%R).
  { eapply Rle_trans; [|exact X1]. apply (step_angle (cval f z) (cval f w) (cval f p) t v th s (g f)); auto; fold A B; try lra. }
  replace (fval f c - (v - t))%R with ((fval f c - th) + (th - (v - t)))%R by ring. eapply Rle_trans; [apply Rabs_triang|].
  replace (896 / 100 * ulp f / (a * a))%R with (896 / 100 / (a * a) * ulp f)%R in X2 by (field; lra). lra.
Qed.
Lemma fm_fixed_arg : forall z0 l, has_phase (cval f) a b z0 -> Forall (has_phase (cval f) a b) l -> turns_by s (snd z0) (map snd l) ->
  exists cs, discriminator (fixed_ops m f) (fixed_signed m f) (cartesian_arg At) (fst z0) (map fst l) = Ok cs /\
  Forall2 (fun t c => (Rabs (fval f c - t) <= e)%R) (differences (snd z0) (map snd l)) cs /\
  (Rabs (fold_right Rplus 0 (map (fval f) cs) - (last (map snd l) (snd z0) - snd z0)) <= INR (length l) * e)%R.
Proof using Hf S A0 A1 B1 B2 HS HA.
  intros z0 l P PS TS. destruct (discriminator_ok (fixed_ops m f) (fixed_signed m f) (cartesian_arg At) (cval f) (fval f) (fun _ => True) (fun _ => True) a b s e) with (l := l) (r := z0) as (cs & E & _ & D); auto.
  - intros; apply step_fixed_arg; auto.
  - apply Forall_forall. auto.
  - exists cs. split; auto.
Qed.
End FixedArg.

Section FloatFm.
Context {prec emax : Z} {Hp : Prec_gt_0 prec} {He : Prec_lt_emax prec emax}.
Notation float := (binary_float prec emax).
Notation u := (bpow radix2 (- prec)).
Notation fv := (@cvalf prec emax).
Hypotheses (P24 : 24 <= prec) (E40 : 40 <= emax).
Notation h := (emax / 2).
Hypothesis At : @atan_claims prec emax Hp He.
Variables a b s : R.
Hypotheses (A0 : (0 < a)%R) (A1 : (bpow radix2 (5 - h) <= a * a)%R) (B1 : (b * b <= bpow radix2 (h - 4))%R) (B2 : (b <= bpow radix2 (h - 4))%R) (HS : (s <= 314159 / 100000)%R).
Lemma step_float : forall z w t v, cfin z -> cfin w -> has_phase fv a b (z, t) -> has_phase fv a b (w, v) -> (Rabs (v - t) <= s)%R ->
  exists q p c, cartesian_conj float_signed z = Ok q /\ cartesian_mul float_ops w q = Ok p /\ float_atan2_poly (im p) (re p) = Ok c /\ is_finite c = true /\ (Rabs (B2R c - (v - t)) <= 493 / 100000)%R.
Proof using P24 E40 At A0 A1 B1 B2 HS.
  intros z w t v Fz Fw [[Z1 Z2] Uz] [[W1 W2] Uw] D. cbn [fst snd] in *. pose proof pi_bounds as PB. pose proof (u_tiny P24) as UT.
  destruct (conj_float z Fz) as (q & Eq & Fq & Vq). assert (Q : cabs (fv q) = cabs (fv z)) by (rewrite Vq; apply cconj_abs).
  set (A := cabs (fv z)) in *. set (B := cabs (fv w)) in *. assert (PL : (a * a <= B * A)%R) by (apply Rmult_le_compat; lra). assert (PU : (B * A <= b * b)%R) by (apply Rmult_le_compat; lra).
  destruct (mul_float_u P24 E40 w q Fw Fq) as (p & Ep & Fp & N); [fold B; lra|rewrite Q; lra|rewrite Q; fold B; lra|]. rewrite Vq, cconj_abs in N. fold A B in N.
  pose proof (cabs_diff (fv p) (cmul (fv w) (cconj (fv z)))) as Dp. rewrite cabs_cmul, cconj_abs in Dp. fold A B in Dp.
  assert (Dq : (Rabs (cabs (fv p) - B * A) <= 4 * u * (B * A))%R) by lra.
  destruct (rel_near P24 w z ltac:(fold A B; lra) _ Dq) as [N1 N2]. assert (N0 : (0 < cabs (fv p))%R) by (pose proof (bpow_gt_0 radix2 (4 - h)); lra).
  pose proof (angle_ex _ N0) as I. set (th := angle (snd (fv p)) (fst (fv p))) in *.
  destruct (cabs_max (B2R (re p)) (B2R (im p))) as [M1 M2]. change (cabs (B2R (re p), B2R (im p))) with (cabs (fv p)) in M1, M2.
  destruct Fp as [F1 F2]. destruct (At (im p) (re p) F2 F1 th) as (c & Ec & Fc & Dc).
  - set (M := Rmax _ _) in *. split; [|lra]. assert (M0 : (0 <= M)%R) by (apply Rle_trans with (Rabs (B2R (re p))); [apply Rabs_pos|apply Rmax_l]).
    replace (4 - h) with (1 + (3 - h)) in N1 by lia. rewrite bpow_plus in N1. change (bpow radix2 1) with 2%R in N1. pose proof (bpow_gt_0 radix2 (3 - h)). nra.
  - exact I.
  - exists q, p, c. repeat (split; [assumption|]). assert (P0 : (0 < B * A)%R) by nra.
    assert (X1 : (4 * (4 * u * (B * A)) / (B * A) = 16 * u)%R) by (field; split; nra).
    assert (X2 : (Rabs (th - (v - t)) <= 16 * u)%R).
    { rewrite <- X1. apply (step_angle (fv z) (fv w) (fv p) t v th s (4 * u * (B * A))); auto; fold A B; try lra. }
    replace (B2R c - (v - t))%R with ((B2R c - th) + (th - (v - t)))%R by ring. eapply Rle_trans; [apply Rabs_triang|]. lra.
Qed.
Lemma fm_float : forall z0 l, cfin (fst z0) -> has_phase fv a b z0 -> Forall (fun r => cfin (fst r)) l -> Forall (has_phase fv a b) l -> turns_by s (snd z0) (map snd l) ->
  exists cs, discriminator float_ops float_signed (fun p => float_atan2_poly (im p) (re p)) (fst z0) (map fst l) = Ok cs /\ Forall (fun c => is_finite c = true) cs /\
  Forall2 (fun d c => (Rabs (B2R c - d) <= 493 / 100000)%R) (differences (snd z0) (map snd l)) cs /\
  (Rabs (fold_right Rplus 0 (map B2R cs) - (last (map snd l) (snd z0) - snd z0)) <= INR (length l) * (493 / 100000))%R.
Proof using P24 E40 At A0 A1 B1 B2 HS.
  intros z0 l K P KS PS TS. apply (discriminator_ok float_ops float_signed (fun p => float_atan2_poly (im p) (re p)) fv B2R (fun c => is_finite c = true) cfin a b s (493 / 100000)); auto.
  intros; apply step_float; auto.
Qed.
End FloatFm.
Section FloatArg.
Context {prec emax : Z} {Hp : Prec_gt_0 prec} {He : Prec_lt_emax prec emax}.
Notation float := (binary_float prec emax).
Notation u := (bpow radix2 (- prec)).
Notation fv := (@cvalf prec emax).
Hypotheses (P24 : 24 <= prec) (E40 : 40 <= emax).
Notation h := (emax / 2).
Variables (At : MixedAtan float) (d a b s : R).
Hypothesis HA : accurate_atan2_float d At.
Hypotheses (A0 : (0 < a)%R) (A1 : (bpow radix2 (5 - h) <= a * a)%R) (B1 : (b * b <= bpow radix2 (h - 4))%R) (HS : (s + 16 * u < PI)%R).
Lemma step_float_arg : forall z w t v, cfin z -> cfin w -> has_phase fv a b (z, t) -> has_phase fv a b (w, v) -> (Rabs (v - t) <= s)%R ->
  exists q p c, cartesian_conj float_signed z = Ok q /\ cartesian_mul float_ops w q = Ok p /\ cartesian_arg At p = Ok c /\ is_finite c = true /\ (Rabs (B2R c - (v - t)) <= d + 16 * u)%R.
Proof using P24 E40 HA A0 A1 B1 HS.
  intros z w t v Fz Fw [[Z1 Z2] Uz] [[W1 W2] Uw] D. cbn [fst snd] in *. pose proof pi_bounds as PB. pose proof (u_tiny P24) as UT.
  assert (B2 : (b <= bpow radix2 (h - 4))%R). { destruct (Rle_or_lt b 1) as [L|L]; [|nra]. apply Rle_trans with (bpow radix2 0); [exact L|apply bpow_le]. pose proof (half_le (emax := emax)). lia. }
  destruct (conj_float z Fz) as (q & Eq & Fq & Vq). assert (Q : cabs (fv q) = cabs (fv z)) by (rewrite Vq; apply cconj_abs).
  set (A := cabs (fv z)) in *. set (B := cabs (fv w)) in *. assert (PL : (a * a <= B * A)%R) by (apply Rmult_le_compat; lra). assert (PU : (B * A <= b * b)%R) by (apply Rmult_le_compat; lra).
  destruct (mul_float_u P24 E40 w q Fw Fq) as (p & Ep & Fp & N); [fold B; lra|rewrite Q; lra|rewrite Q; fold B; lra|]. rewrite Vq, cconj_abs in N. fold A B in N.
  pose proof (cabs_diff (fv p) (cmul (fv w) (cconj (fv z)))) as Dp. rewrite cabs_cmul, cconj_abs in Dp. fold A B in Dp.
  assert (Dq : (Rabs (cabs (fv p) - B * A) <= 4 * u * (B * A))%R) by lra.
  destruct (rel_near P24 w z ltac:(fold A B; lra) _ Dq) as [N1 N2]. assert (N0 : (0 < cabs (fv p))%R) by (pose proof (bpow_gt_0 radix2 (4 - h)); lra).
  pose proof (angle_ex _ N0) as I. set (th := angle (snd (fv p)) (fst (fv p))) in *.
  destruct Fp as [F1 F2]. destruct (HA (im p) (re p) th F2 F1 I) as (c & Ec & Fc & Dc).
  exists q, p, c. repeat (split; [assumption|]). assert (P0 : (0 < B * A)%R) by nra.
  assert (X1 : (4 * (4 * u * (B * A)) / (B * A) = 16 * u)%R) by (field; split; nra).
  assert (X2 : (Rabs (th - (v - t)) <= 16 * u)%R).
  { rewrite <- X1. apply (step_angle (fv z) (fv w) (fv p) t v th s (4 * u * (B * A))); auto; fold A B; try lra. }
  destruct Dc as [Dc|(_ & T & _)].
  - replace (B2R c - (v - t))%R with ((B2R c - th) + (th - (v - t)))%R by ring. eapply Rle_trans; [apply Rabs_triang|]. lra.
  - exfalso. rewrite T in X2. apply Rabs_le_inv in X2. apply Rabs_le_inv in D. lra.
Qed.
Lemma fm_float_arg : forall z0 l, cfin (fst z0) -> has_phase fv a b z0 -> Forall (fun r => cfin (fst r)) l -> Forall (has_phase fv a b) l -> turns_by s (snd z0) (map snd l) ->
  exists cs, discriminator float_ops float_signed (cartesian_arg At) (fst z0) (map fst l) = Ok cs /\ Forall (fun c => is_finite c = true) cs /\
  Forall2 (fun t c => (Rabs (B2R c - t) <= d + 16 * u)%R) (differences (snd z0) (map snd l)) cs /\
  (Rabs (fold_right Rplus 0 (map B2R cs) - (last (map snd l) (snd z0) - snd z0)) <= INR (length l) * (d + 16 * u))%R.
Proof using P24 E40 HA A0 A1 B1 HS.
  intros z0 l K P KS PS TS. apply (discriminator_ok float_ops float_signed (cartesian_arg At) fv B2R (fun c => is_finite c = true) cfin a b s (d + 16 * u)); auto.
  intros; apply step_float_arg; auto.
Qed.
End FloatArg.
Lemma fm_f32 : forall a b s, (0 < a)%R -> (bpow radix2 (-59) <= a * a)%R -> (b * b <= bpow radix2 60)%R -> (s <= 314159 / 100000)%R -> forall z0 l, @cfin 24 128 (fst z0) -> has_phase (@cvalf 24 128) a b z0 -> Forall (fun r => cfin (fst r)) l -> Forall (has_phase cvalf a b) l -> turns_by s (snd z0) (map snd l) ->
  exists cs, discriminator float_ops float_signed (fun p => float_atan2_poly (im p) (re p)) (fst z0) (map fst l) = Ok cs /\ Forall (fun c => is_finite c = true) cs /\
  Forall2 (fun d c => (Rabs (B2R c - d) <= 493 / 100000)%R) (differences (snd z0) (map snd l)) cs /\
  (Rabs (fold_right Rplus 0 (map B2R cs) - (last (map snd l) (snd z0) - snd z0)) <= INR (length l) * (493 / 100000))%R.
Proof.
  intros a b s A0 A1 B1 HS z0 l K P KS PS TS. apply (fm_float (prec := 24) (emax := 128) ltac:(lia) ltac:(lia) atan_f32 a b s); auto.
  change (128 / 2 - 4) with 60. destruct (Rle_or_lt b 1); [|nra]. apply Rle_trans with (bpow radix2 0); [exact H|apply bpow_le; lia].
Qed.
Lemma fm_f64 : forall a b s, (0 < a)%R -> (bpow radix2 (-507) <= a * a)%R -> (b * b <= bpow radix2 508)%R -> (s <= 314159 / 100000)%R -> forall z0 l, @cfin 53 1024 (fst z0) -> has_phase (@cvalf 53 1024) a b z0 -> Forall (fun r => cfin (fst r)) l -> Forall (has_phase cvalf a b) l -> turns_by s (snd z0) (map snd l) ->
  exists cs, discriminator float_ops float_signed (fun p => float_atan2_poly (im p) (re p)) (fst z0) (map fst l) = Ok cs /\ Forall (fun c => is_finite c = true) cs /\
  Forall2 (fun d c => (Rabs (B2R c - d) <= 493 / 100000)%R) (differences (snd z0) (map snd l)) cs /\
  (Rabs (fold_right Rplus 0 (map B2R cs) - (last (map snd l) (snd z0) - snd z0)) <= INR (length l) * (493 / 100000))%R.
Proof.
  intros a b s A0 A1 B1 HS z0 l K P KS PS TS. apply (fm_float (prec := 53) (emax := 1024) ltac:(lia) ltac:(lia) atan_f64 a b s); auto.
  change (1024 / 2 - 4) with 508. destruct (Rle_or_lt b 1); [|nra]. apply Rle_trans with (bpow radix2 0); [exact H|apply bpow_le; lia].
Qed.
