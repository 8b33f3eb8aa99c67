(** * Phase wrapping: combined statements. *)

From Coq Require Import ZArith Reals Lia Lra List Bool.
From Flocq Require Import Core.Core IEEE754.BinarySingleNaN.
From Verif Require Import Base FloatBase Literals Traits Trig IntImpl FixedPrim FixedImpl FloatImpl Complex Spec
  Lemmas ScalarProofs ScalarProofs2 FloatLemmas FloatProofs WrapProofs FloatWrap.
Open Scope Z_scope.

Lemma fixed_wrap_all : forall m f, supported f = true -> fsigned f = true ->
  (m = Release \/ ffrac f <= fwidth f - 4) ->
  exists p, mixed_pi (fixed_pi m f) = Ok p /\ (0 < fval f p)%R /\
  forall phi, fvalid f phi -> exists r,
    returns (fun fuel => mixed_wrap_phase (fixed_wrap_phase m f fuel) phi) r /\
    (- fval f p <= fval f r < fval f p)%R /\
    (exists k, fval f phi - fval f r = IZR k * (2 * fval f p))%R /\
    (forall r', (- fval f p <= fval f r' < fval f p)%R ->
       (exists k, fval f phi - fval f r' = IZR k * (2 * fval f p))%R -> r' = r).
Proof.
  intros m f Hf S HM. pose proof (supported_fwf f Hf) as W. pose proof (proj1 W) as F0.
  pose proof (fone_IZR_pos f F0) as P. pose proof (fone_pos f F0) as P0.
  pose proof (pi_bits_bounds f W) as PB.
  assert (Vlt : forall a b, (fval f a < fval f b)%R <-> a < b).
  { intros a b. rewrite !fval_eq by auto. split; intros H.
    - apply lt_IZR. apply Rmult_lt_reg_r with (/ IZR (fone f))%R; auto. apply Rinv_0_lt_compat; auto.
    - apply Rmult_lt_compat_r; [apply Rinv_0_lt_compat; auto|]. apply IZR_lt; auto. }
  assert (Vle : forall a b, (fval f a <= fval f b)%R <-> a <= b).
  { intros a b. split; intros H.
    - apply Z.nlt_ge. intros L. apply Vlt in L. lra.
    - apply Rnot_lt_le. intros L. apply Vlt in L. lia. }
  assert (Vopp : forall a, (- fval f a)%R = fval f (- a)).
  { intros a. rewrite !fval_eq by auto. rewrite opp_IZR. field. lra. }
  assert (Vk : forall p phi r, (exists k, fval f phi - fval f r = IZR k * (2 * fval f p))%R <-> (exists k, phi - r = k * (2 * p))).
  { intros p phi r. split; intros [k E]; exists k.
    - rewrite !fval_eq in E by auto. apply eq_IZR. rewrite minus_IZR, !mult_IZR.
      apply Rmult_eq_reg_r with (/ IZR (fone f))%R; [|apply Rinv_neq_0_compat; lra].
      unfold Rdiv in E. lra.
    - rewrite !fval_eq by auto. assert (E2 : IZR (phi - r) = IZR (k * (2 * p))) by (f_equal; auto).
      rewrite minus_IZR, !mult_IZR in E2. unfold Rdiv. rewrite <- Rmult_minus_distr_r, E2. ring. }
  exists (pi_bits f). split; [apply fixed_pi_eq; auto|]. split.
  { replace 0%R with (fval f 0) by (rewrite fval_eq by auto; field; lra). apply Vlt. lia. }
  intros phi V. destruct (wrap_phase_fixed m f W S HM phi V) as [r [R T]]. exists r. split; auto.
  pose proof T as [[T1 T2] T3]. split; [|split].
  - rewrite Vopp. rewrite Vle, Vlt. lia.
  - apply Vk. exact T3.
  - intros r' [H1 H2] H3. rewrite Vopp, Vle in H1. rewrite Vlt in H2. apply Vk in H3.
    apply (wrap_target_unique f W phi); auto. split; auto.
Qed.

Lemma fixed_wrap_3bits : forall f, supported f = true -> fsigned f = true -> ffrac f = fwidth f - 3 ->
  forall fuel phi, mixed_wrap_phase (fixed_wrap_phase Debug f fuel) phi = Panic POverflow.
Proof. intros f Hf. apply wrap_phase_3bits. apply supported_fwf; auto. Qed.

(** exactly which formats panic in debug *)
Lemma fixed_wrap_panic_iff : forall f, supported f = true -> fsigned f = true -> forall phi, fvalid f phi ->
  ((exists p, panics (fun fuel => mixed_wrap_phase (fixed_wrap_phase Debug f fuel) phi) p) <-> ffrac f = fwidth f - 3).
Proof.
  intros f Hf S phi V. pose proof (supported_inv f Hf) as [_ HF]. split.
  - intros [p Hp]. destruct (Z.eq_dec (ffrac f) (fwidth f - 3)); auto. exfalso.
    destruct (wrap_phase_fixed Debug f (supported_fwf f Hf) S ltac:(right; lia) phi V) as [r [R _]].
    eapply returns_not_panics; eauto.
  - intros E. exists POverflow. exists O. intros. apply fixed_wrap_3bits; auto.
Qed.

Lemma fixed_wrap_identity : forall m f, supported f = true -> fsigned f = true ->
  (m = Release \/ ffrac f <= fwidth f - 4) -> forall p, mixed_pi (fixed_pi m f) = Ok p ->
  (forall phi, fvalid f phi -> (- fval f p <= fval f phi < fval f p)%R ->
     returns (fun fuel => mixed_wrap_phase (fixed_wrap_phase m f fuel) phi) phi) /\
  (forall phi r, fvalid f phi -> returns (fun fuel => mixed_wrap_phase (fixed_wrap_phase m f fuel) phi) r ->
     returns (fun fuel => mixed_wrap_phase (fixed_wrap_phase m f fuel) r) r).
Proof.
  intros m f Hf S HM p Ep. destruct (fixed_wrap_all m f Hf S HM) as [p' [Ep' [Pp H]]].
  assert (p' = p) by congruence. subst p'. clear Ep'.
  assert (A : forall phi, fvalid f phi -> (- fval f p <= fval f phi < fval f p)%R ->
     returns (fun fuel => mixed_wrap_phase (fixed_wrap_phase m f fuel) phi) phi).
  { intros phi V B. destruct (H phi V) as [r [R [Rg [_ U]]]].
    assert (phi = r) by (apply U; auto; exists 0; lra). congruence. }
  split; auto.
  intros phi r V R. destruct (H phi V) as [r' [R' [Rg _]]].
  assert (r' = r) by (eapply returns_det; eauto). subst r'. apply A; auto.
  (* r is a valid value *)
  pose proof (supported_fwf f Hf) as W. pose proof (fone_pos f (proj1 W)). pose proof (pi_bits_bounds f W).
  pose proof (fone_le_max f W). rewrite fixed_pi_eq in Ep by auto. inversion Ep; subst p.
  apply fvalid_iff. rewrite S.
  pose proof (fone_IZR_pos f (proj1 W)) as P.
  rewrite !fval_eq in Rg by apply W. 
  assert (- pi_bits f <= r < pi_bits f); [|lia].
  destruct Rg as [G1 G2]. split.
  - apply le_IZR. rewrite opp_IZR. apply Rmult_le_reg_r with (/ IZR (fone f))%R; [apply Rinv_0_lt_compat; auto|]. unfold Rdiv in *. lra.
  - apply lt_IZR. apply Rmult_lt_reg_r with (/ IZR (fone f))%R; [apply Rinv_0_lt_compat; auto|]. unfold Rdiv in *. lra.
Qed.

(** ** polar to cartesian *)
Lemma to_cartesian_periodic : forall m f, supported f = true -> fsigned f = true ->
  (m = Release \/ ffrac f <= fwidth f - 4) -> forall p, mixed_pi (fixed_pi m f) = Ok p ->
  forall (Sn : MixedSin Z) mg a b, fvalid f a -> fvalid f b ->
  (exists k, fval f a - fval f b = IZR k * (2 * fval f p))%R ->
  exists n0, forall fuel, (n0 <= fuel)%nat ->
    ops_to_cartesian (fixed_ops m f) (fixed_wrap_phase m f fuel) Sn (mkP mg a) =
    ops_to_cartesian (fixed_ops m f) (fixed_wrap_phase m f fuel) Sn (mkP mg b).
Proof.
  intros m f Hf S HM p Ep Sn mg a b Va Vb [k Ek].
  destruct (fixed_wrap_all m f Hf S HM) as [p' [Ep' [Pp H]]].
  assert (p' = p) by congruence. subst p'.
  destruct (H a Va) as [ra [[na Ra] [Rga [[ka Ka] Ua]]]]. destruct (H b Vb) as [rb [[nb Rb] [Rgb [[kb Kb] Ub]]]].
  assert (E : rb = ra).
  { apply Ua; auto. exists (k + kb). rewrite plus_IZR. lra. }
  exists (na + nb)%nat. intros n Hn. unfold ops_to_cartesian. cbn [Complex.ang Complex.mag].
  rewrite Ra, Rb by lia. rewrite E. reflexivity.
Qed.

(** ** floats: the two formats *)
Lemma B2SF_value : forall p e (x : binary_float p e) s m ex, B2SF x = SpecFloat.S754_finite s m ex ->
  B2R x = (IZR (cond_Zopp s (Zpos m)) * bpow radix2 ex)%R /\ is_finite x = true.
Proof.
  intros p e x s m ex E. destruct x; try discriminate. simpl in E. inversion E; subst. split; reflexivity.
Qed.

Definition f32_pi : f32 := float_of_float 24 128 lit_pi.
Definition f64_pi : f64 := float_of_float 53 1024 lit_pi.
Lemma f32_pi_val : B2R f32_pi = (IZR 13176795 * bpow radix2 (-22))%R /\ is_finite f32_pi = true.
Proof. apply (B2SF_value _ _ f32_pi false 13176795 (-22)). vm_compute. reflexivity. Qed.
Lemma f64_pi_val : B2R f64_pi = (IZR 7074237752028440 * bpow radix2 (-51))%R /\ is_finite f64_pi = true.
Proof. apply (B2SF_value _ _ f64_pi false 7074237752028440 (-51)). vm_compute. reflexivity. Qed.
Definition f32_tau : f32 := Bmult mode_NE (float_of_Z 24 128 2) f32_pi.
Definition f64_tau : f64 := Bmult mode_NE (float_of_Z 53 1024 2) f64_pi.
Lemma f32_tau_val : B2R f32_tau = (IZR 13176795 * bpow radix2 (-21))%R /\ is_finite f32_tau = true.
Proof. apply (B2SF_value _ _ f32_tau false 13176795 (-21)). vm_compute. reflexivity. Qed.
Lemma f64_tau_val : B2R f64_tau = (IZR 7074237752028440 * bpow radix2 (-50))%R /\ is_finite f64_tau = true.
Proof. apply (B2SF_value _ _ f64_tau false 7074237752028440 (-50)). vm_compute. reflexivity. Qed.

Lemma f32_pi_bounds : (3 <= B2R f32_pi <= 22 / 7)%R.
Proof. rewrite (proj1 f32_pi_val). simpl. lra. Qed.
Lemma f64_pi_bounds : (3 <= B2R f64_pi <= 22 / 7)%R.
Proof. rewrite (proj1 f64_pi_val). simpl. lra. Qed.
Lemma f32_tau_two : (B2R f32_tau = 2 * B2R f32_pi)%R.
Proof. rewrite (proj1 f32_tau_val), (proj1 f32_pi_val). simpl. lra. Qed.
Lemma f64_tau_two : (B2R f64_tau = 2 * B2R f64_pi)%R.
Proof. rewrite (proj1 f64_tau_val), (proj1 f64_pi_val). simpl. lra. Qed.

Section Inst.
Context {prec emax : Z} {Hp : Prec_gt_0 prec} {He : Prec_lt_emax prec emax}.
Notation float := (binary_float prec emax).
Variable thr : Z.
(** what is claimed of a float format, with threshold [thr] *)
Definition wrap_claims : Prop :=
  exists p : float, mixed_pi float_pi = Ok p /\ is_finite p = true /\ (3 <= B2R p <= 22 / 7)%R /\
  (* C10 *)
  (forall fuel phi r, mixed_wrap_phase (float_wrap_phase fuel) phi = Ok r ->
    (phi = B754_nan /\ r = B754_nan) \/
    (is_finite phi = true /\ is_finite r = true /\ (- B2R p <= B2R r < B2R p)%R)) /\
  (* C11 *)
  (forall phi : float,
     ((exists r, returns (fun fuel => mixed_wrap_phase (float_wrap_phase fuel) phi) r) <->
       phi = B754_nan \/ (is_finite phi = true /\ (Rabs (B2R phi) <= bpow radix2 thr)%R)) /\
     (diverges (fun fuel => mixed_wrap_phase (float_wrap_phase fuel) phi) <->
       (exists s, phi = B754_infinity s) \/ (is_finite phi = true /\ (bpow radix2 thr < Rabs (B2R phi))%R))) /\
  (* C12 *)
  (forall phi : float, phi = B754_nan \/ (is_finite phi = true /\ (- B2R p <= B2R phi < B2R p)%R) ->
     forall fuel, mixed_wrap_phase (float_wrap_phase (S fuel)) phi = Ok phi) /\
  (forall fuel (phi r : float), mixed_wrap_phase (float_wrap_phase fuel) phi = Ok r ->
     forall fuel', mixed_wrap_phase (float_wrap_phase (S fuel')) r = Ok r).
End Inst.

Lemma wrap_claims_gen : forall prec emax (Hp : Prec_gt_0 prec) (He : Prec_lt_emax prec emax),
  5 <= prec -> prec + 4 < emax -> forall pf tau : binary_float prec emax,
  float_of_float prec emax lit_pi = pf -> Bmult mode_NE (float_of_Z prec emax 2) pf = tau ->
  is_finite pf = true -> is_finite tau = true -> (3 <= B2R pf <= 22 / 7)%R -> (B2R tau = 2 * B2R pf)%R ->
  @wrap_claims prec emax Hp He (prec + 3).
Proof.
  intros prec emax Hp He P5 E4 pf tau Hpi Htau Fpf Ftau Vpf Vtau. 
  pose proof (wrap_identity pf tau Hpi Htau Fpf Vpf Vtau) as Id.
  pose proof (wrap_range_float pf tau Hpi Htau Fpf Ftau Vpf Vtau) as Rg.
  pose proof (wrap_returns P5 E4 pf tau Hpi Htau Fpf Ftau Vpf Vtau) as Rt.
  pose proof (wrap_diverges P5 E4 pf tau Hpi Htau Fpf Ftau Vpf Vtau) as Dv.
  assert (RtN : exists r, returns (fun fuel => mixed_wrap_phase (float_wrap_phase fuel) (B754_nan : binary_float prec emax)) r).
  { exists B754_nan, 1%nat. intros [|n] Hn; [lia|]. apply Id. auto. }
  assert (Cases : forall phi : binary_float prec emax,
     (phi = B754_nan \/ (is_finite phi = true /\ (Rabs (B2R phi) <= bpow radix2 (prec + 3))%R)) \/
     ((exists s, phi = B754_infinity s) \/ (is_finite phi = true /\ (bpow radix2 (prec + 3) < Rabs (B2R phi))%R))).
  { intros phi. destruct (is_finite phi) eqn:F.
    - destruct (Rle_or_lt (Rabs (B2R phi)) (bpow radix2 (prec + 3))); auto.
    - destruct phi; try discriminate; eauto. }
  exists pf. split; [exact (f_equal Ok Hpi)|]. split; auto. split; auto. split; [|split; [|split]].
  - intros fuel phi r H. destruct (Rg fuel phi r H) as [A|[A [B C]]]; auto.
  - intros phi.
    assert (A : phi = B754_nan \/ (is_finite phi = true /\ (Rabs (B2R phi) <= bpow radix2 (prec + 3))%R) ->
       exists r, returns (fun fuel => mixed_wrap_phase (float_wrap_phase fuel) phi) r).
    { intros [E|[F L]]; [subst; exact RtN|]. apply Rt; auto. }
    split; split; auto; intros H.
    + destruct (Cases phi) as [C|C]; auto. apply Dv in C. destruct H as [r Hr]. exfalso. eapply returns_not_diverges; eauto.
    + destruct (Cases phi) as [C|C]; auto. apply A in C. destruct C as [r Hr]. exfalso. eapply returns_not_diverges; eauto.
  - intros phi H fuel. apply Id. destruct H; auto.
  - intros fuel phi r H fuel'. apply Id. destruct (Rg fuel phi r H) as [[_ A]|[_ A]]; auto.
Qed.

Lemma wrap_claims_f32 : @wrap_claims 24 128 _ _ 27.
Proof.
  apply (wrap_claims_gen 24 128 _ _) with (pf := f32_pi) (tau := f32_tau); try reflexivity; try lia.
  - apply f32_pi_bounds.
  - apply f32_tau_two.
Qed.
Lemma wrap_claims_f64 : @wrap_claims 53 1024 _ _ 56.
Proof.
  apply (wrap_claims_gen 53 1024 _ _) with (pf := f64_pi) (tau := f64_tau); try reflexivity; try lia.
  - apply f64_pi_bounds.
  - apply f64_tau_two.
Qed.

Section Of.
Context {prec emax : Z} {Hp : Prec_gt_0 prec} {He : Prec_lt_emax prec emax}.
Notation float := (binary_float prec emax).
Lemma c10_of : forall thr, @wrap_claims prec emax Hp He thr ->
  exists p : float, mixed_pi float_pi = Ok p /\ is_finite p = true /\ (3 <= B2R p <= 22 / 7)%R /\
  (forall fuel phi r, mixed_wrap_phase (float_wrap_phase fuel) phi = Ok r ->
    (phi = B754_nan /\ r = B754_nan) \/
    (is_finite phi = true /\ is_finite r = true /\ (- B2R p <= B2R r < B2R p)%R)).
Proof. intros thr [p H]. exists p. intuition. Qed.
Lemma c11_of : forall thr, @wrap_claims prec emax Hp He thr ->
  forall phi : float,
     ((exists r, returns (fun fuel => mixed_wrap_phase (float_wrap_phase fuel) phi) r) <->
       phi = B754_nan \/ (is_finite phi = true /\ (Rabs (B2R phi) <= bpow radix2 thr)%R)) /\
     (diverges (fun fuel => mixed_wrap_phase (float_wrap_phase fuel) phi) <->
       (exists s, phi = B754_infinity s) \/ (is_finite phi = true /\ (bpow radix2 thr < Rabs (B2R phi))%R)).
Proof. intros thr [p [_ [_ [_ [_ [H _]]]]]]. exact H. Qed.
Lemma c12_of : forall thr, @wrap_claims prec emax Hp He thr ->
  exists p : float, mixed_pi float_pi = Ok p /\ is_finite p = true /\ 
  (forall phi : float, phi = B754_nan \/ (is_finite phi = true /\ (- B2R p <= B2R phi < B2R p)%R) ->
     forall fuel, mixed_wrap_phase (float_wrap_phase (S fuel)) phi = Ok phi) /\
  (forall fuel (phi r : float), mixed_wrap_phase (float_wrap_phase fuel) phi = Ok r ->
     forall fuel', mixed_wrap_phase (float_wrap_phase (S fuel')) r = Ok r).
Proof. intros thr [p [H1 [H2 [H3 [H4 [H5 [H6 H7]]]]]]]. exists p. auto. Qed.
End Of.

Lemma c11_refuted : 
  diverges (fun fuel => mixed_wrap_phase (float_wrap_phase fuel) (float_of_Z 24 128 (2 ^ 27 + 16))) /\
  diverges (fun fuel => mixed_wrap_phase (float_wrap_phase fuel) (float_of_Z 53 1024 (2 ^ 56 + 16))).
Proof.
  split.
  - apply (c11_of 27 wrap_claims_f32). right.
    destruct (B2SF_value _ _ (float_of_Z 24 128 (2 ^ 27 + 16)) false 8388609 4) as [V F]; [vm_compute; reflexivity|].
    split; auto. rewrite V. simpl. rewrite Rabs_pos_eq; lra.
  - apply (c11_of 56 wrap_claims_f64). right.
    destruct (B2SF_value _ _ (float_of_Z 53 1024 (2 ^ 56 + 16)) false 4503599627370497 4) as [V F]; [vm_compute; reflexivity|].
    split; auto. rewrite V. simpl. rewrite Rabs_pos_eq; lra.
Qed.
