(** * The approximations beside the library routines. *)

From Coq Require Import ZArith Reals Lra Lia.
From Flocq Require Import Core.Core IEEE754.BinarySingleNaN.
From Verif Require Import Base FloatBase Literals Traits Trig IntImpl FixedPrim FixedImpl FloatImpl Spec SpecAngle SpecPolar
  AtanProofs TrigProofs NiirfFloat SqrtInv FloatWrap2 WrapProofs2.
Open Scope Z_scope.

Lemma near2 : forall a b c d e, (Rabs (a - c) <= d -> Rabs (b - c) <= e -> Rabs (a - b) <= d + e)%R.
Proof. intros a b c d e H K. replace (a - b)%R with ((a - c) - (b - c))%R by ring. apply Rabs_le. apply Rabs_le_inv in H. apply Rabs_le_inv in K. lra. Qed.

Lemma atan2_beside : forall m f, supported f = true -> fsigned f = true -> forall ca ca2 e y x th a,
  let A := fixed_atan m f ca ca2 in let M := Rmax (Rabs (fval f x)) (Rabs (fval f y)) in
  (16 * ulp f <= M * M)%R -> (3 / 2 * (M * M) <= fval f (fmax f))%R -> is_angle (fval f y) (fval f x) th ->
  ca2 y x = Ok a -> (Rabs (fval f a - th) <= e)%R ->
  exists p, mixed_atan2_poly A y x = Ok p /\ mixed_atan2 A y x = Ok a /\
  (Rabs (fval f p - fval f a) <= 492 / 100000 + (3 + 5 / (M * M)) * ulp f + e)%R.
Proof.
  intros m f Hf S ca ca2 e y x th a A M L U I Ea Da. destruct (c24 m f Hf S y x th L U I) as (p & Ep & Dp).
  exists p. split; [exact Ep|]. split; [exact Ea|]. exact (near2 _ _ _ _ _ Dp Da).
Qed.

Lemma sin_beside : forall m f, supported f = true -> fsigned f = true -> ffrac f <= fwidth f - 20 ->
  forall Sn d x s, (Rabs (fval f x) <= PI)%R -> mixed_sin Sn x = Ok s -> (Rabs (fval f s - Rtrigo_def.sin (fval f x)) <= d)%R ->
  exists r, Trig.sin (fixed_ops m f) (fixed_signed m f) (fixed_pi m f) (fixed_powi m f) x = Ok r /\
  (Rabs (fval f r - fval f s) <= 362 / 100000000 + 405 / 100 * ulp f + d)%R.
Proof.
  intros m f Hf S F Sn d x s X _ D. destruct (c19 m f Hf S F) as (p & _ & P & H). destruct (H x (P x X)) as (r & E & A).
  exists r. split; auto. exact (near2 _ _ _ _ _ A D).
Qed.

Section F.
Context {prec emax : Z} {Hp : Prec_gt_0 prec} {He : Prec_lt_emax prec emax}.
Notation float := (binary_float prec emax).
Notation u := (bpow radix2 (- prec)).

Definition atan2_side : Prop := forall (la : float -> float) la2 d y x th, let A := float_atan la la2 in
  is_finite y = true -> is_finite x = true ->
  (bpow radix2 (3 - emax / 2) <= Rmax (Rabs (B2R x)) (Rabs (B2R y)) <= bpow radix2 (emax / 2 - 3))%R -> is_angle (B2R y) (B2R x) th ->
  (Rabs (B2R (la2 y x) - th) <= d)%R ->
  exists r, mixed_atan2_poly A y x = Ok r /\ mixed_atan2 A y x = Ok (la2 y x) /\ is_finite r = true /\ (Rabs (B2R r - B2R (la2 y x)) <= 492 / 100000 + d)%R.
Lemma atan2_side_of : @atan_claims prec emax _ _ -> atan2_side.
Proof using.
  intros C la la2 d y x th A Fy Fx M I D. destruct (C y x Fy Fx th M I) as (r & E & F & V). exists r. split; [exact E|]. split; [reflexivity|]. split; [exact F|]. exact (near2 _ _ _ _ _ V D).
Qed.

Definition sin_side : Prop := forall (Sn : MixedSin float) d x s, is_finite x = true -> (Rabs (B2R x) <= PI)%R -> mixed_sin Sn x = Ok s ->
  (Rabs (B2R s - Rtrigo_def.sin (B2R x)) <= d)%R ->
  exists r, Trig.sin float_ops float_signed float_pi float_powi x = Ok r /\ is_finite r = true /\ (Rabs (B2R r - B2R s) <= 5 / 1000000 + d)%R.

Lemma sqrt_side : 24 <= prec <= 100 -> prec + 20 <= emax <= 2000 -> forall sq, (forall x : float, sq x = Bsqrt mode_NE x) -> forall m (x : float), is_finite x = true ->
  exists r, returns (fun fuel => mixed_niirf (float_sqrt m sq fuel) x) r /\ is_finite r = true /\
  ((0 <= B2R x)%R -> forall fuel, exists s, mixed_sqrt (float_sqrt m sq fuel) x = Ok s /\ is_finite s = true /\ (Rabs (B2R r - B2R s) <= (/ 1000 + u) * sqrt (B2R x))%R) /\
  ((B2R x < 0)%R -> forall fuel, mixed_sqrt (float_sqrt m sq fuel) x = Ok B754_nan /\ (Rabs (B2R r - sqrt (- B2R x)) <= / 1000 * sqrt (- B2R x))%R).
Proof using.
  intros P24 PE sq SQ m x F. destruct (niirf_float P24 PE m x 2%N F ltac:(lia)) as [r [A [B [C _]]]]. exists r. split; [exact A|]. split; [exact B|]. split.
  - intros N fuel. exists (sq x). rewrite SQ. rewrite (Rabs_pos_eq _ N) in C. split; [cbn; rewrite SQ; reflexivity|].
    destruct (Bsqrt_correct prec emax _ _ mode_NE x) as (VR & FR & _). change (round_mode mode_NE) with ZnearestE in VR.
    assert (FS : is_finite (Bsqrt mode_NE x) = true).
    { rewrite FR. destruct x as [| | |[] ? ? ?]; try discriminate; auto. exfalso. cbn [B2R] in N. pose proof (F2R_lt_0 radix2 (Float radix2 (Z.neg m0) e) eq_refl). unfold cond_Zopp in N. cbn [Z.opp] in N. lra. }
    split; [exact FS|]. rewrite Rmult_plus_distr_r. refine (near2 _ _ _ _ _ C _). rewrite VR.
    destruct (Req_dec (B2R x) 0) as [Z|Z]; [rewrite Z, sqrt_0, round_0, Rminus_0_r, Rabs_R0, Rmult_0_r by apply valid_rnd_N; lra|].
    assert (T : (0 <= sqrt (B2R x))%R) by apply sqrt_pos. rewrite <- (Rabs_pos_eq _ T) at 3.
    assert (G : (bpow radix2 (3 - emax - prec) <= B2R x)%R).
    { rewrite <- (Rabs_pos_eq _ N). apply (abs_B2R_ge_emin prec emax x). destruct x; try discriminate; auto. }
    apply (rnd_norm (emax := emax)). rewrite Rabs_pos_eq by auto. apply Rsqr_incr_0_var; auto. unfold Rsqr. rewrite sqrt_sqrt by auto. rewrite <- bpow_plus. apply Rle_trans with (2 := G). apply bpow_le. lia.
  - intros N fuel. rewrite (Rabs_left (B2R x)) in C by auto. split; [|exact C]. cbn. rewrite SQ. destruct x as [[]| | |[] ? ? ?]; try discriminate; cbn in N |- *; try lra; try reflexivity.
    exfalso. pose proof (F2R_gt_0 radix2 (Float radix2 (Z.pos m0) e) eq_refl). unfold cond_Zopp in N. lra.
Qed.
End F.

Lemma sin_side_of : forall {prec emax : Z} {Hp : Prec_gt_0 prec} {He : Prec_lt_emax prec emax},
  (exists p : binary_float prec emax, mixed_pi float_pi = Ok p /\
   (forall x : binary_float prec emax, is_finite x = true -> (Rabs (B2R x) <= PI)%R -> (Rabs (B2R x) <= B2R p)%R) /\
   (forall x : binary_float prec emax, is_finite x = true -> (Rabs (B2R x) <= B2R p)%R ->
     exists r, Trig.sin float_ops float_signed float_pi float_powi x = Ok r /\ is_finite r = true /\ (Rabs (B2R r - Rtrigo_def.sin (B2R x)) <= 5 / 1000000)%R)) ->
  @sin_side prec emax Hp He.
Proof.
  intros prec emax Hp He (p & _ & P & H) Sn d x s F X _ D. destruct (H x F (P x F X)) as (r & E & G & V). exists r. split; auto. split; auto. exact (near2 _ _ _ _ _ V D).
Qed.
Lemma sides_f32 : @atan2_side 24 128 _ _ /\ @sin_side 24 128 _ _.
Proof. split; [apply atan2_side_of, atan_f32|apply sin_side_of, c22_f32]. Qed.
Lemma sides_f64 : @atan2_side 53 1024 _ _ /\ @sin_side 53 1024 _ _.
Proof. split; [apply atan2_side_of, atan_f64|apply sin_side_of, c22_f64]. Qed.
Lemma sqrt_side_f32 : forall sq, (forall x : f32, sq x = Bsqrt mode_NE x) -> forall m (x : f32), is_finite x = true ->
  exists r, returns (fun fuel => mixed_niirf (float_sqrt m sq fuel) x) r /\ is_finite r = true /\
  ((0 <= B2R x)%R -> forall fuel, exists s, mixed_sqrt (float_sqrt m sq fuel) x = Ok s /\ is_finite s = true /\ (Rabs (B2R r - B2R s) <= (/ 1000 + bpow radix2 (-24)) * sqrt (B2R x))%R) /\
  ((B2R x < 0)%R -> forall fuel, mixed_sqrt (float_sqrt m sq fuel) x = Ok B754_nan /\ (Rabs (B2R r - sqrt (- B2R x)) <= / 1000 * sqrt (- B2R x))%R).
Proof. exact (@sqrt_side 24 128 _ _ ltac:(lia) ltac:(lia)). Qed.
Lemma sqrt_side_f64 : forall sq, (forall x : f64, sq x = Bsqrt mode_NE x) -> forall m (x : f64), is_finite x = true ->
  exists r, returns (fun fuel => mixed_niirf (float_sqrt m sq fuel) x) r /\ is_finite r = true /\
  ((0 <= B2R x)%R -> forall fuel, exists s, mixed_sqrt (float_sqrt m sq fuel) x = Ok s /\ is_finite s = true /\ (Rabs (B2R r - B2R s) <= (/ 1000 + bpow radix2 (-53)) * sqrt (B2R x))%R) /\
  ((B2R x < 0)%R -> forall fuel, mixed_sqrt (float_sqrt m sq fuel) x = Ok B754_nan /\ (Rabs (B2R r - sqrt (- B2R x)) <= / 1000 * sqrt (- B2R x))%R).
Proof. exact (@sqrt_side 53 1024 _ _ ltac:(lia) ltac:(lia)). Qed.

(** on the cut the polynomial answers +pi whatever the sign of the zero *)
Definition cut_side (prec emax : Z) {Hp : Prec_gt_0 prec} {He : Prec_lt_emax prec emax} : Prop := forall (la : binary_float prec emax -> binary_float prec emax) la2 d x s, is_finite x = true -> Bsign x = true ->
  (Rabs (B2R (la2 (B754_zero s) x) - (if s then - PI else PI)) <= d)%R ->
  exists r, mixed_atan2_poly (float_atan la la2) (B754_zero s) x = Ok r /\ mixed_atan2 (float_atan la la2) (B754_zero s) x = Ok (la2 (B754_zero s) x) /\
  (if s then 628 / 100 <= B2R r - B2R (la2 (B754_zero s) x) + d else Rabs (B2R r - B2R (la2 (B754_zero s) x)) <= d + / 1000000)%R.
Lemma cut_of : forall {prec emax : Z} {Hp : Prec_gt_0 prec} {He : Prec_lt_emax prec emax} (p : binary_float prec emax), mixed_pi float_pi = Ok p -> (Rabs (B2R p - PI) <= / 1000000)%R -> cut_side prec emax.
Proof.
  intros prec emax Hp He p Ep Dp la la2 d x s F S D. exists p. split.
  { change (float_atan2_poly (B754_zero s) x = Ok p). destruct (AtanProofs.c23_float p Ep x) as [H _]; [destruct x; auto; discriminate|]. rewrite H, S. reflexivity. }
  split; [reflexivity|]. apply Rabs_le_inv in Dp. apply Rabs_le_inv in D. pose proof SinReal.pi_bounds. destruct s; [lra|apply Rabs_le; lra].
Qed.
Lemma cut_f32 : cut_side 24 128.
Proof.
  apply (cut_of f32_pi); [reflexivity|]. eapply Rle_trans; [apply f32_pi_err|]. change (bpow radix2 (-24)) with (/ IZR (2 ^ 24))%R. pose proof SinReal.pi_bounds. lra.
Qed.
Lemma cut_f64 : cut_side 53 1024.
Proof.
  apply (cut_of f64_pi); [reflexivity|]. eapply Rle_trans; [apply f64_pi_err|]. change (bpow radix2 (-53)) with (/ IZR (2 ^ 53))%R. pose proof SinReal.pi_bounds. lra.
Qed.
