(** * Exactly when the magnitude of a float complex number is zero, infinite or NaN (proofs for C60, C92). *)

From Coq Require Import ZArith Reals Lia Lra Psatz List Bool.
From Flocq Require Import Core.Core IEEE754.BinarySingleNaN.
From Verif Require Import Base FloatBase Literals Traits Trig FixedPrim FixedImpl FloatImpl Complex Spec
  Lemmas FloatLemmas FloatProofs FloatWrap FloatKit WrapProofs2 AtanFloat AtanProofs AtanRange AtanNan MagProofs.
Open Scope Z_scope.

Section MagF.
Context {prec emax : Z} {Hp : Prec_gt_0 prec} {He : Prec_lt_emax prec emax}.
Notation float := (binary_float prec emax).
Notation fexp := (SpecFloat.fexp prec emax).
Notation rnd := (round radix2 fexp ZnearestE).
Notation B2R := (@B2R prec emax).
Notation fin x := (is_finite x = true).
Notation "a ++. b" := (Bplus mode_NE a b) (at level 50, left associativity).
Notation "a **. b" := (Bmult mode_NE a b) (at level 40, left associativity).
Notation top := (bpow radix2 emax - bpow radix2 (emax - prec - 1))%R.
Hypothesis P24 : 24 <= prec <= 100.
Hypothesis E10 : prec + 20 <= emax <= 2000.
Let Vexp : Valid_exp fexp := fexp_correct prec emax _.

Lemma top_over : forall v, (0 <= v)%R -> (bpow radix2 emax <= rnd v <-> top <= v)%R.
Proof using P24 E10 Vexp.
  intros v V. pose proof (rnd_over_iff P24 E10 v) as H. rewrite !Rabs_pos_eq in H; auto.
  rewrite <- (rnd_0 P24 E10). apply (rnd_mono P24 E10); auto.
Qed.
(* the sum of two finite non-negative floats *)
Lemma sum_ext : forall u v : float, fin u -> fin v -> Bsign u = false -> Bsign v = false ->
  let s := u ++. v in
  (fin s /\ Bsign s = false /\ (B2R s = 0%R <-> B2R u = 0%R /\ B2R v = 0%R) /\ (B2R u + B2R v < top)%R) \/
  (s = B754_infinity false /\ (top <= B2R u + B2R v)%R).
Proof using P24 E10 Vexp.
  intros u v Fu Fv Su Sv s.
  assert (NN : forall w : float, Bsign w = false -> (0 <= B2R w)%R).
  { intros w W. destruct w as [| | |[] ? ? ?]; cbn in *; try discriminate; try lra. apply F2R_ge_0. cbn. lia. }
  pose proof (NN u Su) as U0. pose proof (NN v Sv) as V0.
  pose proof (Bplus_correct prec emax _ _ mode_NE u v Fu Fv) as H. change (round_mode mode_NE) with ZnearestE in H. fold s in H.
  pose proof (top_over (B2R u + B2R v) ltac:(lra)) as T. 
  assert (RN : (0 <= rnd (B2R u + B2R v))%R). { rewrite <- (rnd_0 P24 E10). apply (rnd_mono P24 E10). lra. }
  rewrite Rabs_pos_eq in H by exact RN.
  destruct (Rlt_bool_spec (rnd (B2R u + B2R v)) (bpow radix2 emax)) as [L|L].
  - left. destruct H as (V & F & S). split; [exact F|]. split; [|split].
    + rewrite S, Su, Sv. cbn. destruct (Rcompare_spec (B2R u + B2R v) 0); auto. lra.
    + rewrite V. split; intros Z.
      * assert (G : forall w : float, fin w -> (0 <= B2R w)%R -> (B2R w <= B2R u + B2R v)%R -> B2R w = 0%R).
        { intros w Fw W0 W. apply Rle_antisym; auto. rewrite <- Z. rewrite <- (round_generic radix2 fexp ZnearestE (B2R w)) by apply generic_format_B2R.
          apply (rnd_mono P24 E10). exact W. }
        split; apply G; auto; lra.
      * destruct Z as [-> ->]. rewrite Rplus_0_l. apply (rnd_0 P24 E10).
    + apply Rnot_le_lt. intros C. apply T in C. lra.
  - right. destruct H as [H _]. rewrite Su in H. apply to_inf in H. split; [exact H|]. apply T. exact L.
Qed.

Lemma mag_class : forall (u v : float), fin u -> fin v ->
  let r := Bsqrt mode_NE (u **. u ++. v **. v) in
  is_nan r = false /\ Bsign r = false /\
  (is_finite r = false <-> (top <= rnd (B2R u * B2R u) + rnd (B2R v * B2R v))%R) /\
  (is_finite r = true /\ B2R r = 0%R <-> (B2R u * B2R u <= bpow radix2 (2 - emax - prec) /\ B2R v * B2R v <= bpow radix2 (2 - emax - prec))%R).
Proof using P24 E10 Vexp.
  intros u v Fu Fv r.
  assert (TB : (top < bpow radix2 emax)%R) by (pose proof (bpow_gt_0 radix2 (emax - prec - 1)); lra).
  assert (ST : (bpow radix2 (2 - emax - prec) < top)%R).
  { assert (bpow radix2 (emax - prec - 1) <= bpow radix2 (emax - 1))%R by (apply bpow_le; lia).
    assert (bpow radix2 (2 - emax - prec) < bpow radix2 (emax - 1))%R by (apply bpow_lt; lia).
    assert (bpow radix2 emax = 2 * bpow radix2 (emax - 1))%R. { replace emax with (1 + (emax - 1)) at 1 by ring. rewrite bpow_plus. reflexivity. } lra. }
  assert (SQ : forall a : float, fin a ->
    (0 <= rnd (B2R a * B2R a))%R /\ (rnd (B2R a * B2R a) = 0%R <-> (B2R a * B2R a <= bpow radix2 (2 - emax - prec))%R) /\
    ((fin (a **. a) /\ Bsign (a **. a) = false /\ B2R (a **. a) = rnd (B2R a * B2R a)) \/
     (a **. a = B754_infinity false /\ (top <= rnd (B2R a * B2R a))%R))).
  { intros a Fa. pose proof (Rle_0_sqr (B2R a)) as N. unfold Rsqr in N.
    split. { rewrite <- (rnd_0 P24 E10). apply (rnd_mono P24 E10). exact N. }
    split. { apply (rnd_zero_iff P24 E10). exact N. }
    destruct (mult_ext P24 E10 a a Fa Fa) as [[F V]|[I V]].
    - left. split; auto. split; auto. destruct (Bmult_sq_sign a) as [_ S]; auto. apply fin_nan; exact Fa.
    - right. rewrite xorb_nilpotent in I. split; auto. rewrite Rabs_pos_eq in V. { lra. }
      rewrite <- (rnd_0 P24 E10). apply (rnd_mono P24 E10). exact N. }
  destruct (SQ u Fu) as (U0 & UZ & U). destruct (SQ v Fv) as (V0 & VZ & V).
  assert (INF : u **. u ++. v **. v = B754_infinity false -> (top <= rnd (B2R u * B2R u) + rnd (B2R v * B2R v))%R ->
    is_nan r = false /\ Bsign r = false /\
    (is_finite r = false <-> (top <= rnd (B2R u * B2R u) + rnd (B2R v * B2R v))%R) /\
    (is_finite r = true /\ B2R r = 0%R <-> (B2R u * B2R u <= bpow radix2 (2 - emax - prec) /\ B2R v * B2R v <= bpow radix2 (2 - emax - prec))%R)).
  { intros E G. unfold r. rewrite E. cbn. split; auto. split; auto. split; [tauto|]. split; [intros [Q _]; discriminate|].
    intros [A B]. apply UZ in A. apply VZ in B. rewrite A, B in G. pose proof (bpow_gt_0 radix2 (2 - emax - prec)). lra. }
  destruct U as [(FU & SU & EU)|[IU TU]].
  - destruct V as [(FV & SV & EV)|[IV TV]].
    + destruct (sum_ext (u **. u) (v **. v) FU FV SU SV) as [(FS & SS & ZS & LS)|[IS LS]].
      * rewrite EU, EV in ZS, LS.
        pose proof (Bsqrt_correct prec emax _ _ mode_NE (u **. u ++. v **. v)) as (VR & FR & SR). fold r in VR, FR, SR.
        assert (FRt : fin r). { rewrite FR. destruct (u **. u ++. v **. v) as [| | |[] ? ? ?]; auto; discriminate. }
        split; [apply fin_nan; auto|]. split; [rewrite SR; [exact SS|apply fin_nan; auto]|]. split.
        { rewrite FRt. split; [discriminate|]. intros; lra. }
        split.
        { intros [_ R0]. rewrite VR in R0. change (round_mode mode_NE) with ZnearestE in R0.
          assert (S0 : B2R (u **. u ++. v **. v) = 0%R).
          { destruct (Rle_or_lt (B2R (u **. u ++. v **. v)) 0) as [Q|Q].
            - destruct (u **. u ++. v **. v) as [| | |[] mm ee ?]; auto; try discriminate. exfalso. cbn in Q. pose proof (F2R_gt_0 radix2 (Float radix2 (Z.pos mm) ee) eq_refl). lra.
            - exfalso. assert (G0 : generic_format radix2 fexp (B2R (u **. u ++. v **. v))) by apply generic_format_B2R.
              set (w := B2R (u **. u ++. v **. v)) in *.
              destruct (Rle_or_lt w 1) as [W|W].
              + assert (w <= sqrt w)%R. { pose proof (sqrt_sqrt w ltac:(lra)). pose proof (sqrt_pos w). assert (sqrt w <= 1)%R by (rewrite <- sqrt_1; apply sqrt_le_1; lra). nra. }
                apply (rnd_mono P24 E10) in H. rewrite R0 in H. rewrite round_generic in H; [lra|apply valid_rnd_N|exact G0].
              + assert (1 <= sqrt w)%R. { rewrite <- sqrt_1. apply sqrt_le_1; lra. }
                apply (rnd_mono P24 E10) in H. rewrite R0 in H. rewrite round_generic in H; [lra|apply valid_rnd_N|].
                change 1%R with (bpow radix2 0). apply generic_format_bpow. unfold SpecFloat.fexp, SpecFloat.emin. lia. }
          apply ZS in S0. destruct S0 as [A B]. split; [apply UZ | apply VZ]; auto. }
        { intros [A B]. apply UZ in A. apply VZ in B. split; auto. rewrite VR. change (round_mode mode_NE) with ZnearestE.
          rewrite (proj2 ZS (conj A B)), sqrt_0. apply (rnd_0 P24 E10). }
      * apply INF; auto. rewrite EU, EV in LS. exact LS.
    + apply INF; [|lra]. rewrite IV, Bplus_comm. apply Bplus_inf_l; [apply fin_nan; auto | exact SU].
  - apply INF; [|lra]. rewrite IU. destruct V as [(FV & SV & EV)|[IV TV]]; [apply Bplus_inf_l; [apply fin_nan; auto | exact SV]| rewrite IV; reflexivity].
Qed.
End MagF.

(** *** NaN and infinity in the components *)
Section NonFin.
Context {prec emax : Z} {Hp : Prec_gt_0 prec} {He : Prec_lt_emax prec emax}.
Notation float := (binary_float prec emax).
Notation "a ++. b" := (Bplus mode_NE a b) (at level 50, left associativity).
Notation "a **. b" := (Bmult mode_NE a b) (at level 40, left associativity).
Lemma sq_nonneg : forall a : float, is_nan a = false -> is_nan (a **. a) = false /\ Bsign (a **. a) = false.
Proof. exact Bmult_sq_sign. Qed.
Lemma sqrt_pos_nan : forall a : float, is_nan a = false -> Bsign a = false -> is_nan (Bsqrt mode_NE a) = false.
Proof.
  intros a N S. pose proof (Bsqrt_correct prec emax _ _ mode_NE a) as (_ & F & _).
  destruct a as [s|s| |s m e B]; try discriminate; [reflexivity | cbn in S; subst; reflexivity |].
  cbn in S; subst s. apply fin_nan. exact F.
Qed.
Lemma plus_pos_nan : forall a b : float, is_nan a = false -> Bsign a = false -> is_nan b = false -> Bsign b = false ->
  is_nan (a ++. b) = false /\ Bsign (a ++. b) = false.
Proof.
  intros a b Na Sa Nb Sb. destruct a as [[]|[]| |s m e B] eqn:EA; try discriminate; destruct b as [[]|[]| |s' m' e' B'] eqn:EB; try discriminate; try (split; reflexivity); try (split; cbn in *; auto; fail).
  cbn in Sa, Sb. subst s s'. rewrite <- EA, <- EB in *. assert (Fa : is_finite a = true) by (rewrite EA; reflexivity). assert (Fb : is_finite b = true) by (rewrite EB; reflexivity).
  assert (Sa : Bsign a = false) by (rewrite EA; reflexivity). assert (Sb : Bsign b = false) by (rewrite EB; reflexivity).
  assert (Pa : (0 < B2R a)%R) by (rewrite EA; cbn; apply F2R_gt_0; reflexivity).
  assert (Pb : (0 < B2R b)%R) by (rewrite EB; cbn; apply F2R_gt_0; reflexivity).
  pose proof (Bplus_correct prec emax _ _ mode_NE a b Fa Fb) as H. clear EA EB.
  destruct (Rlt_bool _ _) in H.
  - destruct H as (_ & F & S). rewrite (fin_nan _ F). split; auto. rewrite S, Rcompare_Gt by lra. reflexivity.
  - destruct H as [H _]. rewrite Sa in H. apply to_inf in H. rewrite H. split; reflexivity.
Qed.
Lemma mag_nonfin : forall u v : float,
  let r := Bsqrt mode_NE (u **. u ++. v **. v) in
  (is_nan r = true <-> is_nan u = true \/ is_nan v = true) /\
  (is_nan r = false -> Bsign r = false) /\
  (is_nan u = false -> is_nan v = false -> is_finite u = false \/ is_finite v = false -> r = B754_infinity false).
Proof.
  intros u v r.
  assert (NN : is_nan u = false -> is_nan v = false -> is_nan r = false).
  { intros A B. destruct (sq_nonneg u A) as [NU SU]. destruct (sq_nonneg v B) as [NV SV].
    destruct (plus_pos_nan _ _ NU SU NV SV) as [NP SP]. apply sqrt_pos_nan; auto. }
  assert (NU : is_nan u = true -> r = B754_nan) by (intros; unfold r; destruct u; try discriminate; reflexivity).
  assert (NV : is_nan v = true -> r = B754_nan) by (intros; unfold r; destruct v; try discriminate; destruct (u **. u); reflexivity).
  split; [split|split].
  - intros H. destruct (is_nan u) eqn:A; [auto|]. destruct (is_nan v) eqn:B; [auto|]. rewrite NN in H by auto. discriminate.
  - intros [A|B]; [rewrite NU by auto | rewrite NV by auto]; reflexivity.
  - intros H. destruct (is_nan u) eqn:A; [rewrite NU in H by auto; discriminate|]. destruct (is_nan v) eqn:B; [rewrite NV in H by auto; discriminate|].
    destruct (sq_nonneg u A) as [NU' SU]. destruct (sq_nonneg v B) as [NV' SV]. destruct (plus_pos_nan _ _ NU' SU NV' SV) as [NP SP].
    destruct (Bsqrt_correct prec emax _ _ mode_NE (u **. u ++. v **. v)) as (_ & _ & S). unfold r. rewrite S by exact H. exact SP.
  - intros A B H. destruct (sq_nonneg u A) as [NU' SU]. destruct (sq_nonneg v B) as [NV' SV].
    assert (I : forall w : float, is_nan w = false -> is_finite w = false -> w **. w = B754_infinity false).
    { intros w N F. destruct w as [|[]| |]; try discriminate; reflexivity. }
    unfold r. destruct H as [H|H].
    + rewrite (I u A H), Bplus_inf_l by auto. reflexivity.
    + rewrite (I v B H), Bplus_comm, Bplus_inf_l by auto. reflexivity.
Qed.
End NonFin.

Lemma mag_iff_f32 : forall m fuel (z : Cartesian f32) sq, (forall x, sq x = Bsqrt mode_NE x) ->
  is_finite (re z) = true -> is_finite (im z) = true ->
  let a2 := (B2R (re z) * B2R (re z))%R in let b2 := (B2R (im z) * B2R (im z))%R in
  let rnd := round radix2 (FLT_exp (-149) 24) ZnearestE in
  exists r, cartesian_mag float_ops (float_sqrt m sq fuel) float_powi z = Ok r /\ is_nan r = false /\ Bsign r = false /\
  (is_finite r = false <-> (bpow radix2 128 - bpow radix2 103 <= rnd a2 + rnd b2)%R) /\
  (is_finite r = true /\ B2R r = 0%R <-> (a2 <= bpow radix2 (-150) /\ b2 <= bpow radix2 (-150))%R).
Proof.
  intros m fuel z sq SQ Fa Fb a2 b2 rnd. eexists. split; [exact (float_mag_eq m sq fuel z)|]. rewrite SQ.
  exact (@mag_class 24 128 _ _ ltac:(lia) ltac:(lia) (re z) (im z) Fa Fb).
Qed.
Lemma mag_iff_f64 : forall m fuel (z : Cartesian f64) sq, (forall x, sq x = Bsqrt mode_NE x) ->
  is_finite (re z) = true -> is_finite (im z) = true ->
  let a2 := (B2R (re z) * B2R (re z))%R in let b2 := (B2R (im z) * B2R (im z))%R in
  let rnd := round radix2 (FLT_exp (-1074) 53) ZnearestE in
  exists r, cartesian_mag float_ops (float_sqrt m sq fuel) float_powi z = Ok r /\ is_nan r = false /\ Bsign r = false /\
  (is_finite r = false <-> (bpow radix2 1024 - bpow radix2 970 <= rnd a2 + rnd b2)%R) /\
  (is_finite r = true /\ B2R r = 0%R <-> (a2 <= bpow radix2 (-1075) /\ b2 <= bpow radix2 (-1075))%R).
Proof.
  intros m fuel z sq SQ Fa Fb a2 b2 rnd. eexists. split; [exact (float_mag_eq m sq fuel z)|]. rewrite SQ.
  exact (@mag_class 53 1024 _ _ ltac:(lia) ltac:(lia) (re z) (im z) Fa Fb).
Qed.
Lemma mag_special : forall p e {Hp : Prec_gt_0 p} {He : Prec_lt_emax p e} m fuel (z : Cartesian (binary_float p e)) sq, (forall x, sq x = Bsqrt mode_NE x) ->
  exists r, cartesian_mag float_ops (float_sqrt m sq fuel) float_powi z = Ok r /\
  (is_nan r = true <-> is_nan (re z) = true \/ is_nan (im z) = true) /\ (is_nan r = false -> Bsign r = false) /\
  (is_nan (re z) = false -> is_nan (im z) = false -> is_finite (re z) = false \/ is_finite (im z) = false -> r = B754_infinity false).
Proof.
  intros p e Hp He m fuel z sq SQ. eexists. split; [exact (float_mag_eq m sq fuel z)|]. rewrite SQ. apply mag_nonfin.
Qed.
