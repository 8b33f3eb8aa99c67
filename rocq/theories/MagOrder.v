(** * The float magnitude keeps order, dominates the parts and is at most their sum. *)

From Coq Require Import ZArith Reals Lia Lra Psatz Bool List.
From Flocq Require Import Core.Core IEEE754.BinarySingleNaN.
From Flocq Require Import Relative.
From Verif Require Import Base FloatBase Literals Traits Trig IntImpl FixedPrim FixedImpl FloatImpl Complex Spec
  Lemmas FloatLemmas FloatKit ScalarProofs ScalarProofs2 FloatProofs MagProofs SqrtInv.
Open Scope Z_scope.

Section Float.
Context {prec emax : Z} {Hp : Prec_gt_0 prec} {He : Prec_lt_emax prec emax}.
Notation float := (binary_float prec emax).
Notation fexp := (SpecFloat.fexp prec emax).
Notation rnd := (round radix2 fexp ZnearestE).
Hypothesis (P2 : 2 <= prec) (E3 : 3 <= emax).

Let Vx : Valid_exp fexp := fexp_correct prec emax Hp.
Lemma mult_mono : forall a b : float, is_finite a = true -> is_finite b = true -> (Rabs (B2R a) <= Rabs (B2R b))%R -> is_finite (Bmult mode_NE b b) = true ->
  is_finite (Bmult mode_NE a a) = true /\ (0 <= B2R (Bmult mode_NE a a) <= B2R (Bmult mode_NE b b))%R.
Proof using Vx.
  intros a b Fa Fb H F. pose proof (mult_fin b b F) as V.
  assert (S : (0 <= B2R a * B2R a <= B2R b * B2R b)%R).
  { split; [apply Rle_0_sqr|]. replace (B2R a * B2R a)%R with (Rabs (B2R a) * Rabs (B2R a))%R by (unfold Rabs; destruct (Rcase_abs _); ring).
    replace (B2R b * B2R b)%R with (Rabs (B2R b) * Rabs (B2R b))%R by (unfold Rabs; destruct (Rcase_abs _); ring). apply Rmult_le_compat; auto; apply Rabs_pos. }
  assert (R0 : (0 <= rnd (B2R a * B2R a) <= rnd (B2R b * B2R b))%R) by (split; [apply round_ge_generic; auto; [apply valid_rnd_N|apply generic_format_0|lra]|apply round_le; auto; [apply valid_rnd_N|lra]]).
  pose proof (Bmult_correct prec emax _ _ mode_NE a a) as K. change (round_mode mode_NE) with ZnearestE in K. rewrite Rlt_bool_true in K.
  - destruct K as (K1 & K2 & _). rewrite Fa in K2. split; [exact K2|]. rewrite K1, V. exact R0.
  - rewrite Rabs_pos_eq by lra. apply Rle_lt_trans with (1 := proj2 R0). rewrite <- V. apply Rle_lt_trans with (1 := Rle_abs _). apply abs_B2R_lt_emax.
Qed.
Lemma plus_fin : forall a b : float, is_finite (Bplus mode_NE a b) = true -> is_finite a = true /\ is_finite b = true.
Proof using Type. intros [[]|[]| |[] ? ? ?] [[]|[]| |[] ? ? ?]; cbn; auto; discriminate. Qed.
Lemma plus_val : forall a b : float, is_finite (Bplus mode_NE a b) = true -> B2R (Bplus mode_NE a b) = rnd (B2R a + B2R b).
Proof using Type.
  intros a b F. destruct (plus_fin a b F) as [Fa Fb]. pose proof (Bplus_correct prec emax _ _ mode_NE a b Fa Fb) as K. destruct (Rlt_bool _ _); [apply K|].
  destruct K as [K _]. destruct (Bplus mode_NE a b); try discriminate; cbn in K; discriminate.
Qed.
Lemma plus_mono : forall a b c d : float, is_finite a = true -> is_finite b = true -> (0 <= B2R a <= B2R c)%R -> (0 <= B2R b <= B2R d)%R -> is_finite (Bplus mode_NE c d) = true ->
  is_finite (Bplus mode_NE a b) = true /\ (0 <= B2R (Bplus mode_NE a b) <= B2R (Bplus mode_NE c d))%R.
Proof using Vx.
  intros a b c d Fa Fb A B F. pose proof (plus_val c d F) as V.
  assert (R0 : (0 <= rnd (B2R a + B2R b) <= rnd (B2R c + B2R d))%R) by (split; [apply round_ge_generic; auto; [apply valid_rnd_N|apply generic_format_0|lra]|apply round_le; auto; [apply valid_rnd_N|lra]]).
  pose proof (Bplus_correct prec emax _ _ mode_NE a b Fa Fb) as K. change (round_mode mode_NE) with ZnearestE in K. rewrite Rlt_bool_true in K.
  - destruct K as (K1 & K2 & _). split; [exact K2|]. rewrite K1, V. exact R0.
  - rewrite Rabs_pos_eq by lra. apply Rle_lt_trans with (1 := proj2 R0). rewrite <- V. apply Rle_lt_trans with (1 := Rle_abs _). apply abs_B2R_lt_emax.
Qed.
Lemma sqrt_fin : forall a : float, is_finite (Bsqrt mode_NE a) = true -> is_finite a = true.
Proof using Type. intros [[]|[]| |[] ? ? ?]; cbn; auto; discriminate. Qed.
Lemma sqrt_nonneg : forall a : float, is_finite a = true -> Bsign a = false -> is_finite (Bsqrt mode_NE a) = true /\ (0 <= B2R (Bsqrt mode_NE a))%R /\ B2R (Bsqrt mode_NE a) = rnd (sqrt (B2R a)).
Proof using Vx.
  intros a F S. destruct (Bsqrt_correct prec emax _ _ mode_NE a) as (VR & FR & _). change (round_mode mode_NE) with ZnearestE in VR. split; [rewrite FR; destruct a as [| | |[] ? ? ?]; try discriminate; auto|].
  split; auto. rewrite VR. apply round_ge_generic; auto; [apply valid_rnd_N|apply generic_format_0|apply sqrt_pos].
Qed.
Lemma sq_sign : forall a : float, is_finite (Bmult mode_NE a a) = true -> Bsign (Bmult mode_NE a a) = false.
Proof using Type.
  intros a F. pose proof (Bmult_correct prec emax _ _ mode_NE a a) as K. destruct (Rlt_bool _ _).
  - destruct K as (_ & _ & K). rewrite K by (destruct (Bmult mode_NE a a); auto; discriminate). apply xorb_nilpotent.
  - destruct (Bmult mode_NE a a); try discriminate; cbn in K; rewrite xorb_nilpotent in K; discriminate.
Qed.
Lemma plus_sign : forall a b : float, is_finite (Bplus mode_NE a b) = true -> Bsign a = false -> Bsign b = false -> Bsign (Bplus mode_NE a b) = false.
Proof using Type.
  intros a b F A B. destruct (plus_fin a b F) as [Fa Fb]. pose proof (Bplus_correct prec emax _ _ mode_NE a b Fa Fb) as K. destruct (Rlt_bool _ _).
  - destruct K as (_ & _ & K). rewrite K, A, B.
    assert (NA : (0 <= B2R a)%R) by (destruct a as [| | |[] ? ? ?]; cbn in *; try lra; try discriminate; apply F2R_ge_0; cbn; lia).
    assert (NB : (0 <= B2R b)%R) by (destruct b as [| | |[] ? ? ?]; cbn in *; try lra; try discriminate; apply F2R_ge_0; cbn; lia).
    destruct (Rcompare_spec (B2R a + B2R b) 0); auto. lra.
  - destruct K as [K _]. destruct (Bplus mode_NE a b); try discriminate; cbn in K; discriminate.
Qed.
Lemma mag_mono : forall m fuel sq, (forall x : float, sq x = Bsqrt mode_NE x) -> forall z w rw, is_finite (re z) = true -> is_finite (im z) = true ->
  float_mag m sq fuel w = Ok rw -> is_finite rw = true -> is_finite (re w) = true -> is_finite (im w) = true -> (Rabs (B2R (re z)) <= Rabs (B2R (re w)))%R -> (Rabs (B2R (im z)) <= Rabs (B2R (im w)))%R ->
  exists rz, float_mag m sq fuel z = Ok rz /\ is_finite rz = true /\ (0 <= B2R rz <= B2R rw)%R.
Proof using Vx.
  intros m fuel sq SQ z w rw F1 F2 Ew Fw G1 G2 A B. rewrite float_mag_eq in *. injection Ew as Ew. rewrite SQ in Ew. rewrite <- Ew in Fw.
  pose proof (sqrt_fin _ Fw) as Fp. destruct (plus_fin _ _ Fp) as [Fa Fb]. destruct (mult_mono _ _ F1 G1 A Fa) as [Fc Vc]. destruct (mult_mono _ _ F2 G2 B Fb) as [Fd Vd].
  destruct (plus_mono _ _ _ _ Fc Fd Vc Vd Fp) as [Fs Vs]. eexists. split; [reflexivity|]. rewrite SQ.
  destruct (sqrt_nonneg _ Fs (plus_sign _ _ Fs (sq_sign _ Fc) (sq_sign _ Fd))) as (Fr & Nr & Er). split; [exact Fr|]. split; [exact Nr|].
  destruct (sqrt_nonneg _ Fp (plus_sign _ _ Fp (sq_sign _ Fa) (sq_sign _ Fb))) as (_ & _ & Ew'). rewrite Er, <- Ew, Ew'. apply round_le; auto; [apply valid_rnd_N|]. apply sqrt_le_1; lra.
Qed.
Lemma mag_parts : forall m fuel sq, (forall x : float, sq x = Bsqrt mode_NE x) -> forall z r, is_finite (re z) = true -> is_finite (im z) = true ->
  float_mag m sq fuel z = Ok r -> is_finite r = true -> (bpow radix2 (2 - emax) <= B2R (re z) * B2R (re z) \/ bpow radix2 (2 - emax) <= B2R (im z) * B2R (im z))%R ->
  (Rabs (B2R (re z)) <= B2R r)%R /\ (Rabs (B2R (im z)) <= B2R r)%R.
Proof using P2 E3 Vx.
  intros m fuel sq SQ z r F1 F2 E F N.
  assert (FM : is_finite (Bmult mode_NE (re z) (re z)) = true /\ is_finite (Bmult mode_NE (im z) (im z)) = true).
  { rewrite float_mag_eq in E. injection E as E. rewrite SQ in E. rewrite <- E in F. apply plus_fin, sqrt_fin. exact F. }
  destruct FM as [Fa Fb].
  assert (A1 : (bpow radix2 (2 - emax) <= B2R (re z) * B2R (re z) -> Rabs (B2R (re z)) <= B2R r)%R).
  { intros K. destruct (mag_axis (prec := prec) (emax := emax) P2 E3 m fuel sq SQ (re z) F1 Fa K false) as [R _].
    destruct (mag_mono m fuel sq SQ (mkC (re z) (B754_zero false)) z r F1 eq_refl E F F1 F2) as (rz & Ez & _ & L); cbn [re im]; [lra|cbn; rewrite Rabs_R0; apply Rabs_pos|].
    rewrite R in Ez. injection Ez as <-. rewrite B2R_Babs in L. lra. }
  assert (A2 : (bpow radix2 (2 - emax) <= B2R (im z) * B2R (im z) -> Rabs (B2R (im z)) <= B2R r)%R).
  { intros K. destruct (mag_axis (prec := prec) (emax := emax) P2 E3 m fuel sq SQ (im z) F2 Fb K false) as [_ R].
    destruct (mag_mono m fuel sq SQ (mkC (B754_zero false) (im z)) z r eq_refl F2 E F F1 F2) as (rz & Ez & _ & L); cbn [re im]; [cbn; rewrite Rabs_R0; apply Rabs_pos|lra|].
    rewrite R in Ez. injection Ez as <-. rewrite B2R_Babs in L. lra. }
  assert (SQR : forall v, (v * v = Rabs v * Rabs v)%R) by (intros; unfold Rabs; destruct (Rcase_abs _); ring). rewrite (SQR (B2R (re z))) in *. rewrite (SQR (B2R (im z))) in *.
  pose proof (Rabs_pos (B2R (re z))) as P1. pose proof (Rabs_pos (B2R (im z))) as P3. set (a := Rabs (B2R (re z))) in *. set (b := Rabs (B2R (im z))) in *. set (c := bpow radix2 (2 - emax)) in *.
  destruct N as [N|N].
  - specialize (A1 N). split; auto. destruct (Rle_lt_dec b a) as [L|L]; [lra|]. apply A2. apply Rle_trans with (1 := N). apply Rmult_le_compat; lra.
  - specialize (A2 N). split; auto. destruct (Rle_lt_dec a b) as [L|L]; [lra|]. apply A1. apply Rle_trans with (1 := N). apply Rmult_le_compat; lra.
Qed.
(** normalising *)
Lemma div_le_1 : forall a r : float, is_finite a = true -> is_finite r = true -> (0 < B2R r)%R -> (Rabs (B2R a) <= B2R r)%R -> is_finite (Bdiv mode_NE a r) = true /\ (Rabs (B2R (Bdiv mode_NE a r)) <= 1)%R.
Proof using P2 E3 Vx.
  intros a r Fa Fr P H. pose proof (Bdiv_correct prec emax _ _ mode_NE a r ltac:(lra)) as K. change (round_mode mode_NE) with ZnearestE in K.
  assert (Q : (Rabs (B2R a / B2R r) <= 1)%R). { unfold Rdiv. rewrite Rabs_mult, (Rabs_pos_eq (/ B2R r)) by (left; apply Rinv_0_lt_compat; auto). apply Rmult_le_reg_r with (B2R r); auto. rewrite Rmult_assoc, Rinv_l by lra. lra. }
  assert (O1 : generic_format radix2 fexp 1%R). { change 1%R with (bpow radix2 0). apply generic_format_bpow. unfold SpecFloat.fexp, SpecFloat.emin. pose proof (prec_gt_0 prec). lia. }
  assert (B : (Rabs (rnd (B2R a / B2R r)) <= 1)%R) by (apply abs_round_le_generic; auto; apply valid_rnd_N).
  rewrite Rlt_bool_true in K. 2:{ apply Rle_lt_trans with (1 := B). change 1%R with (bpow radix2 0). apply bpow_lt. lia. }
  destruct K as (K1 & K2 & _). rewrite Fa in K2. split; [exact K2|]. rewrite K1. exact B.
Qed.
Lemma normalise : forall m fuel sq, (forall x : float, sq x = Bsqrt mode_NE x) -> forall T1 (O1 : MixedOps T1) (C : MixedNumConversion T1 float) (Z1 : MixedZero T1) z r x x0, is_finite (re z) = true -> is_finite (im z) = true ->
  float_mag m sq fuel z = Ok r -> is_finite r = true -> (bpow radix2 (2 - emax) <= B2R (re z) * B2R (re z) \/ bpow radix2 (2 - emax) <= B2R (im z) * B2R (im z))%R ->
  mixed_from_num C x = Ok r -> mixed_zero Z1 = Ok x0 -> o_eq O1 x x0 = false ->
  exists n, cartesian_div_scalar O1 float_ops C Z1 float_real z x = Ok n /\ is_finite (re n) = true /\ is_finite (im n) = true /\ (Rabs (B2R (re n)) <= 1)%R /\ (Rabs (B2R (im n)) <= 1)%R.
Proof using P2 E3 Vx.
  intros m fuel sq SQ T1 O1 C Z1 z r x x0 F1 F2 E F N EC EZ NE. destruct (mag_parts m fuel sq SQ z r F1 F2 E F N) as [A B].
  assert (P : (0 < B2R r)%R). { pose proof (bpow_gt_0 radix2 (2 - emax)). pose proof (Rabs_pos (B2R (re z))). pose proof (Rabs_pos (B2R (im z))).
    destruct (Rle_lt_dec (B2R r) 0) as [L|L]; auto. exfalso. assert (Z1' : B2R (re z) = 0%R) by (destruct (Req_dec (B2R (re z)) 0); auto; pose proof (Rabs_pos_lt _ H2); lra).
    assert (Z2' : B2R (im z) = 0%R) by (destruct (Req_dec (B2R (im z)) 0); auto; pose proof (Rabs_pos_lt _ H2); lra). rewrite Z1', Z2' in N. lra. }
  destruct (div_le_1 _ _ F1 F P A) as [D1 D2]. destruct (div_le_1 _ _ F2 F P B) as [D3 D4].
  exists (mkC (Bdiv mode_NE (re z) r) (Bdiv mode_NE (im z) r)). cbn [re im]. split; [|auto]. unfold cartesian_div_scalar. rewrite EZ. cbn [bind]. rewrite NE, EC. reflexivity.
Qed.
End Float.

(** ** at most the sum of the parts *)
Section Triangle.
Context {prec emax : Z} {Hp : Prec_gt_0 prec} {He : Prec_lt_emax prec emax}.
Notation float := (binary_float prec emax).
Notation fexp := (SpecFloat.fexp prec emax).
Notation rnd := (round radix2 fexp ZnearestE).
Notation ep := (bpow radix2 (- prec)).
Hypothesis (P24 : 24 <= prec) (E40 : 40 <= emax).
Let Vx : Valid_exp fexp := fexp_correct prec emax Hp.

(** adding less than half an ulp does not raise a positive number *)
Lemma absorb : forall X Y, generic_format radix2 fexp X -> (bpow radix2 (2 - emax) <= X -> 0 <= Y <= / 2 * ep * X -> rnd (X + Y) <= X)%R.
Proof using Vx.
  intros X Y FX N Y1. assert (X0 : (0 < X)%R) by (eapply Rlt_le_trans; [apply bpow_gt_0|exact N]).
  apply round_N_le_midp; auto. rewrite succ_eq_pos by lra.
  assert (UL : (ep * X < Ulp.ulp radix2 fexp X)%R).
  { rewrite ulp_neq_0 by lra. unfold cexp. destruct (Raux.mag radix2 X) as [e K]. cbn [mag_val]. rewrite Rabs_pos_eq in K by lra. specialize (K ltac:(lra)).
    apply Rlt_le_trans with (bpow radix2 (e - prec)); [|apply bpow_le; unfold SpecFloat.fexp; lia]. replace (e - prec) with (- prec + e) by ring. rewrite bpow_plus. apply Rmult_lt_compat_l; [apply bpow_gt_0|apply K]. }
  lra.
Qed.
(** the first part dominates *)
Lemma mag_sum_le : forall m fuel (z : Cartesian float) sq, (forall x, sq x = Bsqrt mode_NE x) ->
  forall k, 2 * k + 1 < emax -> is_finite (re z) = true -> is_finite (im z) = true ->
  (Rabs (B2R (im z)) <= Rabs (B2R (re z)))%R -> (bpow radix2 (13 - emax) <= B2R (re z) * B2R (re z))%R -> (Rabs (B2R (re z)) <= bpow radix2 k)%R ->
  exists r, float_mag m sq fuel z = Ok r /\ is_finite r = true /\ (B2R r <= rnd (Rabs (B2R (re z)) + Rabs (B2R (im z))))%R.
Proof using P24 E40 Vx.
  intros m fuel z sq SQ k K F1 F2 LE N U. pose proof (@ep_small prec P24) as EP. set (x := Rabs (B2R (re z))) in *. set (y := Rabs (B2R (im z))) in *.
  assert (XX : (B2R (re z) * B2R (re z) = x * x)%R) by (unfold x, Rabs; destruct (Rcase_abs _); ring). assert (YY : (B2R (im z) * B2R (im z) = y * y)%R) by (unfold y, Rabs; destruct (Rcase_abs _); ring).
  rewrite XX in N. assert (X0 : (0 <= x)%R) by apply Rabs_pos. assert (Y0 : (0 <= y)%R) by apply Rabs_pos.
  assert (NX : (0 < x * x)%R) by (eapply Rlt_le_trans; [apply bpow_gt_0|exact N]). assert (XP : (0 < x)%R) by nra.
  assert (MX : Rmax x y = x) by (apply Rmax_left; auto).
  destruct (float_mag_acc (prec := prec) (emax := emax) P24 E40 m fuel z sq SQ k K F1 F2) as (r & Er & Fr & Ar); [fold x y; rewrite MX; exact N|fold x y; rewrite MX; exact U|].
  rewrite XX, YY in Ar. exists r. split; [exact Er|]. split; [exact Fr|].
  destruct (Rle_lt_dec (16 * ep * x) y) as [C|C].
  - set (n := (x * x + y * y)%R) in *. assert (SN : (sqrt n <= x + y / 2)%R).
    { rewrite <- (sqrt_square (x + y / 2)) by lra. apply sqrt_le_1; unfold n; nra. }
    assert (S0 : (0 <= sqrt n)%R) by apply sqrt_pos. apply Rabs_le_inv in Ar.
    assert (NS : (Rabs (rnd (x + y) - (x + y)) <= ep * Rabs (x + y))%R).
    { apply (rnd_norm (prec := prec) (emax := emax)). rewrite Rabs_pos_eq by lra. apply Rle_trans with x; [|lra]. apply Rsqr_incr_0_var; auto. unfold Rsqr. apply Rle_trans with (2 := N). rewrite <- bpow_plus. apply bpow_le. lia. }
    rewrite (Rabs_pos_eq (x + y)) in NS by lra. apply Rabs_le_inv in NS.
    assert (ep * sqrt n <= ep * (x + y / 2))%R by (apply Rmult_le_compat_l; lra). assert (ep * y <= ep * x)%R by (apply Rmult_le_compat_l; lra). lra.
  - assert (Rx : (B2R r <= x)%R).
    2:{ apply Rle_trans with (1 := Rx). apply round_ge_generic; auto; [apply valid_rnd_N|unfold x; apply generic_format_abs, generic_format_B2R|lra]. }
    rewrite float_mag_eq in Er. injection Er as Er. rewrite SQ in Er. rewrite <- Er in Fr |- *. pose proof (sqrt_fin _ Fr) as Fp. destruct (plus_fin _ _ Fp) as [Fa Fb].
    destruct (sqrt_nonneg _ Fp (plus_sign _ _ Fp (sq_sign _ Fa) (sq_sign _ Fb))) as (_ & _ & VS). rewrite VS. clear VS.
    pose proof (plus_val _ _ Fp) as VP. pose proof (mult_fin _ _ Fa) as VA. pose proof (mult_fin _ _ Fb) as VB. rewrite XX in VA. rewrite YY in VB.
    assert (N2 : (bpow radix2 (2 - emax) <= B2R (re z) * B2R (re z))%R) by (rewrite XX; apply Rle_trans with (2 := N); apply bpow_le; lia).
    destruct (root_sq (prec := prec) (emax := emax) ltac:(lia) ltac:(lia) (re z) F1 Fa N2) as (RS & _ & AP). apply (f_equal B2R) in RS. rewrite B2R_Babs in RS. fold x in RS.
    destruct (sqrt_nonneg _ Fa (sq_sign _ Fa)) as (_ & _ & VR). rewrite RS in VR. rewrite VR.
    apply round_le; auto; [apply valid_rnd_N|]. rewrite VP.
    set (X := B2R (Bmult mode_NE (re z) (re z))) in *. set (Y := B2R (Bmult mode_NE (im z) (im z))) in *.
    assert (EX : (Rabs (X - x * x) <= ep * (x * x))%R). { rewrite VA. rewrite <- (Rabs_pos_eq (x * x)) at 3 by lra. apply (rnd_norm (prec := prec) (emax := emax)). rewrite <- XX at 1. rewrite Rabs_pos_eq; [exact N2|rewrite XX; lra]. }
    apply Rabs_le_inv in EX.
    assert (YS : (0 <= y * y <= 256 * (ep * ep) * (x * x))%R) by (split; [apply Rle_0_sqr|replace (256 * (ep * ep) * (x * x))%R with ((16 * ep * x) * (16 * ep * x))%R by ring; apply Rmult_le_compat; lra]).
    pose proof (@rnd_rel prec emax Hp (y * y)) as EY. rewrite <- VB in EY. rewrite (Rabs_pos_eq (y * y)) in EY by lra.
    assert (TH : (bpow radix2 (3 - emax - prec) <= / 1000 * ep * (x * x))%R).
    { replace (3 - emax - prec) with (- prec + ((13 - emax) + -10)) by ring. rewrite !bpow_plus. change (bpow radix2 (-10)) with (/ 1024)%R. replace (/ 1000 * ep * (x * x))%R with (ep * (/ 1000 * (x * x)))%R by ring. apply Rmult_le_compat_l; lra. }
    assert (PP : (256 * (ep * ep) * (x * x) <= / 1000 * ep * (x * x))%R) by (apply Rmult_le_compat_r; [lra|nra]).
    assert (EX0 : (0 < ep * (x * x) <= / 1000000 * (x * x))%R) by (split; [apply Rmult_lt_0_compat; lra|apply Rmult_le_compat_r; lra]).
    assert (EYY : (ep * (y * y) <= y * y)%R) by (rewrite <- (Rmult_1_l (y * y)) at 2; apply Rmult_le_compat_r; lra). apply Rabs_le_inv in EY.
    assert (YN : (0 <= Y)%R) by (rewrite VB; apply round_ge_generic; auto; [apply valid_rnd_N|apply generic_format_0|lra]).
    apply sqrt_le_1; [apply round_ge_generic; auto; [apply valid_rnd_N|apply generic_format_0|lra]|lra|].
    apply absorb; [unfold X; apply generic_format_B2R| |].
    + apply Rle_trans with (x * x / 2)%R; [|lra]. replace (13 - emax) with ((2 - emax) + 11) in N by ring. rewrite bpow_plus in N. change (bpow radix2 11) with 2048%R in N. pose proof (bpow_gt_0 radix2 (2 - emax)). lra.
    + split; [exact YN|]. assert (EXX : (ep * (x * x) <= 2 * (ep * X))%R). { replace (2 * (ep * X))%R with (ep * (2 * X))%R by ring. apply Rmult_le_compat_l; lra. } lra.
Qed.
Lemma mag_triangle : forall m fuel (z : Cartesian float) sq, (forall x, sq x = Bsqrt mode_NE x) ->
  forall k, 2 * k + 1 < emax -> is_finite (re z) = true -> is_finite (im z) = true ->
  let M := Rmax (Rabs (B2R (re z))) (Rabs (B2R (im z))) in
  (bpow radix2 (13 - emax) <= M * M)%R -> (M <= bpow radix2 k)%R ->
  exists r s, float_mag m sq fuel z = Ok r /\ is_finite r = true /\ o_add float_ops (Babs (re z)) (Babs (im z)) = Ok s /\ is_finite s = true /\ (B2R r <= B2R s)%R.
Proof using P24 E40 Vx.
  intros m fuel z sq SQ k K F1 F2 M N U.
  assert (FS : is_finite (Bplus mode_NE (Babs (re z)) (Babs (im z))) = true /\ B2R (Bplus mode_NE (Babs (re z)) (Babs (im z))) = rnd (Rabs (B2R (re z)) + Rabs (B2R (im z)))).
  { rewrite <- !B2R_Babs. pose proof (Rmax_l (Rabs (B2R (re z))) (Rabs (B2R (im z)))). pose proof (Rmax_r (Rabs (B2R (re z))) (Rabs (B2R (im z)))). fold M in H, H0.
    assert (KL : 13 - emax <= k + k) by (apply (le_bpow radix2); rewrite bpow_plus; apply Rle_trans with (1 := N); apply Rmult_le_compat; auto; eapply Rle_trans; [apply Rabs_pos|exact H|apply Rabs_pos|exact H]).
    apply plus_r with (e := k + 1); auto; try (rewrite is_finite_Babs; auto); [lia|]. rewrite !B2R_Babs, Rabs_pos_eq by (pose proof (Rabs_pos (B2R (re z))); pose proof (Rabs_pos (B2R (im z))); lra).
    rewrite bpow_plus. change (bpow radix2 1) with 2%R. lra. }
  destruct FS as [FS VS].
  destruct (Rle_lt_dec (Rabs (B2R (im z))) (Rabs (B2R (re z)))) as [L|L].
  - assert (ME : M = Rabs (B2R (re z))) by (unfold M; apply Rmax_left; auto). rewrite ME in N, U. rewrite <- Rabs_mult, Rabs_pos_eq in N by apply Rle_0_sqr.
    destruct (mag_sum_le m fuel z sq SQ k K F1 F2 L N U) as (r & Er & Fr & A). exists r. eexists. split; [exact Er|]. split; [exact Fr|]. split; [reflexivity|]. rewrite VS. auto.
  - assert (ME : M = Rabs (B2R (im z))) by (unfold M; apply Rmax_right; lra). rewrite ME in N, U. rewrite <- Rabs_mult, Rabs_pos_eq in N by apply Rle_0_sqr.
    destruct (mag_sum_le m fuel (mkC (im z) (re z)) sq SQ k K F2 F1 ltac:(cbn [re im]; lra) N U) as (r & Er & Fr & A). exists r. eexists. cbn [re im] in A.
    destruct (float_mag_sym m sq fuel z) as [_ SY]. rewrite SY in Er. split; [exact Er|]. split; [exact Fr|]. split; [reflexivity|]. rewrite VS, Rplus_comm. auto.
Qed.
End Triangle.

(** converting a float to its own type changes nothing *)
Lemma own_type : forall {p e : Z} {Hp : Prec_gt_0 p} {He : Prec_lt_emax p e} (x : binary_float p e), float_of_float p e x = x.
Proof.
  intros p e Hp He [| | |s mm ee B]; try reflexivity. unfold float_of_float. set (x := B754_finite s mm ee B).
  pose proof (binary_normalize_correct p e Hp He mode_NE (cond_Zopp s (Zpos mm)) ee s) as K.
  cbv zeta in K. assert (V : B2R x = F2R (Float radix2 (cond_Zopp s (Zpos mm)) ee)) by reflexivity. rewrite <- V in K.
  rewrite round_generic in K; [|apply valid_rnd_round_mode|apply generic_format_B2R]. rewrite Rlt_bool_true in K by apply abs_B2R_lt_emax.
  destruct K as (K1 & K2 & K3). apply B2R_Bsign_inj; auto. rewrite K3. cbn [Bsign x].
  assert (NZ : B2R x <> 0%R) by (destruct s; cbn; [apply Rlt_not_eq, F2R_lt_0; cbn; lia|apply Rgt_not_eq, F2R_gt_0; cbn; lia]).
  destruct s; [rewrite Rcompare_Lt; auto; apply F2R_lt_0; cbn; lia|rewrite Rcompare_Gt; auto; apply F2R_gt_0; cbn; lia].
Qed.
Lemma normalise_float : forall {p e : Z} {Hp : Prec_gt_0 p} {He : Prec_lt_emax p e}, 2 <= p -> 3 <= e ->
  forall m fuel sq, (forall x : binary_float p e, sq x = Bsqrt mode_NE x) -> forall z r, is_finite (re z) = true -> is_finite (im z) = true ->
  float_mag m sq fuel z = Ok r -> is_finite r = true -> (bpow radix2 (2 - e) <= B2R (re z) * B2R (re z) \/ bpow radix2 (2 - e) <= B2R (im z) * B2R (im z))%R ->
  exists n, cartesian_div_scalar float_ops float_ops (float_conv_float p e) float_zero float_real z r = Ok n /\
  is_finite (re n) = true /\ is_finite (im n) = true /\ (Rabs (B2R (re n)) <= 1)%R /\ (Rabs (B2R (im n)) <= 1)%R.
Proof.
  intros p e Hp He P2 E3 m fuel sq SQ z r F1 F2 E F N. apply (normalise P2 E3 m fuel sq SQ) with (r := r) (x0 := B754_zero false); auto.
  - cbn [mixed_from_num float_conv_float]. rewrite own_type. reflexivity.
  - assert (NZ : B2R r <> 0%R). 2:{ unfold o_eq. cbn [o_cmp float_ops]. rewrite Bcompare_correct by auto. cbn [B2R]. destruct (Rcompare_spec (B2R r) 0); auto. contradiction. }
    destruct (mag_parts (prec := p) (emax := e) P2 E3 m fuel sq SQ z r F1 F2 E F N) as [A B]. intros Z0. rewrite Z0 in A, B. pose proof (bpow_gt_0 radix2 (2 - e)).
    pose proof (Rabs_pos (B2R (re z))). pose proof (Rabs_pos (B2R (im z))). assert (SQR : forall v, (v * v = Rabs v * Rabs v)%R) by (intros; unfold Rabs; destruct (Rcase_abs _); ring). rewrite (SQR (B2R (re z))), (SQR (B2R (im z))) in N.
    replace (Rabs (B2R (re z))) with 0%R in N by lra. replace (Rabs (B2R (im z))) with 0%R in N by lra. lra.
Qed.
