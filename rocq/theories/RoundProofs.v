(** * Rounding floats to integers. *)

From Coq Require Import ZArith Reals Lia Lra Bool List.
From Flocq Require Import Core.Core IEEE754.BinarySingleNaN.
From Verif Require Import Base FloatBase Literals Traits Trig IntImpl FixedPrim FixedImpl FloatImpl FloatRound Spec Lemmas ScalarProofs ConvProofs.
Import ListNotations.
Open Scope Z_scope.

Section F.
Context {p e : Z} {Hp : Prec_gt_0 p} {He : Prec_lt_emax p e}.
Notation float := (binary_float p e).

Lemma round_fix0 : forall rnd x, round radix2 (FIX_exp 0) rnd x = IZR (rnd x).
Proof. intros. unfold round, F2R, scaled_mantissa, cexp, FIX_exp. cbn [Fnum Fexp]. change (bpow radix2 (- 0)) with 1%R. change (bpow radix2 0) with 1%R. rewrite !Rmult_1_r. reflexivity. Qed.

Lemma nearby : forall md (x : float), let r := Bnearbyint md x in
  is_finite r = is_finite x /\ is_nan r = is_nan x /\ B2R r = IZR (round_mode md (B2R x)) /\ (is_nan x = false -> Bsign r = Bsign x).
Proof.
  intros md x r. destruct (Bnearbyint_correct p e He md x) as (A & B & C). fold r in A, B, C. rewrite round_fix0 in A.
  assert (N : is_nan r = is_nan x). { destruct x; try reflexivity. destruct r; try reflexivity. discriminate B. }
  split; auto. split; auto. split; auto. intros Nx. apply C. congruence.
Qed.

Lemma floor_spec : forall x : float, exists r, mixed_floor float_floor x = Ok r /\ is_finite r = is_finite x /\
  (is_finite x = true -> exists n : Z, B2R r = IZR n /\ (IZR n <= B2R x < IZR n + 1)%R) /\
  (is_finite x = false \/ B2R x = 0%R -> r = x) /\ (is_nan x = false -> Bsign r = Bsign x).
Proof.
  intros x. destruct (nearby mode_DN x) as (A & N & B & C). eexists. split; [reflexivity|]. split; auto. split; [|split; auto].
  - intros F. exists (Zfloor (B2R x)). split; auto. split; [apply Zfloor_lb|apply Zfloor_ub].
  - intros [F|Z0]; destruct x as [s|s| |s m ex H]; try discriminate; try reflexivity. exfalso. revert Z0. unfold B2R. apply F2R_neq_0. destruct s; discriminate.
Qed.
Lemma ceil_spec : forall x : float, exists r, mixed_ceil float_ceil x = Ok r /\ is_finite r = is_finite x /\
  (is_finite x = true -> exists n : Z, B2R r = IZR n /\ (IZR n - 1 < B2R x <= IZR n)%R) /\
  (is_finite x = false \/ B2R x = 0%R -> r = x) /\ (is_nan x = false -> Bsign r = Bsign x).
Proof.
  intros x. destruct (nearby mode_UP x) as (A & N & B & C). eexists. split; [reflexivity|]. split; auto. split; [|split; auto].
  - intros F. exists (Zceil (B2R x)). split; auto. pose proof (Zceil_lb (B2R x)). split; [lra|apply Zceil_ub].
  - intros [F|Z0]; destruct x as [s|s| |s m ex H]; try discriminate; try reflexivity. exfalso. revert Z0. unfold B2R. apply F2R_neq_0. destruct s; discriminate.
Qed.

Lemma ext : forall x y : float, is_finite x = true -> is_finite y = true -> B2R x = B2R y -> Bsign x = Bsign y -> x = y.
Proof. intros. apply B2R_Bsign_inj; auto. Qed.
Lemma fin_nan : forall x : float, is_finite x = true -> is_nan x = false.
Proof. destruct x; auto; discriminate. Qed.

(** integers stay *)
Lemma nearby_id : forall md (x : float) n, is_finite x = true -> B2R x = IZR n -> Bnearbyint md x = x.
Proof.
  intros md x n F E. destruct (nearby md x) as (A & N & B & C). apply ext; auto; [congruence| |apply C, fin_nan, F].
  rewrite B, E. f_equal. apply (@Zrnd_IZR _ (valid_rnd_round_mode md)).
Qed.
Lemma nearby_idem : forall md md' (x : float), Bnearbyint md' (Bnearbyint md x) = Bnearbyint md x.
Proof.
  intros md md' x. destruct (nearby md x) as (A & N & B & C). destruct (is_finite x) eqn:F.
  - eapply nearby_id; eauto.
  - destruct x; try discriminate F; reflexivity.
Qed.

(** the two through each other *)
Lemma ceil_opp : forall x : float, Bnearbyint mode_UP (Bopp x) = Bopp (Bnearbyint mode_DN x).
Proof.
  intros x. destruct (is_finite x) eqn:F; [|destruct x; try discriminate F; reflexivity].
  destruct (nearby mode_DN x) as (A & N & B & C). destruct (nearby mode_UP (Bopp x)) as (A' & N' & B' & C').
  pose proof (fin_nan x F) as NX. apply ext; rewrite ?is_finite_Bopp in *; try congruence.
  - rewrite B', !B2R_Bopp, B. cbn [round_mode]. unfold Zceil. rewrite Ropp_involutive, opp_IZR. reflexivity.
  - rewrite C' by (rewrite is_nan_Bopp; auto). rewrite !Bsign_Bopp by congruence. rewrite C by auto. reflexivity.
Qed.
Lemma floor_ceil : forall x : float, exists r, mixed_floor float_floor x = Ok r /\ mixed_ceil float_ceil (Bopp x) = Ok (Bopp r) /\
  mixed_floor float_floor r = Ok r /\ mixed_ceil float_ceil r = Ok r.
Proof.
  intros x. eexists. split; [reflexivity|]. cbn [mixed_ceil mixed_floor float_ceil float_floor]. rewrite ceil_opp, !nearby_idem. auto.
Qed.

(** order *)
Lemma floor_mono : forall x y : float, is_finite x = true -> is_finite y = true -> (B2R x <= B2R y)%R ->
  exists a b c d, mixed_floor float_floor x = Ok a /\ mixed_floor float_floor y = Ok b /\ mixed_ceil float_ceil x = Ok c /\ mixed_ceil float_ceil y = Ok d /\
  (B2R a <= B2R b)%R /\ (B2R c <= B2R d)%R /\ (B2R a <= B2R x <= B2R c)%R /\ (B2R c - B2R a = if Req_EM_T (B2R a) (B2R x) then 0 else 1)%R.
Proof.
  intros x y Fx Fy L. do 4 eexists. do 4 (split; [reflexivity|]).
  destruct (nearby mode_DN x) as (_ & _ & A & _). destruct (nearby mode_DN y) as (_ & _ & B & _).
  destruct (nearby mode_UP x) as (_ & _ & C & _). destruct (nearby mode_UP y) as (_ & _ & D & _). rewrite A, B, C, D. cbn [round_mode].
  split; [apply IZR_le, Zfloor_le; auto|]. split; [apply IZR_le, Zceil_le; auto|].
  split; [split; [apply Zfloor_lb|apply Zceil_ub]|].
  destruct (Req_EM_T _ _) as [E|NE].
  - rewrite <- E at 1. rewrite Zceil_IZR. lra.
  - rewrite (Zceil_floor_neq _ NE), plus_IZR. lra.
Qed.

(** [x.mixed_floor().mixed_to_num::<t>()] against the conversion of a fixed-point number *)
Lemma floor_to_int : forall m f t a (x : float), supported f = true -> In t int_types -> is_finite x = true -> B2R x = fval f a ->
  (exists r, mixed_floor float_floor x = Ok r /\
    mixed_to_num (float_conv_int t) r = Ok (Z.max (imin t) (Z.min (imax t) (Zfloor (fval f a)))) /\
    (in_range t (Zfloor (fval f a)) -> mixed_to_num (float_conv_int t) r = mixed_to_num (fixed_conv_int m f t) a)) /\
  (exists r, mixed_ceil float_ceil x = Ok r /\
    mixed_to_num (float_conv_int t) r = Ok (Z.max (imin t) (Z.min (imax t) (Zceil (fval f a))))).
Proof.
  intros m f t a x Hf I F E.
  assert (K : forall md, mixed_to_num (float_conv_int t) (Bnearbyint md x) = Ok (Z.max (imin t) (Z.min (imax t) (round_mode md (fval f a))))).
  { intros md. destruct (nearby md x) as (A & N & B & C). destruct (int_of_float_spec p e t (Bnearbyint md x) I) as (_ & _ & _ & H).
    cbn [mixed_to_num float_conv_int]. rewrite H by congruence. rewrite B, Ztrunc_IZR, E. reflexivity. }
  split; (eexists; split; [reflexivity|]); [|apply (K mode_UP)]. split; [apply (K mode_DN)|]. intros R.
  rewrite (K mode_DN). destruct (fx_to_int_spec m f t a) as [H _]; auto. cbn [mixed_to_num fixed_conv_int]. rewrite H by auto. f_equal.
  cbn [round_mode]. unfold in_range in R. lia.
Qed.
End F.
