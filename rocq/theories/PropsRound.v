(** * Property C140: rounding floats to integers; the conversion that agrees with fixed point. *)

From Coq Require Import ZArith Reals List.
From Flocq Require Import Core.Core IEEE754.BinarySingleNaN.
From Verif Require Import Base FloatBase Traits IntImpl FixedPrim FixedImpl FloatImpl FloatRound Spec RoundProofs.
Import ListNotations.
Open Scope Z_scope.

(** [mixed_floor] rounds down (its documentation says up) and [mixed_ceil] rounds up; neither fails; NaN, infinities and both zeros stay
    themselves, and the sign bit is kept. *)
Theorem C140_floor : forall p e (He : Prec_lt_emax p e) (x : binary_float p e), exists r,
  mixed_floor float_floor x = Ok r /\ is_finite r = is_finite x /\
  (is_finite x = true -> exists n : Z, B2R r = IZR n /\ (IZR n <= B2R x < IZR n + 1)%R) /\
  (is_finite x = false \/ B2R x = 0%R -> r = x) /\ (is_nan x = false -> Bsign r = Bsign x).
Proof. exact @floor_spec. Qed.
Print Assumptions C140_floor.
Theorem C140_ceil : forall p e (He : Prec_lt_emax p e) (x : binary_float p e), exists r,
  mixed_ceil float_ceil x = Ok r /\ is_finite r = is_finite x /\
  (is_finite x = true -> exists n : Z, B2R r = IZR n /\ (IZR n - 1 < B2R x <= IZR n)%R) /\
  (is_finite x = false \/ B2R x = 0%R -> r = x) /\ (is_nan x = false -> Bsign r = Bsign x).
Proof. exact @ceil_spec. Qed.
Print Assumptions C140_ceil.
(** Each is the other on the negated number, and rounding again changes nothing. *)
Theorem C140_mirror : forall p e (He : Prec_lt_emax p e) (x : binary_float p e), exists r,
  mixed_floor float_floor x = Ok r /\ mixed_ceil float_ceil (Bopp x) = Ok (Bopp r) /\
  mixed_floor float_floor r = Ok r /\ mixed_ceil float_ceil r = Ok r.
Proof. exact @floor_ceil. Qed.
Print Assumptions C140_mirror.
(** Both keep order; they are one apart unless the number is an integer. *)
Theorem C140_order : forall p e (He : Prec_lt_emax p e) (x y : binary_float p e), is_finite x = true -> is_finite y = true -> (B2R x <= B2R y)%R ->
  exists a b c d, mixed_floor float_floor x = Ok a /\ mixed_floor float_floor y = Ok b /\ mixed_ceil float_ceil x = Ok c /\ mixed_ceil float_ceil y = Ok d /\
  (B2R a <= B2R b)%R /\ (B2R c <= B2R d)%R /\ (B2R a <= B2R x <= B2R c)%R /\ (B2R c - B2R a = if Req_EM_T (B2R a) (B2R x) then 0 else 1)%R.
Proof. exact @floor_mono. Qed.
Print Assumptions C140_order.
(** Converting a float to an integer truncates where fixed point floors (C43); through [mixed_floor] the two agree for every value
    that fits, negative ones included, and the float saturates where the fixed-point conversion overflows. *)
Theorem C140_to_int : forall p e (Hp : Prec_gt_0 p) (He : Prec_lt_emax p e) m f t a (x : binary_float p e), supported f = true -> In t int_types ->
  is_finite x = true -> B2R x = fval f a ->
  (exists r, mixed_floor float_floor x = Ok r /\
    mixed_to_num (float_conv_int t) r = Ok (Z.max (imin t) (Z.min (imax t) (Zfloor (fval f a)))) /\
    (in_range t (Zfloor (fval f a)) -> mixed_to_num (float_conv_int t) r = mixed_to_num (fixed_conv_int m f t) a)) /\
  (exists r, mixed_ceil float_ceil x = Ok r /\
    mixed_to_num (float_conv_int t) r = Ok (Z.max (imin t) (Z.min (imax t) (Zceil (fval f a))))).
Proof. exact @floor_to_int. Qed.
Print Assumptions C140_to_int.

(** -2.5: floor -3, ceil -2; as i32 through floor -3, as the fixed-point number gives, directly -2.  -0.5: ceil is -0.0. *)
Example C140_ex : let x := float_of_scaled 53 1024 (-5) (-1) in let h := float_of_scaled 24 128 (-1) (-1) in
  mixed_floor float_floor x = Ok (float_of_Z 53 1024 (-3)) /\ mixed_ceil float_ceil x = Ok (float_of_Z 53 1024 (-2)) /\
  mixed_to_num (float_conv_int i32) (float_of_Z 53 1024 (-3)) = Ok (-3) /\ mixed_to_num (float_conv_int i32) x = Ok (-2) /\
  mixed_to_num (fixed_conv_int Debug (mkFty true 32 22) i32) (- 5 * 2 ^ 21) = Ok (-3) /\
  mixed_ceil float_ceil h = Ok (B754_zero true) /\ mixed_floor float_floor h = Ok (float_of_Z 24 128 (-1)).
Proof.
  assert (K : forall p e (a b : binary_float p e), B2SF a = B2SF b -> Ok a = Ok b) by (intros; f_equal; apply B2SF_inj; auto).
  cbv zeta. cbn [mixed_floor mixed_ceil float_floor float_ceil]. repeat split; try (apply K); vm_compute; reflexivity.
Qed.
