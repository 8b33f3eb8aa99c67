(** * Properties C40, C59, C60, C92: the magnitude of a complex number. *)

From Coq Require Import ZArith Reals List.
From Flocq Require Import Core.Core IEEE754.BinarySingleNaN.
From Verif Require Import Base FloatBase Traits Trig IntImpl FixedPrim FixedImpl FloatImpl Complex Spec MagProofs MagIff.
Open Scope Z_scope.

(** C40, the ways to ask for the magnitude agree on every component type. *)
Theorem C40_same_everywhere : forall T (O : MixedOps T) (Q : MixedSqrt T) (W : MixedPowi T) z,
  cartesian_abs O Q W z = cartesian_mag O Q W z /\ ops_abs O Q W z = cartesian_mag O Q W z /\
  (forall A p, cartesian_to_polar O Q W A z = Ok p -> cartesian_mag O Q W z = Ok (mag p)) /\
  (forall Z0 c, cartesian_mixed_abs O Q W Z0 z = Ok c -> cartesian_mag O Q W z = Ok (re c) /\ mixed_zero Z0 = Ok (im c)).
Proof. exact mag_generic. Qed.
Print Assumptions C40_same_everywhere.
(** C40, symmetry.  Equality of results includes panics. *)
Theorem C40_symmetric_fixed : forall m f fuel z, supported f = true -> fsigned f = true -> cvalid (fity f) z ->
  let mg := cartesian_mag (fixed_ops m f) (fixed_sqrt m f fuel) (fixed_powi m f) in
  (forall c, cartesian_conj (fixed_signed m f) z = Ok c -> mg c = mg z) /\ mg (mkC (im z) (re z)) = mg z.
Proof. exact fixed_mag_sym. Qed.
Print Assumptions C40_symmetric_fixed.
Theorem C40_symmetric_float : forall p e {Hp : Prec_gt_0 p} {He : Prec_lt_emax p e} m libm_sqrt fuel (z : Cartesian (binary_float p e)),
  let mg := cartesian_mag float_ops (float_sqrt m libm_sqrt fuel) float_powi in
  (forall c, cartesian_conj float_signed z = Ok c -> mg c = mg z) /\ mg (mkC (im z) (re z)) = mg z.
Proof. exact @float_mag_sym. Qed.
Print Assumptions C40_symmetric_float.
(** C40, accuracy.  Each square loses up to an ulp, hence the square root of two ulps. *)
Theorem C40_accuracy_fixed : forall m f z, supported f = true -> fsigned f = true -> 2 <= ffrac f <= fwidth f - 4 ->
  let n := (fval f (re z) * fval f (re z) + fval f (im z) * fval f (im z))%R in
  (n <= fval f (fmax f))%R ->
  exists r, returns (fun fuel => cartesian_mag (fixed_ops m f) (fixed_sqrt m f fuel) (fixed_powi m f) z) r /\
    (Rabs (fval f r - sqrt n) <= (/ 1000 + 5 * ulp f) * sqrt n + 3 * ulp f + sqrt (2 * ulp f))%R.
Proof. exact fixed_mag_acc. Qed.
Print Assumptions C40_accuracy_fixed.
(** C40, squares that do not fit: a debug panic. *)
Theorem C40_overflow_fixed : forall f fuel z, supported f = true -> fsigned f = true -> fvalid f (re z) -> fvalid f (im z) ->
  (fval f (fmax f) + 2 * ulp f < fval f (re z) * fval f (re z) + fval f (im z) * fval f (im z))%R ->
  cartesian_mag (fixed_ops Debug f) (fixed_sqrt Debug f fuel) (fixed_powi Debug f) z = Panic POverflow.
Proof. exact fixed_mag_over. Qed.
Print Assumptions C40_overflow_fixed.
Theorem C40_zero_fixed : forall m f fuel, supported f = true ->
  cartesian_mag (fixed_ops m f) (fixed_sqrt m f fuel) (fixed_powi m f) (mkC 0 0) = Ok 0.
Proof. exact fixed_mag_zero. Qed.
Print Assumptions C40_zero_fixed.
(** (3,4), (4,3) and (3,-4) in FixedI32<U22>: 4.9975; (20,20) in FixedI32<U22>: 800 > 512 overflows *)
Example C40_ex : let f := mkFty true 32 22 in
  let mg := fun z => cartesian_mag (fixed_ops Debug f) (fixed_sqrt Debug f 60) (fixed_powi Debug f) z in
  mg (mkC (3 * 2 ^ 22) (4 * 2 ^ 22)) = Ok 20961120 /\ mg (mkC (4 * 2 ^ 22) (3 * 2 ^ 22)) = Ok 20961120 /\
  mg (mkC (3 * 2 ^ 22) (- 4 * 2 ^ 22)) = Ok 20961120 /\ mg (mkC (20 * 2 ^ 22) (20 * 2 ^ 22)) = Panic POverflow.
Proof. repeat split; vm_compute; reflexivity. Qed.

(** C59.  The square root of the platform is assumed correctly rounded.
    The region is 2^-57.5..2^63 for f32 and 2^-505.5..2^511 for f64. *)
Theorem C59_accuracy_float : forall p e {Hp : Prec_gt_0 p} {He : Prec_lt_emax p e}, 24 <= p -> 40 <= e ->
  forall m fuel (z : Cartesian (binary_float p e)) libm_sqrt, (forall x, libm_sqrt x = Bsqrt mode_NE x) ->
  forall k, 2 * k + 1 < e -> is_finite (re z) = true -> is_finite (im z) = true ->
  let M := Rmax (Rabs (B2R (re z))) (Rabs (B2R (im z))) in
  (bpow radix2 (13 - e) <= M * M)%R -> (M <= bpow radix2 k)%R ->
  let n := (B2R (re z) * B2R (re z) + B2R (im z) * B2R (im z))%R in
  exists r, cartesian_mag float_ops (float_sqrt m libm_sqrt fuel) float_powi z = Ok r /\ is_finite r = true /\
    (Rabs (B2R r - sqrt n) <= 9 / 4 * bpow radix2 (- p) * sqrt n)%R.
Proof. exact @float_mag_acc. Qed.
Print Assumptions C59_accuracy_float.
Example C59_ex : match cartesian_mag (float_ops (prec := 24) (emax := 128)) (float_sqrt Debug (Bsqrt mode_NE) 1) float_powi (mkC (float_of_Z 24 128 3) (float_of_Z 24 128 4)) with
  | Ok r => B2SF r = B2SF (float_of_Z 24 128 5) | _ => False end /\
  match cartesian_mag (float_ops (prec := 24) (emax := 128)) (float_sqrt Debug (Bsqrt mode_NE) 1) float_powi (mkC (float_of_Z 24 128 1) (float_of_Z 24 128 1)) with
  | Ok r => B2SF r = SpecFloat.S754_finite false 11863283 (-23) | _ => False end.
Proof. split; vm_compute; reflexivity. Qed.

(** C60 is false.  Floats: components from 2^(emax/2) up give infinity (2^64 for f32, 2^512 for f64)
    although |z| itself is a representable number, and small ones (2^-76, 2^-538 and below) give zero. *)
Theorem C60_float_overflow_refuted : forall p e {Hp : Prec_gt_0 p} {He : Prec_lt_emax p e}, 24 <= p -> 40 <= e ->
  forall m fuel (z : Cartesian (binary_float p e)) libm_sqrt, (forall x, libm_sqrt x = Bsqrt mode_NE x) ->
  is_finite (re z) = true -> is_finite (im z) = true ->
  (bpow radix2 e <= B2R (re z) * B2R (re z) \/ bpow radix2 e <= B2R (im z) * B2R (im z))%R ->
  cartesian_mag float_ops (float_sqrt m libm_sqrt fuel) float_powi z = Ok (B754_infinity false).
Proof. exact @float_mag_over. Qed.
Print Assumptions C60_float_overflow_refuted.
Theorem C60_float_underflow_refuted : forall p e {Hp : Prec_gt_0 p} {He : Prec_lt_emax p e}, 24 <= p -> 40 <= e ->
  forall m fuel (z : Cartesian (binary_float p e)) libm_sqrt, (forall x, libm_sqrt x = Bsqrt mode_NE x) ->
  is_finite (re z) = true -> is_finite (im z) = true ->
  (B2R (re z) * B2R (re z) <= bpow radix2 (1 - e - p))%R -> (B2R (im z) * B2R (im z) <= bpow radix2 (1 - e - p))%R ->
  cartesian_mag float_ops (float_sqrt m libm_sqrt fuel) float_powi z = Ok (B754_zero false).
Proof. exact @float_mag_under. Qed.
Print Assumptions C60_float_underflow_refuted.
(** the magnitude of 2^64 + 0i and of 2^-76 + 0i as f32 *)
Example C60_float_ex :
  match cartesian_mag (float_ops (prec := 24) (emax := 128)) (float_sqrt Debug (Bsqrt mode_NE) 1) float_powi (mkC (float_of_scaled 24 128 1 64) (B754_zero false)) with
  | Ok r => B2SF r = SpecFloat.S754_infinity false | _ => False end /\
  match cartesian_mag (float_ops (prec := 24) (emax := 128)) (float_sqrt Debug (Bsqrt mode_NE) 1) float_powi (mkC (float_of_scaled 24 128 1 (-76)) (B754_zero false)) with
  | Ok r => B2SF r = SpecFloat.S754_zero false | _ => False end.
Proof. split; vm_compute; reflexivity. Qed.
(** Fixed types: components below the square root of an ulp vanish. *)
Theorem C60_fixed_underflow_refuted : forall m f fuel z, supported f = true -> re z * re z < 2 ^ ffrac f -> im z * im z < 2 ^ ffrac f ->
  cartesian_mag (fixed_ops m f) (fixed_sqrt m f fuel) (fixed_powi m f) z = Ok 0.
Proof. exact fixed_mag_under. Qed.
Print Assumptions C60_fixed_underflow_refuted.
(** 255 units of FixedI32<U16>, i.e. 0.0039 *)
Example C60_fixed_ex : supported (mkFty true 32 16) = true /\ 255 * 255 < 2 ^ ffrac (mkFty true 32 16) /\
  cartesian_mag (fixed_ops Debug (mkFty true 32 16)) (fixed_sqrt Debug (mkFty true 32 16) 60) (fixed_powi Debug (mkFty true 32 16)) (mkC 255 (-255)) = Ok 0 /\
  cartesian_mag (fixed_ops Debug (mkFty true 32 16)) (fixed_sqrt Debug (mkFty true 32 16) 60) (fixed_powi Debug (mkFty true 32 16)) (mkC 256 0) = Ok 256.
Proof. repeat split; vm_compute; reflexivity. Qed.

(** The exact thresholds of C60 on floats: infinite exactly when the rounded squares add up to 2^128 - 2^103
    (2^1024 - 2^970) or more, zero exactly when neither square exceeds half the least subnormal. *)
Theorem C60_float_iff_f32_partial : forall m fuel (z : Cartesian f32) libm_sqrt, (forall x, libm_sqrt x = Bsqrt mode_NE x) ->
  is_finite (re z) = true -> is_finite (im z) = true ->
  let a2 := (B2R (re z) * B2R (re z))%R in let b2 := (B2R (im z) * B2R (im z))%R in
  let rnd := round radix2 (FLT_exp (-149) 24) ZnearestE in
  exists r, cartesian_mag float_ops (float_sqrt m libm_sqrt fuel) float_powi z = Ok r /\ is_nan r = false /\ Bsign r = false /\
  (is_finite r = false <-> (bpow radix2 128 - bpow radix2 103 <= rnd a2 + rnd b2)%R) /\
  (is_finite r = true /\ B2R r = 0%R <-> (a2 <= bpow radix2 (-150) /\ b2 <= bpow radix2 (-150))%R).
Proof. exact mag_iff_f32. Qed.
Print Assumptions C60_float_iff_f32_partial.
Theorem C60_float_iff_f64_partial : forall m fuel (z : Cartesian f64) libm_sqrt, (forall x, libm_sqrt x = Bsqrt mode_NE x) ->
  is_finite (re z) = true -> is_finite (im z) = true ->
  let a2 := (B2R (re z) * B2R (re z))%R in let b2 := (B2R (im z) * B2R (im z))%R in
  let rnd := round radix2 (FLT_exp (-1074) 53) ZnearestE in
  exists r, cartesian_mag float_ops (float_sqrt m libm_sqrt fuel) float_powi z = Ok r /\ is_nan r = false /\ Bsign r = false /\
  (is_finite r = false <-> (bpow radix2 1024 - bpow radix2 970 <= rnd a2 + rnd b2)%R) /\
  (is_finite r = true /\ B2R r = 0%R <-> (a2 <= bpow radix2 (-1075) /\ b2 <= bpow radix2 (-1075))%R).
Proof. exact mag_iff_f64. Qed.
Print Assumptions C60_float_iff_f64_partial.
(** the largest f32 below 2^64 still has a finite magnitude; 2^-75 gives zero and the next float does not *)
Notation mag32 z := (map_res B2SF (cartesian_mag (float_ops (prec := 24) (emax := 128)) (float_sqrt Debug (Bsqrt mode_NE) 1) float_powi z)).
Example C60_iff_ex :
  mag32 (mkC (float_of_scaled 24 128 16777215 40) (B754_zero false)) = Ok (SpecFloat.S754_finite false 16777215 40) /\
  mag32 (mkC (float_of_scaled 24 128 1 (-75)) (B754_zero true)) = Ok (SpecFloat.S754_zero false) /\
  mag32 (mkC (float_of_scaled 24 128 8388609 (-98)) (B754_zero true)) = Ok (SpecFloat.S754_finite false 11863283 (-98)).
Proof. repeat split; vm_compute; reflexivity. Qed.

(** C92.  NaN exactly when a part is NaN, never negative, +inf when a part is infinite and none is NaN. *)
Theorem C92_mag_special : forall p e {Hp : Prec_gt_0 p} {He : Prec_lt_emax p e} m fuel (z : Cartesian (binary_float p e)) libm_sqrt,
  (forall x, libm_sqrt x = Bsqrt mode_NE x) ->
  exists r, cartesian_mag float_ops (float_sqrt m libm_sqrt fuel) float_powi z = Ok r /\
  (is_nan r = true <-> is_nan (re z) = true \/ is_nan (im z) = true) /\ (is_nan r = false -> Bsign r = false) /\
  (is_nan (re z) = false -> is_nan (im z) = false -> is_finite (re z) = false \/ is_finite (im z) = false -> r = B754_infinity false).
Proof. exact @mag_special. Qed.
Print Assumptions C92_mag_special.
Example C92_ex : mag32 (mkC (B754_infinity true) (float_of_Z 24 128 (-3))) = Ok (SpecFloat.S754_infinity false) /\
  mag32 (mkC (B754_infinity true) B754_nan) = Ok SpecFloat.S754_nan.
Proof. split; vm_compute; reflexivity. Qed.
