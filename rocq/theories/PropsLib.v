(** * Property C138: the crate's own approximations beside the library routines they stand in for.

    The library routines (cordic, libm) are parameters; what is known of the one call that is compared is its error.
    [is_angle y x th] of SpecAngle: [th] in (-pi, pi] is the polar angle of the point (x, y). *)

From Coq Require Import ZArith Reals.
From Flocq Require Import Core.Core IEEE754.BinarySingleNaN.
From Verif Require Import Base FloatBase Literals Traits Trig IntImpl FixedPrim FixedImpl FloatImpl Spec SpecAngle LibProofs.
Open Scope Z_scope.

(** [mixed_atan2_poly] beside [mixed_atan2], fixed point.  [M] is the larger magnitude of the two coordinates. *)
Theorem C138_atan2_fixed : forall m f, supported f = true -> fsigned f = true -> forall ca ca2 e y x th a,
  let A := fixed_atan m f ca ca2 in let M := Rmax (Rabs (fval f x)) (Rabs (fval f y)) in
  (16 * ulp f <= M * M)%R -> (3 / 2 * (M * M) <= fval f (fmax f))%R -> is_angle (fval f y) (fval f x) th ->
  ca2 y x = Ok a -> (Rabs (fval f a - th) <= e)%R ->
  exists p, mixed_atan2_poly A y x = Ok p /\ mixed_atan2 A y x = Ok a /\
  (Rabs (fval f p - fval f a) <= 492 / 100000 + (3 + 5 / (M * M)) * ulp f + e)%R.
Proof. exact atan2_beside. Qed.
Print Assumptions C138_atan2_fixed.

(** The same on floats. *)
Theorem C138_atan2_f32 : forall (la : f32 -> f32) la2 d y x th, let A := float_atan la la2 in
  is_finite y = true -> is_finite x = true ->
  (bpow radix2 (-61) <= Rmax (Rabs (B2R x)) (Rabs (B2R y)) <= bpow radix2 61)%R -> is_angle (B2R y) (B2R x) th ->
  (Rabs (B2R (la2 y x) - th) <= d)%R ->
  exists r, mixed_atan2_poly A y x = Ok r /\ mixed_atan2 A y x = Ok (la2 y x) /\ is_finite r = true /\ (Rabs (B2R r - B2R (la2 y x)) <= 492 / 100000 + d)%R.
Proof. exact (proj1 sides_f32). Qed.
Print Assumptions C138_atan2_f32.
Theorem C138_atan2_f64 : forall (la : f64 -> f64) la2 d y x th, let A := float_atan la la2 in
  is_finite y = true -> is_finite x = true ->
  (bpow radix2 (-509) <= Rmax (Rabs (B2R x)) (Rabs (B2R y)) <= bpow radix2 509)%R -> is_angle (B2R y) (B2R x) th ->
  (Rabs (B2R (la2 y x) - th) <= d)%R ->
  exists r, mixed_atan2_poly A y x = Ok r /\ mixed_atan2 A y x = Ok (la2 y x) /\ is_finite r = true /\ (Rabs (B2R r - B2R (la2 y x)) <= 492 / 100000 + d)%R.
Proof. exact (proj1 sides_f64). Qed.
Print Assumptions C138_atan2_f64.

(** The cut: for y = -0.0 and a negative x (-0.0 included) the C library answers -pi, the polynomial +pi: a whole turn apart.
    For y = +0.0 both answer +pi. *)
Theorem C138_cut_f32 : forall (la : f32 -> f32) la2 d x s, is_finite x = true -> Bsign x = true ->
  (Rabs (B2R (la2 (B754_zero s) x) - (if s then - PI else PI)) <= d)%R ->
  exists r, mixed_atan2_poly (float_atan la la2) (B754_zero s) x = Ok r /\ mixed_atan2 (float_atan la la2) (B754_zero s) x = Ok (la2 (B754_zero s) x) /\
  (if s then 628 / 100 <= B2R r - B2R (la2 (B754_zero s) x) + d else Rabs (B2R r - B2R (la2 (B754_zero s) x)) <= d + / 1000000)%R.
Proof. exact cut_f32. Qed.
Print Assumptions C138_cut_f32.
Theorem C138_cut_f64 : forall (la : f64 -> f64) la2 d x s, is_finite x = true -> Bsign x = true ->
  (Rabs (B2R (la2 (B754_zero s) x) - (if s then - PI else PI)) <= d)%R ->
  exists r, mixed_atan2_poly (float_atan la la2) (B754_zero s) x = Ok r /\ mixed_atan2 (float_atan la la2) (B754_zero s) x = Ok (la2 (B754_zero s) x) /\
  (if s then 628 / 100 <= B2R r - B2R (la2 (B754_zero s) x) + d else Rabs (B2R r - B2R (la2 (B754_zero s) x)) <= d + / 1000000)%R.
Proof. exact cut_f64. Qed.
Print Assumptions C138_cut_f64.

(** The polynomial [sin::sin] beside [mixed_sin]. *)
Theorem C138_sin_fixed : forall m f, supported f = true -> fsigned f = true -> ffrac f <= fwidth f - 20 ->
  forall Sn d x s, (Rabs (fval f x) <= PI)%R -> mixed_sin Sn x = Ok s -> (Rabs (fval f s - Rtrigo_def.sin (fval f x)) <= d)%R ->
  exists r, Trig.sin (fixed_ops m f) (fixed_signed m f) (fixed_pi m f) (fixed_powi m f) x = Ok r /\
  (Rabs (fval f r - fval f s) <= 362 / 100000000 + 405 / 100 * ulp f + d)%R.
Proof. exact sin_beside. Qed.
Print Assumptions C138_sin_fixed.
Theorem C138_sin_f32 : forall (Sn : MixedSin f32) d x s, is_finite x = true -> (Rabs (B2R x) <= PI)%R -> mixed_sin Sn x = Ok s ->
  (Rabs (B2R s - Rtrigo_def.sin (B2R x)) <= d)%R ->
  exists r, Trig.sin float_ops float_signed float_pi float_powi x = Ok r /\ is_finite r = true /\ (Rabs (B2R r - B2R s) <= 5 / 1000000 + d)%R.
Proof. exact (proj2 sides_f32). Qed.
Print Assumptions C138_sin_f32.
Theorem C138_sin_f64 : forall (Sn : MixedSin f64) d x s, is_finite x = true -> (Rabs (B2R x) <= PI)%R -> mixed_sin Sn x = Ok s ->
  (Rabs (B2R s - Rtrigo_def.sin (B2R x)) <= d)%R ->
  exists r, Trig.sin float_ops float_signed float_pi float_powi x = Ok r /\ is_finite r = true /\ (Rabs (B2R r - B2R s) <= 5 / 1000000 + d)%R.
Proof. exact (proj2 sides_f64). Qed.
Print Assumptions C138_sin_f64.

(** [mixed_niirf] beside [mixed_sqrt], the library's square root being correctly rounded.  They agree on every finite
    non-negative number, subnormals included, and part company below zero: NaN against the root of |x|. *)
Theorem C138_sqrt_f32 : forall sq, (forall x : f32, sq x = Bsqrt mode_NE x) -> forall m (x : f32), is_finite x = true ->
  exists r, returns (fun fuel => mixed_niirf (float_sqrt m sq fuel) x) r /\ is_finite r = true /\
  ((0 <= B2R x)%R -> forall fuel, exists s, mixed_sqrt (float_sqrt m sq fuel) x = Ok s /\ is_finite s = true /\ (Rabs (B2R r - B2R s) <= (/ 1000 + bpow radix2 (-24)) * sqrt (B2R x))%R) /\
  ((B2R x < 0)%R -> forall fuel, mixed_sqrt (float_sqrt m sq fuel) x = Ok B754_nan /\ (Rabs (B2R r - sqrt (- B2R x)) <= / 1000 * sqrt (- B2R x))%R).
Proof. exact sqrt_side_f32. Qed.
Print Assumptions C138_sqrt_f32.
Theorem C138_sqrt_f64 : forall sq, (forall x : f64, sq x = Bsqrt mode_NE x) -> forall m (x : f64), is_finite x = true ->
  exists r, returns (fun fuel => mixed_niirf (float_sqrt m sq fuel) x) r /\ is_finite r = true /\
  ((0 <= B2R x)%R -> forall fuel, exists s, mixed_sqrt (float_sqrt m sq fuel) x = Ok s /\ is_finite s = true /\ (Rabs (B2R r - B2R s) <= (/ 1000 + bpow radix2 (-53)) * sqrt (B2R x))%R) /\
  ((B2R x < 0)%R -> forall fuel, mixed_sqrt (float_sqrt m sq fuel) x = Ok B754_nan /\ (Rabs (B2R r - sqrt (- B2R x)) <= / 1000 * sqrt (- B2R x))%R).
Proof. exact sqrt_side_f64. Qed.
Print Assumptions C138_sqrt_f64.

(** FixedI32<U28>, (y, x) = (1, -1): the polynomial gives 631168027 / 2^28 = 2.35128; a library routine that gives
    632486143 / 2^28 = 2.35619 is compared with it.  f32, (y, x) = (-0.0, -1): the polynomial gives +pi.  sqrt(-4): NaN against 2.0015. *)
Example C138_ex : let f := mkFty true 32 28 in let A := fixed_atan Debug f (fun x => Ok x) (fun _ _ => Ok 632486143) in
  mixed_atan2_poly A (2 ^ 28) (- 2 ^ 28) = Ok 631168027 /\ mixed_atan2 A (2 ^ 28) (- 2 ^ 28) = Ok 632486143 /\
  map_res B2SF (float_atan2_poly (B754_zero true) (float_of_Z 24 128 (-1))) = Ok (SpecFloat.S754_finite false 13176795 (-22)) /\
  Bsqrt mode_NE (float_of_Z 24 128 (-4)) = B754_nan /\
  map_res B2SF (mixed_niirf (float_sqrt Debug (Bsqrt mode_NE) 99) (float_of_Z 24 128 (-4))) = Ok (SpecFloat.S754_finite false 8394916 (-22)).
Proof. repeat split; vm_compute; reflexivity. Qed.
