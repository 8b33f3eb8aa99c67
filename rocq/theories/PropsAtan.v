(** * Properties C23-C28, C55-C57: the polynomial arctangent.

    [is_angle y x th] of SpecAngle: [th] in (-pi, pi] is the polar angle of the point (x, y). *)

From Coq Require Import ZArith Reals List.
From Flocq Require Import Core.Core IEEE754.BinarySingleNaN.
From Verif Require Import Base FloatBase Literals Traits Trig IntImpl FixedPrim FixedImpl FloatImpl Spec SpecAngle
  AtanProofs AtanNan AtanDoc.
Open Scope Z_scope.

Notation fixed_atan1 m f := (Trig.atan (fixed_ops m f) (fixed_signed m f) (fixed_powi m f) (fixed_real m f)
  (fixed_zero m f) (fixed_pi m f) (fixed_abs m f) (fixed_one m f)).
Notation flt_atan1 := (Trig.atan float_ops float_signed float_powi float_real float_zero float_pi float_abs float_one).

(** C23.  [p] is the type's pi and [h] is half of it, rounded down. *)
Theorem C23_axes_fixed : forall m f, supported f = true -> fsigned f = true ->
  exists p h, mixed_pi (fixed_pi m f) = Ok p /\ 0 < p /\ 2 * h <= p <= 2 * h + 1 /\
  (forall a, fvalid f a -> m = Release \/ a <> fmin f ->
     (0 <= a -> fixed_atan2_poly m f 0 a = Ok 0) /\ (a < 0 -> fixed_atan2_poly m f 0 a = Ok p) /\
     (0 < a -> fixed_atan2_poly m f a 0 = Ok h) /\ (a < 0 -> fixed_atan2_poly m f a 0 = Ok (- h))) /\
  (m = Debug -> forall a, fvalid f a -> fixed_atan2_poly m f a (fmin f) = Panic POverflow /\ fixed_atan2_poly m f (fmin f) a = Panic POverflow).
Proof. exact c23_fixed. Qed.
Print Assumptions C23_axes_fixed.
Example C23_ex : supported (mkFty true 32 28) = true /\ mixed_pi (fixed_pi Debug (mkFty true 32 28)) = Ok 843314857 /\
  fixed_atan2_poly Debug (mkFty true 32 28) 5 0 = Ok 421657428 /\ fixed_atan2_poly Debug (mkFty true 32 28) 0 (-5) = Ok 843314857.
Proof. repeat split; vm_compute; reflexivity. Qed.

Theorem C23_axes_float : forall {prec emax : Z} {Hp : Prec_gt_0 prec} {He : Prec_lt_emax prec emax},
  forall p : binary_float prec emax, mixed_pi float_pi = Ok p -> forall a : binary_float prec emax, is_nan a = false ->
  (forall s, float_atan2_poly (B754_zero s) a = Ok (if Bsign a then p else B754_zero false)) /\
  (forall s, (forall s', a <> B754_zero s') ->
     float_atan2_poly a (B754_zero s) = Ok (if Bsign a then Bopp (Bdiv mode_NE p (float_of_Z prec emax 2)) else Bdiv mode_NE p (float_of_Z prec emax 2))).
Proof. exact @c23_float. Qed.
Print Assumptions C23_axes_float.
Example C23_float_ex : exists p : f32, mixed_pi float_pi = Ok p /\ is_finite p = true /\ is_nan (float_of_Z 24 128 (-3)) = false /\
  Bsign (float_of_Z 24 128 (-3)) = true.
Proof. exists (float_of_float 24 128 lit_pi). repeat split; vm_compute; reflexivity. Qed.

(** C24.  [M] is the larger magnitude of the two coordinates. *)
Theorem C24_atan2_fixed : forall m f, supported f = true -> fsigned f = true -> forall y x th,
  let M := Rmax (Rabs (fval f x)) (Rabs (fval f y)) in
  (16 * ulp f <= M * M -> 3 / 2 * (M * M) <= fval f (fmax f) -> is_angle (fval f y) (fval f x) th ->
   exists r, fixed_atan2_poly m f y x = Ok r /\ Rabs (fval f r - th) <= 492 / 100000 + (3 + 5 / (M * M)) * ulp f)%R.
Proof. exact c24. Qed.
Print Assumptions C24_atan2_fixed.
(** y = 0.6, x = 0.4 in FixedI32<U28>, the documentation's example *)
Example C24_ex : supported (mkFty true 32 28) = true /\ fixed_atan2_poly Debug (mkFty true 32 28) 161061274 107374182 = Ok 262584566 /\
  fixed_atan2_poly Debug (mkFty true 32 28) (2 ^ 28) (- 2 ^ 28) = Ok 631168027.
Proof. repeat split; vm_compute; reflexivity. Qed.

(** C25 is false: two non-zero coordinates whose squares vanish are divided by zero. *)
Theorem C25_small_panics_refuted : forall m f, supported f = true -> fsigned f = true -> 1 <= ffrac f ->
  exists y x, fvalid f y /\ fvalid f x /\ (Rabs (fval f x) <= 1)%R /\ (Rabs (fval f y) <= 1)%R /\ fixed_atan2_poly m f y x = Panic PDivZero.
Proof. exact c25. Qed.
Print Assumptions C25_small_panics_refuted.
(** Exactly when: both non-zero and the larger one squares to less than one unit in the last place.
    Missing: the property itself there, where it is false. *)
Theorem C25_small_total_partial : forall m f, supported f = true -> fsigned f = true -> forall y x,
  (Rabs (fval f x) <= 1)%R -> (Rabs (fval f y) <= 1)%R ->
  let M := Rmax (Rabs (fval f x)) (Rabs (fval f y)) in
  (x <> 0 /\ y <> 0 /\ (M * M < ulp f)%R -> fixed_atan2_poly m f y x = Panic PDivZero) /\
  (x = 0 \/ y = 0 \/ (ulp f <= M * M)%R -> exists r, fixed_atan2_poly m f y x = Ok r).
Proof. exact c25_iff. Qed.
Print Assumptions C25_small_total_partial.
(** x = y = 0.00006 in FixedI32<U28>: a coordinate of 16383 units panics, of 16384 does not *)
Example C25_ex : fixed_atan2_poly Release (mkFty true 32 28) 16383 16383 = Panic PDivZero /\
  fixed_atan2_poly Release (mkFty true 32 28) 16384 16383 = Ok 421657428.
Proof. repeat split; vm_compute; reflexivity. Qed.

(** C26 is false: on the diagonal y = x = 1 the error exceeds the documented 0.028 degrees. *)
Theorem C26_accuracy_fixed_refuted : forall m f, supported f = true -> fsigned f = true -> 8 <= ffrac f ->
  exists r, fixed_atan2_poly m f (fone f) (fone f) = Ok r /\ fval f (fone f) = 1%R /\ is_angle 1 1 (PI / 4) /\
    (28 / 1000 * (PI / 180) < fval f r - PI / 4)%R.
Proof. exact c26_fixed. Qed.
Print Assumptions C26_accuracy_fixed_refuted.
Example C26_ex : supported (mkFty true 16 12) = true /\ fixed_atan2_poly Debug (mkFty true 16 12) 4096 4096 = Ok 3238.
Proof. repeat split; vm_compute; reflexivity. Qed.
Theorem C26_accuracy_float_refuted :
  (exists r : f32, float_atan2_poly (float_of_Z 24 128 1) (float_of_Z 24 128 1) = Ok r /\
    B2R (float_of_Z 24 128 1) = 1%R /\ is_angle 1 1 (PI / 4) /\ (28 / 1000 * (PI / 180) < B2R r - PI / 4)%R) /\
  (exists r : f64, float_atan2_poly (float_of_Z 53 1024 1) (float_of_Z 53 1024 1) = Ok r /\
    B2R (float_of_Z 53 1024 1) = 1%R /\ is_angle 1 1 (PI / 4) /\ (28 / 1000 * (PI / 180) < B2R r - PI / 4)%R).
Proof. exact (conj c26_f32 c26_f64). Qed.
Print Assumptions C26_accuracy_float_refuted.

(** The part of C26 that holds: where the smaller coordinate is at most 0.21 of the larger one.  The fixed
    bound is 0.028 degrees plus the same rounding term as in C24. *)
Theorem C26_documented_fixed_partial : forall m f, supported f = true -> fsigned f = true -> forall y x th,
  let M := Rmax (Rabs (fval f x)) (Rabs (fval f y)) in
  (100 * Rmin (Rabs (fval f x)) (Rabs (fval f y)) <= 21 * M ->
   16 * ulp f <= M * M -> 3 / 2 * (M * M) <= fval f (fmax f) -> is_angle (fval f y) (fval f x) th ->
   exists r, fixed_atan2_poly m f y x = Ok r /\ Rabs (fval f r - th) <= 28 / 1000 * (PI / 180) + (3 + 5 / (M * M)) * ulp f)%R.
Proof. exact c26_fixed_small. Qed.
Print Assumptions C26_documented_fixed_partial.
(** y = 1/5, x = -1 in FixedI32<U28>: the angle is pi - atan(1/5) = 2.94420, the result 2.94382 *)
Example C26_documented_fixed_ex : supported (mkFty true 32 28) = true /\
  fixed_atan2_poly Debug (mkFty true 32 28) 53687091 (-268435456) = Ok 790225027.
Proof. split; vm_compute; reflexivity. Qed.
Theorem C26_documented_f32_partial : forall y x : f32, is_finite y = true -> is_finite x = true -> forall th,
  (bpow radix2 (-61) <= Rmax (Rabs (B2R x)) (Rabs (B2R y)) <= bpow radix2 61)%R ->
  (100 * Rmin (Rabs (B2R x)) (Rabs (B2R y)) <= 21 * Rmax (Rabs (B2R x)) (Rabs (B2R y)))%R ->
  is_angle (B2R y) (B2R x) th ->
  exists r, float_atan2_poly y x = Ok r /\ is_finite r = true /\ (Rabs (B2R r - th) <= 28 / 1000 * (PI / 180))%R.
Proof. exact doc_f32. Qed.
Print Assumptions C26_documented_f32_partial.
Theorem C26_documented_f64_partial : forall y x : f64, is_finite y = true -> is_finite x = true -> forall th,
  (bpow radix2 (-509) <= Rmax (Rabs (B2R x)) (Rabs (B2R y)) <= bpow radix2 509)%R ->
  (100 * Rmin (Rabs (B2R x)) (Rabs (B2R y)) <= 21 * Rmax (Rabs (B2R x)) (Rabs (B2R y)))%R ->
  is_angle (B2R y) (B2R x) th ->
  exists r, float_atan2_poly y x = Ok r /\ is_finite r = true /\ (Rabs (B2R r - th) <= 28 / 1000 * (PI / 180))%R.
Proof. exact doc_f64. Qed.
Print Assumptions C26_documented_f64_partial.
(** y = 1, x = 5 *)
Example C26_documented_ex : map_res B2SF (float_atan2_poly (float_of_Z 24 128 1) (float_of_Z 24 128 5)) = Ok (SpecFloat.S754_finite false 13272458 (-26)).
Proof. vm_compute; reflexivity. Qed.

(** C27. *)
Theorem C27_odd_float : forall {prec emax : Z} {Hp : Prec_gt_0 prec} {He : Prec_lt_emax prec emax},
  forall y x : binary_float prec emax, is_nan y = false -> (forall s, y <> B754_zero s) ->
  exists r r', float_atan2_poly y x = Ok r /\ float_atan2_poly (Bopp y) x = Ok r' /\ same_float r' (Bopp r).
Proof. exact @c27. Qed.
Print Assumptions C27_odd_float.
Example C27_ex : is_nan (float_of_Z 24 128 3) = false /\
  match float_atan2_poly (float_of_Z 24 128 3) (float_of_Z 24 128 (-2)) with
  | Ok r => B2SF r = SpecFloat.S754_finite false 9073911 (-22) | _ => False end /\
  match float_atan2_poly (float_of_Z 24 128 (-3)) (float_of_Z 24 128 (-2)) with
  | Ok r => B2SF r = SpecFloat.S754_finite true 9073911 (-22) | _ => False end.
Proof. repeat split; vm_compute; reflexivity. Qed.

(** C28 is false: every pair of non-zero coordinates below 2^-75 (f32), 2^-538 (f64), gives NaN, and so do some huge ones. *)
Theorem C28_tiny_nan_refuted :
  (forall y x : f32, is_finite y = true -> is_finite x = true -> B2R y <> 0%R -> B2R x <> 0%R ->
    (Rabs (B2R x) < bpow radix2 (-75))%R -> (Rabs (B2R y) < bpow radix2 (-75))%R -> float_atan2_poly y x = Ok B754_nan) /\
  (forall y x : f64, is_finite y = true -> is_finite x = true -> B2R y <> 0%R -> B2R x <> 0%R ->
    (Rabs (B2R x) < bpow radix2 (-538))%R -> (Rabs (B2R y) < bpow radix2 (-538))%R -> float_atan2_poly y x = Ok B754_nan).
Proof. exact (conj c28_f32 c28_f64). Qed.
Print Assumptions C28_tiny_nan_refuted.
Example C28_ex : is_finite (float_of_scaled 24 128 1 (-80)) = true /\ is_finite (float_of_scaled 24 128 1 80) = true /\
  float_atan2_poly (float_of_scaled 24 128 1 (-80)) (float_of_scaled 24 128 1 (-80)) = Ok B754_nan /\
  float_atan2_poly (float_of_scaled 24 128 1 80) (float_of_scaled 24 128 1 80) = Ok B754_nan /\
  float_atan2_poly (float_of_scaled 53 1024 1 540) (float_of_scaled 53 1024 1 540) = Ok B754_nan.
Proof. repeat split; vm_compute; reflexivity. Qed.

(** C55, and the part of C28 that holds: with the larger magnitude in 2^-61 .. 2^61 (f32) or 2^-509 .. 2^509 (f64)
    the result is finite and within 0.00492 of the angle. *)
Theorem C55_atan2_f32 : forall y x : f32, is_finite y = true -> is_finite x = true -> forall th,
  (bpow radix2 (-61) <= Rmax (Rabs (B2R x)) (Rabs (B2R y)) <= bpow radix2 61)%R -> is_angle (B2R y) (B2R x) th ->
  exists r, float_atan2_poly y x = Ok r /\ is_finite r = true /\ (Rabs (B2R r - th) <= 492 / 100000)%R.
Proof. exact atan_f32. Qed.
Print Assumptions C55_atan2_f32.
Theorem C55_atan2_f64 : forall y x : f64, is_finite y = true -> is_finite x = true -> forall th,
  (bpow radix2 (-509) <= Rmax (Rabs (B2R x)) (Rabs (B2R y)) <= bpow radix2 509)%R -> is_angle (B2R y) (B2R x) th ->
  exists r, float_atan2_poly y x = Ok r /\ is_finite r = true /\ (Rabs (B2R r - th) <= 492 / 100000)%R.
Proof. exact atan_f64. Qed.
Print Assumptions C55_atan2_f64.
Theorem C28_defined_partial :
  (forall y x : f32, is_finite y = true -> is_finite x = true ->
    (bpow radix2 (-61) <= Rmax (Rabs (B2R x)) (Rabs (B2R y)) <= bpow radix2 61)%R ->
    exists r, float_atan2_poly y x = Ok r /\ is_finite r = true) /\
  (forall y x : f64, is_finite y = true -> is_finite x = true ->
    (bpow radix2 (-509) <= Rmax (Rabs (B2R x)) (Rabs (B2R y)) <= bpow radix2 509)%R ->
    exists r, float_atan2_poly y x = Ok r /\ is_finite r = true).
Proof. exact c28_defined. Qed.
Print Assumptions C28_defined_partial.
(** The exact condition off the axes: the square of the larger magnitude underflows, or the product overflows.
    (On the axes finite arguments never give NaN, C23.) *)
Theorem C28_nan_iff_f32_partial : forall y x : f32, is_finite y = true -> is_finite x = true -> B2R y <> 0%R -> B2R x <> 0%R ->
  let M := Rmax (Rabs (B2R x)) (Rabs (B2R y)) in exists r, float_atan2_poly y x = Ok r /\ (is_nan r = true \/ is_finite r = true) /\
  (is_nan r = true <-> (M * M <= bpow radix2 (-150) \/ bpow radix2 128 - bpow radix2 103 <= Rabs (B2R x * B2R y))%R).
Proof. exact nan_f32. Qed.
Print Assumptions C28_nan_iff_f32_partial.
Theorem C28_nan_iff_f64_partial : forall y x : f64, is_finite y = true -> is_finite x = true -> B2R y <> 0%R -> B2R x <> 0%R ->
  let M := Rmax (Rabs (B2R x)) (Rabs (B2R y)) in exists r, float_atan2_poly y x = Ok r /\ (is_nan r = true \/ is_finite r = true) /\
  (is_nan r = true <-> (M * M <= bpow radix2 (-1075) \/ bpow radix2 1024 - bpow radix2 970 <= Rabs (B2R x * B2R y))%R).
Proof. exact nan_f64. Qed.
Print Assumptions C28_nan_iff_f64_partial.
(** both sides of the threshold: 2^-75 gives NaN, the next float up a finite angle; 2^64 * 2^64 NaN, 2^64 * 2^63 not *)
Example C28_iff_ex : float_atan2_poly (float_of_scaled 24 128 1 (-75)) (float_of_scaled 24 128 1 (-75)) = Ok B754_nan /\
  float_atan2_poly (float_of_scaled 24 128 1 64) (float_of_scaled 24 128 1 64) = Ok B754_nan /\
  match float_atan2_poly (float_of_scaled 24 128 8388609 (-98)) (float_of_scaled 24 128 1 (-75)) with Ok r => is_finite r = true | _ => False end /\
  match float_atan2_poly (float_of_scaled 24 128 1 64) (float_of_scaled 24 128 1 63) with Ok r => is_finite r = true | _ => False end.
Proof. split; [vm_compute; reflexivity|]. split; [vm_compute; reflexivity|]. split; vm_compute; reflexivity. Qed.
(** y = 3, x = -2: 9073911 / 2^22 = 2.16339, the real angle being 2.15880 *)
Example C55_ex : (bpow radix2 (-61) <= Rmax (Rabs (-2)) (Rabs 3) <= bpow radix2 61)%R /\
  match float_atan2_poly (float_of_Z 24 128 3) (float_of_Z 24 128 (-2)) with
  | Ok r => B2SF r = SpecFloat.S754_finite false 9073911 (-22) | _ => False end.
Proof. exact c55_ex. Qed.

(** C56. *)
Theorem C56_atan_fixed : forall m f, supported f = true -> fsigned f = true -> 4 <= ffrac f -> forall x,
  (3 / 2 * (fval f x * fval f x) <= fval f (fmax f))%R ->
  exists r, fixed_atan1 m f x = Ok r /\ (Rabs (fval f r - Ratan.atan (fval f x)) <= 492 / 100000 + 8 * ulp f)%R.
Proof. exact c56_fixed. Qed.
Print Assumptions C56_atan_fixed.
Example C56_ex : supported (mkFty true 32 28) = true /\ fixed_atan1 Debug (mkFty true 32 28) (3 * 2 ^ 27) = Ok 262584566.
Proof. repeat split; vm_compute; reflexivity. Qed.
Theorem C56_atan_float :
  (forall x : f32, is_finite x = true -> (Rabs (B2R x) <= bpow radix2 61)%R ->
    exists r, flt_atan1 x = Ok r /\ is_finite r = true /\ (Rabs (B2R r - Ratan.atan (B2R x)) <= 492 / 100000)%R) /\
  (forall x : f64, is_finite x = true -> (Rabs (B2R x) <= bpow radix2 509)%R ->
    exists r, flt_atan1 x = Ok r /\ is_finite r = true /\ (Rabs (B2R r - Ratan.atan (B2R x)) <= 492 / 100000)%R).
Proof. exact (conj c56_f32 c56_f64). Qed.
Print Assumptions C56_atan_float.
Example C56_float_ex : match flt_atan1 (float_of_Z 24 128 (-3)) with
  | Ok r => B2SF r = SpecFloat.S754_finite true 10465326 (-23) | _ => False end.
Proof. vm_compute. reflexivity. Qed.

(** C57 is false: a NaN beside a zero is lost. *)
Theorem C57_nan_lost_refuted : forall {prec emax : Z} {Hp : Prec_gt_0 prec} {He : Prec_lt_emax prec emax} s,
  float_atan2_poly (B754_zero s) (B754_nan : binary_float prec emax) = Ok (B754_zero false) /\
  forall p : binary_float prec emax, mixed_pi float_pi = Ok p ->
  float_atan2_poly (B754_nan : binary_float prec emax) (B754_zero s) = Ok (Bdiv mode_NE p (float_of_Z prec emax 2)).
Proof. exact @c57_lost. Qed.
Print Assumptions C57_nan_lost_refuted.
(** Missing: a zero as the other argument, where the property is false. *)
Theorem C57_nan_kept_partial : forall {prec emax : Z} {Hp : Prec_gt_0 prec} {He : Prec_lt_emax prec emax} (a : binary_float prec emax),
  (forall s, a <> B754_zero s) -> float_atan2_poly a B754_nan = Ok B754_nan /\ float_atan2_poly B754_nan a = Ok B754_nan.
Proof. exact @c57. Qed.
Print Assumptions C57_nan_kept_partial.
Example C57_ex : (forall s, float_of_Z 24 128 3 <> B754_zero s) /\
  match float_atan2_poly (B754_nan : f32) (B754_zero false) with
  | Ok h => B2SF h = SpecFloat.S754_finite false 13176795 (-23) | _ => False end.
Proof. split; [intros s H; apply (f_equal (@is_finite_strict _ _)) in H; vm_compute in H; discriminate | vm_compute; reflexivity]. Qed.
