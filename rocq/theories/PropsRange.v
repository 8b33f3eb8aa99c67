(** * Properties C27 (quadrant), C71-C76: ranges, periodicity and order of summation. *)

From Coq Require Import ZArith Reals List Permutation.
From Flocq Require Import Core.Core IEEE754.BinarySingleNaN.
From Verif Require Import Base FloatBase Literals Traits Trig IntImpl FixedPrim FixedImpl FloatImpl Complex Spec SpecAngle SpecRange
  AtanRange RangeProofs SinSmall.
Import ListNotations.
Open Scope Z_scope.

Notation fixed_sin m f := (Trig.sin (fixed_ops m f) (fixed_signed m f) (fixed_pi m f) (fixed_powi m f)).
Notation flt_sin := (Trig.sin float_ops float_signed float_pi float_powi).

(** C27, the quadrant: on finite arguments with y <> 0 the result is NaN or in the closed quadrant of the point;
    off the axes an infinite or NaN argument gives NaN. *)
Theorem C27_quadrant_f32 : forall y x : f32, is_finite y = true -> is_finite x = true -> B2R y <> 0%R ->
  exists p r : f32, mixed_pi float_pi = Ok p /\ float_atan2_poly y x = Ok r /\
  (is_nan r = true \/ is_finite r = true /\ in_quadrant (B2R y) (B2R x) (B2R r) (B2R p)).
Proof. exact quadrant_f32. Qed.
Print Assumptions C27_quadrant_f32.
Theorem C27_quadrant_f64 : forall y x : f64, is_finite y = true -> is_finite x = true -> B2R y <> 0%R ->
  exists p r : f64, mixed_pi float_pi = Ok p /\ float_atan2_poly y x = Ok r /\
  (is_nan r = true \/ is_finite r = true /\ in_quadrant (B2R y) (B2R x) (B2R r) (B2R p)).
Proof. exact quadrant_f64. Qed.
Print Assumptions C27_quadrant_f64.
Theorem C27_infinite :
  (forall y x : f32, (forall s, y <> B754_zero s) -> (forall s, x <> B754_zero s) -> (is_finite y = false \/ is_finite x = false) ->
     exists r, float_atan2_poly y x = Ok r /\ is_nan r = true) /\
  (forall y x : f64, (forall s, y <> B754_zero s) -> (forall s, x <> B754_zero s) -> (is_finite y = false \/ is_finite x = false) ->
     exists r, float_atan2_poly y x = Ok r /\ is_nan r = true).
Proof. exact (conj inf_f32 inf_f64). Qed.
Print Assumptions C27_infinite.
(** (-2, 3): 9073911 / 2^22 = 2.163, between pi/2 and pi *)
Example C27_quadrant_ex : match float_atan2_poly (float_of_Z 24 128 3) (float_of_Z 24 128 (-2)) with
  | Ok r => B2SF r = SpecFloat.S754_finite false 9073911 (-22) | _ => False end /\
  match float_atan2_poly (B754_infinity false : f32) (float_of_Z 24 128 (-2)) with Ok r => is_nan r = true | _ => False end.
Proof. split; vm_compute; reflexivity. Qed.

(** C71 is false: near the origin the rounded quotient exceeds one, so that atan2(u, -u) > pi and atan2(-u, u) > 0. *)
Theorem C71_quadrant_refuted : forall m f, supported f = true -> fsigned f = true -> 3 <= ffrac f ->
  exists u p, fvalid f u /\ fvalid f (- u) /\ 0 < u /\ mixed_pi (fixed_pi m f) = Ok p /\
  exists r r', fixed_atan2_poly m f u (- u) = Ok r /\ p < r /\ fixed_atan2_poly m f (- u) u = Ok r' /\ 0 < r'.
Proof. exact quadrant_refuted. Qed.
Print Assumptions C71_quadrant_refuted.
(** It holds as soon as the larger magnitude squares to two units in the last place (and not to overflow).
    Missing: points nearer to the origin, where it is false, and squares that overflow. *)
Theorem C71_quadrant_partial : forall m f, supported f = true -> fsigned f = true -> forall y x,
  let M := Rmax (Rabs (fval f x)) (Rabs (fval f y)) in
  (2 * ulp f <= M * M)%R -> (3 / 2 * (M * M) <= fval f (fmax f))%R -> y <> 0 ->
  exists p r, mixed_pi (fixed_pi m f) = Ok p /\ fixed_atan2_poly m f y x = Ok r /\ let h := p / 2 in
  (0 < y -> 0 <= x -> 0 <= r <= h) /\ (0 < y -> x <= 0 -> h <= r <= p) /\
  (y < 0 -> 0 <= x -> - h <= r <= 0) /\ (y < 0 -> x <= 0 -> - p <= r <= - h).
Proof. exact quadrant_fixed. Qed.
Print Assumptions C71_quadrant_partial.
(** u = 16385 / 2^28 = 0.00006 in FixedI32<U28>: atan2(u, -u) = 3.57 *)
Example C71_ex : supported (mkFty true 32 28) = true /\ fixed_atan2_poly Debug (mkFty true 32 28) 16385 (-16385) = Ok 958528340 /\
  mixed_pi (fixed_pi Debug (mkFty true 32 28)) = Ok 843314857 /\
  fixed_atan2_poly Debug (mkFty true 32 28) (2 ^ 28) (- 2 ^ 28) = Ok 631168027.
Proof. repeat split; vm_compute; reflexivity. Qed.

(** C72 is false: at pi/2 the polynomial exceeds one. *)
Theorem C72_sin_exceeds_refuted : forall m f, fsigned f = true -> fwidth f = 64 -> 16 <= ffrac f <= 44 ->
  exists p x r, mixed_pi (fixed_pi m f) = Ok p /\ fvalid f x /\ (0 <= fval f x <= fval f p)%R /\ fixed_sin m f x = Ok r /\ (1 < fval f r)%R.
Proof. exact sin_exceeds_fixed. Qed.
Print Assumptions C72_sin_exceeds_refuted.
(** By how much at most.  Missing: the bound one itself, which is false. *)
Theorem C72_sin_bound_fixed_partial : forall m f, supported f = true -> fsigned f = true -> ffrac f <= fwidth f - 20 ->
  exists p, mixed_pi (fixed_pi m f) = Ok p /\ forall x, (Rabs (fval f x) <= fval f p)%R -> exists r, fixed_sin m f x = Ok r /\
    (Rabs (fval f r) <= 1 + (362 / 100000000 + 405 / 100 * ulp f))%R.
Proof. exact sin_bound_fixed. Qed.
Print Assumptions C72_sin_bound_fixed_partial.
(** Exactly which formats stay within [-1, 1]: those with at most six fractional bits. *)
Theorem C72_sin_le_one_iff_partial : forall m f, supported f = true -> fsigned f = true -> ffrac f <= fwidth f - 20 ->
  exists p, mixed_pi (fixed_pi m f) = Ok p /\
  ((forall x, (Rabs (fval f x) <= fval f p)%R -> exists r, fixed_sin m f x = Ok r /\ (Rabs (fval f r) <= 1)%R) <-> ffrac f <= 6).
Proof. exact sin_le_one_iff. Qed.
Print Assumptions C72_sin_le_one_iff_partial.
(** sin(-201/128) = -129/128 in FixedI32<U7> *)
Example C72_iff_ex : fixed_sin Debug (mkFty true 32 7) (-201) = Ok (-129) /\ fixed_sin Debug (mkFty true 32 6) (-100) = Ok (-64).
Proof. split; vm_compute; reflexivity. Qed.
Theorem C72_sin_bound_float_partial :
  (exists p : f32, mixed_pi float_pi = Ok p /\ forall x : f32, is_finite x = true -> (Rabs (B2R x) <= B2R p)%R ->
    exists r, flt_sin x = Ok r /\ is_finite r = true /\ (Rabs (B2R r) <= 1 + 5 / 1000000)%R) /\
  (exists p : f64, mixed_pi float_pi = Ok p /\ forall x : f64, is_finite x = true -> (Rabs (B2R x) <= B2R p)%R ->
    exists r, flt_sin x = Ok r /\ is_finite r = true /\ (Rabs (B2R r) <= 1 + 5 / 1000000)%R).
Proof. exact (conj sin_bound_f32 sin_bound_f64). Qed.
Print Assumptions C72_sin_bound_float_partial.
(** sin(pi/2) = 1 + 15216 / 2^32 in FixedI64<U32> and 1 + 29 / 2^23 in f32 *)
Example C72_ex : supported (mkFty true 64 32) = true /\ mixed_pi (fixed_pi Debug (mkFty true 64 32)) = Ok 13493037705 /\
  fixed_sin Debug (mkFty true 64 32) 6746518852 = Ok (2 ^ 32 + 15216) /\
  match mixed_pi (@float_pi 24 128 _ _) with
  | Ok p => map_res B2SF (flt_sin (Bdiv mode_NE p (float_of_Z 24 128 2))) = Ok (SpecFloat.S754_finite false (2 ^ 23 + 29) (-23))
  | _ => False end.
Proof. repeat split; vm_compute; reflexivity. Qed.

(** C73 is false: with 8 to 15 integer bits the sine of pi/2 is off by more than 0.019 in a release build, silently. *)
Theorem C73_release_sin_refuted : forall f, fsigned f = true -> fwidth f = 32 \/ fwidth f = 64 -> 8 <= fwidth f - ffrac f <= 15 ->
  exists p x r, mixed_pi (fixed_pi Release f) = Ok p /\ fvalid f x /\ (0 <= fval f x <= fval f p)%R /\ fixed_sin Release f x = Ok r /\
  (19 / 1000 < Rabs (fval f r - Rtrigo_def.sin (fval f x)))%R.
Proof. exact sin_release_wrong. Qed.
Print Assumptions C73_release_sin_refuted.
(** FixedI32<U22>, the type of the documentation's accuracy comparison: sin(pi/2) = 6086320 / 2^22 = 1.451 *)
Example C73_ex : supported (mkFty true 32 22) = true /\ mixed_pi (fixed_pi Release (mkFty true 32 22)) = Ok 13176795 /\
  fixed_sin Release (mkFty true 32 22) 6588397 = Ok 6086320.
Proof. repeat split; vm_compute; reflexivity. Qed.

(** C74. *)
Theorem C74_wrap_period_fixed : forall m f, supported f = true -> fsigned f = true -> (m = Release \/ ffrac f <= fwidth f - 4) ->
  exists p, mixed_pi (fixed_pi m f) = Ok p /\
  (forall a b, fvalid f a -> fvalid f b -> (exists k, fval f a - fval f b = IZR k * (2 * fval f p))%R -> exists r,
     returns (fun fuel => mixed_wrap_phase (fixed_wrap_phase m f fuel) a) r /\
     returns (fun fuel => mixed_wrap_phase (fixed_wrap_phase m f fuel) b) r) /\
  (forall a, fvalid f a -> fvalid f (- a) -> exists r r',
     returns (fun fuel => mixed_wrap_phase (fixed_wrap_phase m f fuel) a) r /\
     returns (fun fuel => mixed_wrap_phase (fixed_wrap_phase m f fuel) (- a)) r' /\ (r = - p /\ r' = - p \/ r <> - p /\ r' = - r)).
Proof. exact wrap_period. Qed.
Print Assumptions C74_wrap_period_fixed.
Example C74_ex : supported (mkFty true 32 22) = true /\
  mixed_wrap_phase (fixed_wrap_phase Debug (mkFty true 32 22) 100) (100 * 2 ^ 22) = Ok (-2227040) /\
  mixed_wrap_phase (fixed_wrap_phase Debug (mkFty true 32 22) 100) (-100 * 2 ^ 22) = Ok 2227040 /\
  mixed_wrap_phase (fixed_wrap_phase Debug (mkFty true 32 22) 100) (100 * 2 ^ 22 - 6 * 13176795) = Ok (-2227040).
Proof. repeat split; vm_compute; reflexivity. Qed.

(** C75. *)
Theorem C75_extreme_int : forall m t, In t int_types ->
  let lo := mixed_min_value (int_real m t) in let hi := mixed_max_value (int_real m t) in
  (if isigned t then lo = - 2 ^ (iwidth t - 1) /\ hi = 2 ^ (iwidth t - 1) - 1 else lo = 0 /\ hi = 2 ^ iwidth t - 1) /\
  in_range t lo /\ in_range t hi /\ forall v, in_range t v -> lo <= v <= hi.
Proof. exact extreme_int. Qed.
Print Assumptions C75_extreme_int.
Theorem C75_extreme_fixed : forall m f, supported f = true ->
  let lo := mixed_min_value (fixed_real m f) in let hi := mixed_max_value (fixed_real m f) in
  fvalid f lo /\ fvalid f hi /\ (forall v, fvalid f v -> (fval f lo <= fval f v <= fval f hi)%R) /\
  fval f hi = ((if fsigned f then bpow radix2 (fwidth f - 1 - ffrac f) else bpow radix2 (fwidth f - ffrac f)) - ulp f)%R /\
  fval f lo = (if fsigned f then - bpow radix2 (fwidth f - 1 - ffrac f) else 0)%R.
Proof. exact extreme_fixed. Qed.
Print Assumptions C75_extreme_fixed.
Theorem C75_extreme_float : forall {prec emax : Z} {Hp : Prec_gt_0 prec} {He : Prec_lt_emax prec emax},
  let lo := mixed_min_value (@float_real prec emax Hp He) in let hi := mixed_max_value (@float_real prec emax Hp He) in
  is_finite lo = true /\ is_finite hi = true /\
  B2R hi = (bpow radix2 emax - bpow radix2 (emax - prec))%R /\ B2R lo = (- B2R hi)%R /\
  forall v : binary_float prec emax, is_finite v = true -> (B2R lo <= B2R v <= B2R hi)%R.
Proof. exact @extreme_float. Qed.
Print Assumptions C75_extreme_float.
Example C75_ex : mixed_max_value (int_real Debug i16) = 32767 /\ mixed_min_value (fixed_real Debug (mkFty true 16 8)) = -32768 /\
  mixed_min_value (fixed_real Debug (mkFty false 16 8)) = 0 /\
  B2SF (mixed_max_value (@float_real 24 128 _ _)) = SpecFloat.S754_finite false (2 ^ 24 - 1) 104.
Proof. repeat split; vm_compute; reflexivity. Qed.

(** C76. *)
Theorem C76_sum_release : forall t O, word_arith Release t O -> 8 <= iwidth t -> forall ws z, cvalid t z ->
  run (cartesian_add O) z ws = Ok (cwrap t (psum z ws)).
Proof. exact sum_release. Qed.
Print Assumptions C76_sum_release.
Theorem C76_sum_debug : forall t O, word_arith Debug t O -> 8 <= iwidth t -> forall ws z, cvalid t z -> forall r,
  run (cartesian_add O) z ws = Ok r <-> (forall k, cvalid t (psum z (firstn k ws))) /\ r = psum z ws.
Proof. exact sum_debug. Qed.
Print Assumptions C76_sum_debug.
Theorem C76_sum_order : forall m t O, word_arith m t O -> 8 <= iwidth t -> forall z ws ws', cvalid t z -> Permutation ws ws' ->
  (m = Release -> run (cartesian_add O) z ws = run (cartesian_add O) z ws') /\
  (forall r r', run (cartesian_add O) z ws = Ok r -> run (cartesian_add O) z ws' = Ok r' -> r = r').
Proof. exact sum_order. Qed.
Print Assumptions C76_sum_order.
Theorem C76_sum_quadrant : forall t O, word_arith Debug t O -> 8 <= iwidth t -> forall z ws, cvalid t z ->
  (forall w, In w ws -> 0 <= re w /\ 0 <= im w) ->
  run (cartesian_add O) z ws = if in_rangeb t (re z + sumZ (map re ws)) && in_rangeb t (im z + sumZ (map im ws))
    then Ok (mkC (re z + sumZ (map re ws)) (im z + sumZ (map im ws))) else Panic POverflow.
Proof. exact sum_quadrant. Qed.
Print Assumptions C76_sum_quadrant.
(** the order can decide whether a debug build panics, but not the result *)
Example C76_ex : run (cartesian_add (int_ops Debug i8)) (mkC 100 0) [mkC 100 1; mkC (-100) 2] = Panic POverflow /\
  run (cartesian_add (int_ops Debug i8)) (mkC 100 0) [mkC (-100) 2; mkC 100 1] = Ok (mkC 100 3) /\
  run (cartesian_add (int_ops Release i8)) (mkC 100 0) [mkC 100 1; mkC (-100) 2] = Ok (mkC 100 3).
Proof. repeat split; vm_compute; reflexivity. Qed.
