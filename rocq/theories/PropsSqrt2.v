(** * Properties C79-C83: scaling, order, exactness, zeros and convergence of the NIIRF square root;
    and the exact zero set of the magnitude (C60). *)

From Coq Require Import ZArith Reals List.
From Flocq Require Import Core.Core IEEE754.BinarySingleNaN.
From Verif Require Import Base FloatBase Literals Traits Trig IntImpl FixedPrim FixedImpl FloatImpl Complex Spec
  NiirfFloat NiirfMore NiirfSmall MagMore.
Open Scope Z_scope.

(** [sqrt::niirf(x, it)] at a fixed-point type *)
Notation niirf_fixed m f := (niirf (fixed_ops m f) (fixed_zero m f) (fixed_abs m f) (fixed_powi m f) m).
(** [sqrt::niirf(x, it)] at a float type *)
Notation niirf_flt m := (niirf float_ops float_zero float_abs float_powi m).

(** C79.  Values from 1/4 up: exact.  Below 1/4: halved, rounding down. *)
Theorem C79_scale_up_fixed : forall m f, supported f = true -> fsigned f = true -> 2 <= ffrac f <= fwidth f - 4 ->
  forall it x, fone f <= 4 * x -> fvalid f (4 * x) -> exists r,
  returns (fun fuel => niirf_fixed m f fuel x it) r /\ returns (fun fuel => niirf_fixed m f fuel (4 * x) it) (2 * r).
Proof. exact sqrt_scale_up. Qed.
Print Assumptions C79_scale_up_fixed.
Theorem C79_scale_down_fixed : forall m f, supported f = true -> fsigned f = true -> 2 <= ffrac f <= fwidth f - 4 ->
  forall it x, 0 < x -> 4 * x < fone f -> exists r,
  returns (fun fuel => niirf_fixed m f fuel (4 * x) it) r /\ returns (fun fuel => niirf_fixed m f fuel x it) (r / 2).
Proof. exact sqrt_scale_down. Qed.
Print Assumptions C79_scale_down_fixed.
Theorem C79_scale_f32 : forall m (x x4 : f32) it, is_finite x = true -> is_finite x4 = true -> B2R x4 = (4 * B2R x)%R -> (2 <= it)%N ->
  exists r r4 : f32, returns (fun fuel => niirf_flt m fuel x it) r /\ returns (fun fuel => niirf_flt m fuel x4 it) r4 /\
  is_finite r = true /\ is_finite r4 = true /\ B2R r4 = (2 * B2R r)%R.
Proof. exact niirf_scale_f32. Qed.
Print Assumptions C79_scale_f32.
Theorem C79_scale_f64 : forall m (x x4 : f64) it, is_finite x = true -> is_finite x4 = true -> B2R x4 = (4 * B2R x)%R -> (2 <= it)%N ->
  exists r r4 : f64, returns (fun fuel => niirf_flt m fuel x it) r /\ returns (fun fuel => niirf_flt m fuel x4 it) r4 /\
  is_finite r = true /\ is_finite r4 = true /\ B2R r4 = (2 * B2R r)%R.
Proof. exact niirf_scale_f64. Qed.
Print Assumptions C79_scale_f64.
Example C79_ex : let f := mkFty true 32 22 in
  niirf_fixed Debug f 99 (3 * 2 ^ 20) 2 = Ok 3631723 /\ niirf_fixed Debug f 99 (3 * 2 ^ 22) 2 = Ok (2 * 3631723) /\
  niirf_fixed Debug f 99 3 2 = Ok 3546 /\ niirf_fixed Debug f 99 12 2 = Ok 7093.
Proof. repeat split; vm_compute; reflexivity. Qed.

(** C80 is false: with 10 or more fractional bits the root of 1/2 is below the root of the value
    just under 1/2 (the update gain changes there). *)
Theorem C80_monotone_refuted : forall m f, supported f = true -> fsigned f = true -> 10 <= ffrac f ->
  exists x y rx ry, fvalid f x /\ fvalid f y /\ 0 < x < y /\
  returns (fun fuel => mixed_sqrt (fixed_sqrt m f fuel) x) rx /\ returns (fun fuel => mixed_sqrt (fixed_sqrt m f fuel) y) ry /\ ry < rx.
Proof. exact sqrt_not_monotone. Qed.
Print Assumptions C80_monotone_refuted.
(** Inside one sixteenth of [1/4,1) the order is kept up to one unit in the last place.
    Missing: order across two sixteenths, where the property is false. *)
Theorem C80_monotone_partial : forall m f, supported f = true -> fsigned f = true -> 2 <= ffrac f ->
  forall k x y, 4 <= k <= 15 -> k * fone f <= 16 * x -> x <= y -> 16 * y < (k + 1) * fone f ->
  exists rx ry, returns (fun fuel => mixed_sqrt (fixed_sqrt m f fuel) x) rx /\
    returns (fun fuel => mixed_sqrt (fixed_sqrt m f fuel) y) ry /\ rx <= ry + 1.
Proof. exact sqrt_region_order. Qed.
Print Assumptions C80_monotone_partial.
(** Exactly which formats keep order: those with 0, 1 or 3 to 9 fractional bits. *)
Theorem C80_monotone_iff_partial : forall m f, supported f = true -> fsigned f = true -> ffrac f <= fwidth f - 4 ->
  ((forall x y, fvalid f x -> fvalid f y -> 0 <= x <= y -> exists rx ry,
    returns (fun fuel => mixed_sqrt (fixed_sqrt m f fuel) x) rx /\ returns (fun fuel => mixed_sqrt (fixed_sqrt m f fuel) y) ry /\ rx <= ry)
   <-> ffrac f <= 9 /\ ffrac f <> 2).
Proof. exact sqrt_mono_iff. Qed.
Print Assumptions C80_monotone_iff_partial.
(** with two fractional bits the root of 3/4 is 3/4 and the root of 1 is 1/2 *)
Example C80_iff_ex : mixed_sqrt (fixed_sqrt Debug (mkFty true 8 2) 150) 3 = Ok 3 /\ mixed_sqrt (fixed_sqrt Debug (mkFty true 8 2) 150) 4 = Ok 2 /\
  mixed_sqrt (fixed_sqrt Debug (mkFty true 16 8) 150) 255 = Ok 255 /\ mixed_sqrt (fixed_sqrt Debug (mkFty true 16 8) 150) 256 = Ok 256.
Proof. repeat split; vm_compute; reflexivity. Qed.
Example C80_ex : let f := mkFty true 32 22 in
  mixed_sqrt (fixed_sqrt Debug f 99) (2 ^ 21 - 1) = Ok 2967863 /\ mixed_sqrt (fixed_sqrt Debug f 99) (2 ^ 21) = Ok 2962880.
Proof. split; vm_compute; reflexivity. Qed.

(** C81 is false: the root of every power of four is 0.07 % too large. *)
Theorem C81_squares_fixed_refuted : forall m f, supported f = true -> fsigned f = true -> 11 <= ffrac f <= fwidth f - 4 ->
  forall k, 0 <= k -> fvalid f (4 ^ k * fone f) -> exists r,
  returns (fun fuel => mixed_sqrt (fixed_sqrt m f fuel) (4 ^ k * fone f)) r /\ 10007 * (2 ^ k * fone f) < 10000 * r.
Proof. exact sqrt_pow4_bad. Qed.
Print Assumptions C81_squares_fixed_refuted.
(** Exactly which formats have exact roots of powers of four: those with 1 or 3 to 10 fractional bits. *)
Theorem C81_squares_iff_partial : forall m f, supported f = true -> fsigned f = true -> ffrac f <= fwidth f - 4 ->
  forall k, 0 <= k -> fvalid f (4 ^ k * fone f) ->
  (returns (fun fuel => mixed_sqrt (fixed_sqrt m f fuel) (4 ^ k * fone f)) (2 ^ k * fone f) <-> ffrac f = 1 \/ 3 <= ffrac f <= 10).
Proof. exact sqrt_pow4_iff. Qed.
Print Assumptions C81_squares_iff_partial.
(** with two fractional bits the root of every power of four is half of what it should be *)
Theorem C81_frac2_refuted : forall m f, supported f = true -> fsigned f = true -> ffrac f = 2 ->
  forall k, 0 <= k -> fvalid f (4 ^ k * fone f) ->
  returns (fun fuel => mixed_sqrt (fixed_sqrt m f fuel) (4 ^ k * fone f)) (2 ^ k * fone f / 2).
Proof. exact sqrt_pow4_frac2. Qed.
Print Assumptions C81_frac2_refuted.
Example C81_small_ex : mixed_sqrt (fixed_sqrt Debug (mkFty true 32 8) 150) (4 ^ 5 * 256) = Ok (2 ^ 5 * 256) /\
  mixed_sqrt (fixed_sqrt Debug (mkFty true 8 2) 150) 64 = Ok 8.
Proof. repeat split; vm_compute; reflexivity. Qed.
Theorem C81_squares_f32_refuted : forall m (x : f32) k, is_finite x = true -> B2R x = bpow radix2 (2 * k) -> exists r : f32,
  returns (fun fuel => niirf_flt m fuel x 2) r /\ is_finite r = true /\ (10007 * bpow radix2 k < 10000 * B2R r)%R.
Proof. exact pow4_f32. Qed.
Print Assumptions C81_squares_f32_refuted.
Theorem C81_squares_f64_refuted : forall m (x : f64) k, is_finite x = true -> B2R x = bpow radix2 (2 * k) -> exists r : f64,
  returns (fun fuel => niirf_flt m fuel x 2) r /\ is_finite r = true /\ (10007 * bpow radix2 k < 10000 * B2R r)%R.
Proof. exact pow4_f64. Qed.
Print Assumptions C81_squares_f64_refuted.
Example C81_ex : mixed_sqrt (fixed_sqrt Debug (mkFty true 32 16) 99) (4 * 2 ^ 16) = Ok 131172 /\
  map_res B2SF (niirf_flt Debug 99 (float_of_Z 24 128 4) 2) = Ok (SpecFloat.S754_finite false 8394916 (-22)).
Proof. split; vm_compute; reflexivity. Qed.

(** C82.  (The root of zero is [C01_sqrt_zero].) *)
Theorem C82_positive : forall m f, supported f = true -> fsigned f = true -> 2 <= ffrac f <= fwidth f - 4 ->
  forall it, (2 <= it)%N -> forall x, fvalid f x -> 0 < x -> exists r,
  returns (fun fuel => niirf_fixed m f fuel x it) r /\ 0 < r.
Proof. exact sqrt_positive. Qed.
Print Assumptions C82_positive.
Example C82_ex : niirf_fixed Debug (mkFty true 64 60) 99 1 2 = Ok 1074549192 /\ niirf_fixed Debug (mkFty true 8 2) 99 1 2 = Ok 1.
Proof. split; vm_compute; reflexivity. Qed.

(** C83.  Each iteration after the second divides the error by four, down to rounding. *)
Theorem C83_convergence_fixed : forall m f, supported f = true -> fsigned f = true -> 2 <= ffrac f ->
  forall n x, (/ 4 <= fval f x < 1)%R -> exists r,
  returns (fun fuel => niirf_fixed m f fuel x (N.of_nat (n + 2))) r /\
  (Rabs (fval f r - sqrt (fval f x)) <= 703 / 1000000 * (/ 4) ^ n + 145 / 100 * ulp f)%R.
Proof. exact sqrt_converges. Qed.
Print Assumptions C83_convergence_fixed.
Theorem C83_convergence_f32 : forall m (x : f32) n, is_finite x = true -> exists r : f32,
  returns (fun fuel => niirf_flt m fuel x (N.of_nat (n + 2))) r /\ is_finite r = true /\
  (Rabs (B2R r - sqrt (Rabs (B2R x))) <= (141 / 100000 * (/ 4) ^ n + / 1000000) * sqrt (Rabs (B2R x)))%R.
Proof. exact niirf_conv_f32. Qed.
Print Assumptions C83_convergence_f32.
Theorem C83_convergence_f64 : forall m (x : f64) n, is_finite x = true -> exists r : f64,
  returns (fun fuel => niirf_flt m fuel x (N.of_nat (n + 2))) r /\ is_finite r = true /\
  (Rabs (B2R r - sqrt (Rabs (B2R x))) <= (141 / 100000 * (/ 4) ^ n + / 1000000) * sqrt (Rabs (B2R x)))%R.
Proof. exact niirf_conv_f64. Qed.
Print Assumptions C83_convergence_f64.
(** sqrt(1/2) in FixedI32<U28>, 2, 4 and 12 iterations; the exact value is 189812531.1 *)
Example C83_ex : let f := mkFty true 32 28 in
  niirf_fixed Debug f 9 (2 ^ 27) 2 = Ok 189624322 /\ niirf_fixed Debug f 9 (2 ^ 27) 4 = Ok 189812436 /\
  niirf_fixed Debug f 9 (2 ^ 27) 12 = Ok 189812531.
Proof. repeat split; vm_compute; reflexivity. Qed.

(** C60, fixed point: exactly when the magnitude is zero.  Missing: non-zero values whose
    squares are below one ulp, where the property is false. *)
Theorem C60_fixed_zero_iff_partial : forall m f z, supported f = true -> fsigned f = true -> 2 <= ffrac f <= fwidth f - 4 ->
  let n := (fval f (re z) * fval f (re z) + fval f (im z) * fval f (im z))%R in
  (n <= fval f (fmax f))%R ->
  exists r, returns (fun fuel => cartesian_mag (fixed_ops m f) (fixed_sqrt m f fuel) (fixed_powi m f) z) r /\ 0 <= r /\
    (r = 0 <-> (fval f (re z) * fval f (re z) < ulp f)%R /\ (fval f (im z) * fval f (im z) < ulp f)%R).
Proof. exact fixed_mag_zero_iff. Qed.
Print Assumptions C60_fixed_zero_iff_partial.
Example C60_fixed_zero_ex : let f := mkFty true 32 16 in
  cartesian_mag (fixed_ops Debug f) (fixed_sqrt Debug f 60) (fixed_powi Debug f) (mkC 255 (-255)) = Ok 0 /\
  cartesian_mag (fixed_ops Debug f) (fixed_sqrt Debug f 60) (fixed_powi Debug f) (mkC 256 0) = Ok 256.
Proof. split; vm_compute; reflexivity. Qed.
