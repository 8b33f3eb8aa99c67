(** * Properties C01-C07, C52, C53: the NIIRF square root. *)

From Coq Require Import ZArith Reals List.
From Flocq Require Import Core.Core IEEE754.BinarySingleNaN.
From Verif Require Import Base FloatBase Literals Traits Trig IntImpl FixedPrim FixedImpl FloatImpl Complex Spec
  NiirfFixed3 NiirfFixed4 NiirfInt NiirfFloat.
Open Scope Z_scope.

(** [sqrt::niirf(x, it)] at a fixed-point type *)
Notation niirf_fixed m f := (niirf (fixed_ops m f) (fixed_zero m f) (fixed_abs m f) (fixed_powi m f) m).
(** [sqrt::niirf(x, it)] at an integer type *)
Notation niirf_integer m t := (niirf (int_ops m t) (int_zero t) (int_abs m t) (int_powi m t) m).

(** [sqrt::niirf(x, it)] at a float type *)
Notation niirf_flt m := (niirf float_ops float_zero float_abs float_powi m).

(** C01. *)
Theorem C01_sqrt_fixed : forall m f, supported f = true -> fsigned f = true -> 2 <= ffrac f <= fwidth f - 4 ->
  forall x, fvalid f x -> 0 <= x -> exists r,
  returns (fun fuel => mixed_sqrt (fixed_sqrt m f fuel) x) r /\
  returns (fun fuel => mixed_niirf (fixed_sqrt m f fuel) x) r /\
  (Rabs (fval f r - sqrt (fval f x)) <= (/ 1000 + 5 * ulp f) * sqrt (fval f x) + 3 * ulp f)%R.
Proof. exact sqrt_fixed_api. Qed.
Print Assumptions C01_sqrt_fixed.
Theorem C01_niirf_fixed : forall m f, supported f = true -> fsigned f = true -> 2 <= ffrac f <= fwidth f - 4 ->
  forall it, (2 <= it)%N -> forall x, fvalid f x -> 0 <= x -> exists r,
  returns (fun fuel => niirf_fixed m f fuel x it) r /\
  (Rabs (fval f r - sqrt (fval f x)) <= (/ 1000 + 5 * ulp f) * sqrt (fval f x) + 3 * ulp f)%R.
Proof. exact sqrt_fixed_acc. Qed.
Print Assumptions C01_niirf_fixed.
Theorem C01_sqrt_zero : forall m f, supported f = true -> forall fuel,
  mixed_sqrt (fixed_sqrt m f fuel) 0 = Ok 0 /\ mixed_niirf (fixed_sqrt m f fuel) 0 = Ok 0.
Proof. exact sqrt_zero_api. Qed.
Print Assumptions C01_sqrt_zero.
Example C01_ex : supported (mkFty true 32 22) = true /\ fvalid (mkFty true 32 22) (2 * 2 ^ 22) /\
  mixed_sqrt (fixed_sqrt Debug (mkFty true 32 22) 100) (2 * 2 ^ 22) = Ok 5925760.
Proof. repeat split; vm_compute; congruence. Qed.

(** C02 is false: with two iterations the error at 1/2 exceeds 5e-4, on every format with at
    least 13 fractional bits. *)
Theorem C02_doc_accuracy_refuted : forall m f, supported f = true -> fsigned f = true -> 13 <= ffrac f ->
  exists x r, (fval f x = 1 / 2)%R /\ returns (fun fuel => niirf_fixed m f fuel x 2) r /\
  (5 / 10000 < Rabs (fval f r - sqrt (fval f x)))%R.
Proof. exact sqrt_half_bad. Qed.
Print Assumptions C02_doc_accuracy_refuted.
(** What two iterations give: 703e-6.  Missing: the documented 500e-6, which is false. *)
Theorem C02_doc_accuracy_partial : forall m f, supported f = true -> fsigned f = true -> 2 <= ffrac f ->
  forall x, (/ 4 <= fval f x < 1)%R -> exists r,
  returns (fun fuel => niirf_fixed m f fuel x 2) r /\
  (Rabs (fval f r - sqrt (fval f x)) <= 703 / 1000000 + 145 / 100 * ulp f)%R.
Proof. exact sqrt_norm_two. Qed.
Print Assumptions C02_doc_accuracy_partial.
Example C02_ex : fval (mkFty true 32 28) (2 ^ 27) = (1 / 2)%R /\
  niirf_fixed Debug (mkFty true 32 28) 9 (2 ^ 27) 2 = Ok 189624322.
Proof. split; [unfold fval; cbn; field | vm_compute; reflexivity]. Qed.

(** C52.  One more iteration than documented reaches the documented accuracy. *)
Theorem C52_three_iterations : forall m f, supported f = true -> fsigned f = true -> 2 <= ffrac f ->
  forall it, (3 <= it)%N -> forall x, (/ 4 <= fval f x < 1)%R -> exists r,
  returns (fun fuel => niirf_fixed m f fuel x it) r /\
  (Rabs (fval f r - sqrt (fval f x)) <= 176 / 1000000 + 145 / 100 * ulp f)%R.
Proof. exact sqrt_norm_three. Qed.
Print Assumptions C52_three_iterations.
Example C52_ex : niirf_fixed Debug (mkFty true 32 28) 9 (2 ^ 27) 3 = Ok 189808261.
Proof. vm_compute. reflexivity. Qed.

(** C03, fixed-point part. *)
Theorem C03_negative_fixed : forall m f, supported f = true -> fsigned f = true ->
  forall x, fvalid f x -> x <> fmin f ->
  forall fuel it, niirf_fixed m f fuel (- x) it = niirf_fixed m f fuel x it.
Proof. exact niirf_neg_fixed. Qed.
Print Assumptions C03_negative_fixed.
Example C03_ex : fvalid (mkFty true 32 28) (- 2 ^ 30) /\ - 2 ^ 30 <> fmin (mkFty true 32 28) /\
  niirf_fixed Debug (mkFty true 32 28) 99 (- 2 ^ 30) 2 = Ok 537274596.
Proof. repeat split; vm_compute; congruence. Qed.

(** C03, floats.  [Bopp] is the negation of the type. *)
Theorem C03_negative_f32 : forall m fuel (x : f32) it, niirf_flt m fuel (Bopp x) it = niirf_flt m fuel x it.
Proof. exact niirf_neg_f32. Qed.
Print Assumptions C03_negative_f32.
Theorem C03_negative_f64 : forall m fuel (x : f64) it, niirf_flt m fuel (Bopp x) it = niirf_flt m fuel x it.
Proof. exact niirf_neg_f64. Qed.
Print Assumptions C03_negative_f64.

(** C04 is false: with three integer bits (sign included) the constant 4 is not representable.
    Every value outside [1/4,1) panics in debug builds; in release builds the root of 1 is negative. *)
Theorem C04_three_int_bits_refuted : forall f, supported f = true -> fsigned f = true -> ffrac f = fwidth f - 3 ->
  (exists x, fval f x = 1%R /\ fvalid f x /\
     panics (fun fuel => mixed_sqrt (fixed_sqrt Debug f fuel) x) POverflow) /\
  (exists x r, fval f x = 1%R /\ returns (fun fuel => mixed_sqrt (fixed_sqrt Release f fuel) x) r /\ (fval f r < 0)%R).
Proof. exact sqrt_three_bits. Qed.
Print Assumptions C04_three_int_bits_refuted.
(** Exactly which calls panic.  Missing: the panicking ones, where the property is false. *)
Theorem C04_sqrt_panic_iff_partial : forall f, supported f = true -> fsigned f = true ->
  forall it x, (2 <= it)%N -> fvalid f x -> 0 <= x ->
  ((exists p, panics (fun fuel => niirf_fixed Debug f fuel x it) p) <->
   ffrac f = fwidth f - 3 /\ (0 < fval f x < / 4 \/ 1 <= fval f x)%R).
Proof. exact sqrt_panic_iff. Qed.
Print Assumptions C04_sqrt_panic_iff_partial.
Example C04_ex : supported (mkFty true 8 5) = true /\ fvalid (mkFty true 8 5) 32 /\
  niirf_fixed Debug (mkFty true 8 5) 9 32 2 = Panic POverflow /\
  niirf_fixed Debug (mkFty true 8 5) 9 20 2 = Ok 25.
Proof. repeat split; vm_compute; congruence. Qed.

(** C05 is false: an unsigned format has a value whose root panics in debug builds exactly if it
    has 4 or at least 6 fractional bits ([x - y*y] is negative when the first guess is above the root). *)
Theorem C05_unsigned_refuted : forall f, supported f = true -> fsigned f = false ->
  ((exists x p, fvalid f x /\ panics (fun fuel => mixed_sqrt (fixed_sqrt Debug f fuel) x) p) <->
   ffrac f = 4 \/ 6 <= ffrac f).
Proof. exact unsigned_iff. Qed.
Print Assumptions C05_unsigned_refuted.
(** What holds in debug builds: an accurate root, or a panic; nothing else, and no infinite loop.
    Missing: the panicking values, where the property is false. *)
Theorem C05_unsigned_partial : forall f, supported f = true -> 2 <= ffrac f -> fsigned f = false ->
  forall it, (2 <= it)%N -> forall x, fvalid f x ->
  (exists r, returns (fun fuel => niirf_fixed Debug f fuel x it) r /\
   (Rabs (fval f r - sqrt (fval f x)) <= (/ 1000 + 5 * ulp f) * sqrt (fval f x) + 3 * ulp f)%R) \/
  panics (fun fuel => niirf_fixed Debug f fuel x it) POverflow.
Proof. exact sqrt_unsigned. Qed.
Print Assumptions C05_unsigned_partial.
Example C05_ex : supported (mkFty false 16 8) = true /\ 
  mixed_sqrt (fixed_sqrt Debug (mkFty false 16 8) 9) 64 = Panic POverflow /\
  mixed_sqrt (fixed_sqrt Debug (mkFty false 16 8) 9) 128 = Ok 180.
Proof. repeat split; vm_compute; congruence. Qed.

(** C06.  Finite arguments: the trait method (two iterations) and every larger iteration count. *)
Theorem C06_niirf_f32 : forall m (x : f32) it, is_finite x = true -> (2 <= it)%N -> exists r : f32,
  returns (fun fuel => niirf_flt m fuel x it) r /\ is_finite r = true /\
  (Rabs (B2R r - sqrt (Rabs (B2R x))) <= / 1000 * sqrt (Rabs (B2R x)))%R.
Proof. exact niirf_f32. Qed.
Print Assumptions C06_niirf_f32.
Theorem C06_niirf_f64 : forall m (x : f64) it, is_finite x = true -> (2 <= it)%N -> exists r : f64,
  returns (fun fuel => niirf_flt m fuel x it) r /\ is_finite r = true /\
  (Rabs (B2R r - sqrt (Rabs (B2R x))) <= / 1000 * sqrt (Rabs (B2R x)))%R.
Proof. exact niirf_f64. Qed.
Print Assumptions C06_niirf_f64.
(** NaN is propagated; infinities loop forever in release builds and overflow the loop
    counter in debug builds. *)
Theorem C06_special_f32 : forall it,
  (forall m, returns (fun fuel => niirf_flt m fuel (B754_nan : f32) it) B754_nan) /\
  forall s, diverges (fun fuel => niirf_flt Release fuel (B754_infinity s : f32) it) /\
            panics (fun fuel => niirf_flt Debug fuel (B754_infinity s : f32) it) POverflow.
Proof. exact special_f32. Qed.
Print Assumptions C06_special_f32.
Theorem C06_special_f64 : forall it,
  (forall m, returns (fun fuel => niirf_flt m fuel (B754_nan : f64) it) B754_nan) /\
  forall s, diverges (fun fuel => niirf_flt Release fuel (B754_infinity s : f64) it) /\
            panics (fun fuel => niirf_flt Debug fuel (B754_infinity s : f64) it) POverflow.
Proof. exact special_f64. Qed.
Print Assumptions C06_special_f64.
Example C06_ex : map_res B2SF (mixed_niirf (float_sqrt Debug (fun x => x) 99) (float_of_Z 24 128 (-2))) =
  Ok (SpecFloat.S754_finite false 11851520 (-23)).
Proof. vm_compute. reflexivity. Qed.

(** C52 on floats. *)
Theorem C52_three_iterations_f32 : forall m (x : f32) it, is_finite x = true -> (2 <= it)%N -> (/ 4 <= Rabs (B2R x) < 1)%R ->
  exists r : f32, returns (fun fuel => niirf_flt m fuel x it) r /\ is_finite r = true /\
  (Rabs (B2R r - sqrt (Rabs (B2R x))) <= 703 / 1000000)%R /\
  ((3 <= it)%N -> (Rabs (B2R r - sqrt (Rabs (B2R x))) <= 177 / 1000000)%R).
Proof. exact niirf_f32_norm. Qed.
Print Assumptions C52_three_iterations_f32.
Theorem C52_three_iterations_f64 : forall m (x : f64) it, is_finite x = true -> (2 <= it)%N -> (/ 4 <= Rabs (B2R x) < 1)%R ->
  exists r : f64, returns (fun fuel => niirf_flt m fuel x it) r /\ is_finite r = true /\
  (Rabs (B2R r - sqrt (Rabs (B2R x))) <= 703 / 1000000)%R /\
  ((3 <= it)%N -> (Rabs (B2R r - sqrt (Rabs (B2R x))) <= 177 / 1000000)%R).
Proof. exact niirf_f64_norm. Qed.
Print Assumptions C52_three_iterations_f64.

(** C07 is false: the result is always zero. *)
Theorem C07_int_refuted : forall m t, In t int_types -> forall x it, in_range t x -> isigned t = false \/ x <> imin t ->
  returns (fun fuel => niirf_integer m t fuel x it) 0.
Proof. exact niirf_int. Qed.
Print Assumptions C07_int_refuted.
(** and the most negative value: panic (debug) or zero (release) *)
Theorem C07_int_min : forall t it, In t int_types -> isigned t = true ->
  panics (fun fuel => niirf_integer Debug t fuel (imin t) it) POverflow /\
  returns (fun fuel => niirf_integer Release t fuel (imin t) it) 0.
Proof. exact niirf_int_min. Qed.
Print Assumptions C07_int_min.
Example C07_ex : In i32 int_types /\ in_range i32 1000000 /\ niirf_integer Debug i32 101 1000000 2 = Ok 0.
Proof. split; [cbn; tauto|]. repeat split; vm_compute; congruence. Qed.

(** C53.  Formats with no or one fractional bit. *)
Theorem C53_no_fraction : forall m f, supported f = true -> fsigned f = false \/ ffrac f <= fwidth f - 4 -> ffrac f = 0 ->
  forall it x, fvalid f x -> 0 <= x -> returns (fun fuel => niirf_fixed m f fuel x it) 0.
Proof. exact sqrt_frac0. Qed.
Print Assumptions C53_no_fraction.
Theorem C53_one_fraction_bit : forall m f, supported f = true -> fsigned f = false \/ ffrac f <= fwidth f - 4 -> ffrac f = 1 ->
  forall it x, fvalid f x -> 0 < x -> exists r k, returns (fun fuel => niirf_fixed m f fuel x it) r /\
  r = 2 ^ k /\ 0 <= k /\ (fval f r <= sqrt (fval f x) < 2 * fval f r)%R.
Proof. exact sqrt_frac1_pow. Qed.
Print Assumptions C53_one_fraction_bit.
Example C53_ex : niirf_fixed Debug (mkFty true 16 0) 99 10000 2 = Ok 0 /\
  niirf_fixed Debug (mkFty true 16 1) 99 20000 2 = Ok (64 * 2).
Proof. split; vm_compute; reflexivity. Qed.
