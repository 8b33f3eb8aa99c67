(** * Property C159: the variance, written with the crate's operators. *)

From Coq Require Import ZArith Reals List Lia Lra.
From Flocq Require Import Core.Core IEEE754.BinarySingleNaN.
From Verif Require Import Base FloatBase Traits FixedPrim FixedImpl FloatImpl Spec SpecBlend SpecVar VarProofs VarExamples.
Import ListNotations.
Open Scope Z_scope.

Notation flt p e := (binary_float p e).
Notation u p := (bpow radix2 (- p)).
Notation eta p e := (bpow radix2 (3 - e - p)).

(** Fixed point, two passes.  When the type holds the sums, the variance never panics, lies between 0 and the square of the spread, is less than
    2 steps below the exact variance and at most one squared step above it. *)
Theorem C159_two_pass_fixed : forall m f, supported f = true -> forall l lo hi, l <> [] -> (forall x, In x l -> lo <= x <= hi) ->
  let n := Z.of_nat (length l) in
  fvalid f (n * lo) -> fvalid f (n * hi) -> fvalid f (lo - hi) -> fvalid f (hi - lo) -> fvalid f (n * fone f) -> fvalid f (n * ((hi - lo) * (hi - lo) / fone f)) ->
  exists r, variance (fixed_ops m f) 0 l = Ok r /\ 0 <= r <= (hi - lo) * (hi - lo) / fone f /\
  (varR (map (fval f) l) - 2 * ulp f < fval f r <= varR (map (fval f) l) + ulp f ^ 2)%R.
Proof. exact variance_fixed. Qed.
Print Assumptions C159_two_pass_fixed.
(** equal samples have variance exactly 0 *)
Theorem C159_same_fixed : forall m f, supported f = true -> forall x n, (0 < n)%nat -> fvalid f x -> fvalid f (Z.of_nat n * x) -> fvalid f (Z.of_nat n * fone f) ->
  variance (fixed_ops m f) 0 (repeat x n) = Ok 0.
Proof. exact variance_same. Qed.
Print Assumptions C159_same_fixed.
(** Floats, two passes: whatever the samples, the result is NaN or not negative. *)
Theorem C159_sign_float : forall p e {Hp : Prec_gt_0 p} {He : Prec_lt_emax p e}, forall l : list (flt p e),
  exists r, variance float_ops (B754_zero false) l = Ok r /\ (is_nan r = true \/ Bsign r = false).
Proof. exact @variance_sign. Qed.
Print Assumptions C159_sign_float.
(** Floats, two passes: the distance from the exact variance. *)
Theorem C159_two_pass_float : forall p e {Hp : Prec_gt_0 p} {He : Prec_lt_emax p e}, 24 <= p -> 128 <= e ->
  forall (l : list (flt p e)) B, l <> [] -> (forall x, In x l -> is_finite x = true /\ (Rabs (B2R x) <= B)%R) -> (1 <= B)%R -> Z.of_nat (length l) < 2 ^ (p - 2) ->
  let n := INR (length l) in (32 * n * B ^ 2 <= bpow radix2 (e - 2))%R ->
  let V := varR (map B2R l) in let D := (2 * (n + 1) * u p * B + eta p e)%R in
  exists r, variance float_ops (B754_zero false) l = Ok r /\ is_finite r = true /\ (0 <= B2R r)%R /\
  (Rabs (B2R r - V) <= D ^ 2 + (2 * n + 9) * u p * (V + D ^ 2) + 2 * eta p e)%R.
Proof. exact @variance_float. Qed.
Print Assumptions C159_two_pass_float.
(** One pass (the average of the squares less the square of the average) can be negative on every one of the three kinds of number. *)
Theorem C159_one_pass_fixed : exists f l r, supported f = true /\ variance1 (fixed_ops Debug f) 0 l = Ok r /\ r < 0.
Proof. exact one_pass_fixed. Qed.
Print Assumptions C159_one_pass_fixed.
Theorem C159_one_pass_f32 : exists (x r : f32), is_finite x = true /\ variance1 float_ops (B754_zero false) [x; x; x] = Ok r /\ (B2R r < 0)%R.
Proof. exact one_pass_f32. Qed.
Print Assumptions C159_one_pass_f32.
Theorem C159_one_pass_f64 : exists (x r : f64), is_finite x = true /\ variance1 float_ops (B754_zero false) [x; x; x] = Ok r /\ (B2R r < 0)%R.
Proof. exact one_pass_f64. Qed.
Print Assumptions C159_one_pass_f64.
(** FixedI32<U16>: the samples 1, 2, 3, 4 have variance 1.25, in every sense *)
Example C159_ex_fixed : let f := mkFty true 32 16 in let l := [65536; 131072; 196608; 262144] in
  supported f = true /\ (forall x, In x l -> 65536 <= x <= 262144) /\ variance (fixed_ops Debug f) 0 l = Ok 81920 /\
  fvalid f (4 * 65536) /\ fvalid f (4 * 262144) /\ fvalid f (65536 - 262144) /\ fvalid f (262144 - 65536) /\ fvalid f (4 * fone f) /\ fvalid f (4 * ((262144 - 65536) * (262144 - 65536) / fone f)).
Proof. exact ex_fixed. Qed.
(** f32: the same samples *)
Example C159_ex_f32 : let l := map (float_of_Z 24 128) [1; 2; 3; 4] in
  map_res B2SF (variance float_ops (B754_zero false) l) = Ok (SpecFloat.S754_finite false 10485760 (-23)) /\
  (forall x, In x l -> is_finite x = true /\ (Rabs (B2R x) <= 4)%R) /\ (32 * 4 * 4 ^ 2 <= bpow radix2 (128 - 2))%R.
Proof. exact ex_f32. Qed.
