(** * Property C151: complex quotients through the conjugate.

    The operator [/] of the library does not return the quotient (C35).  The program [quotient] of SpecQuot multiplies by the conjugate and divides
    by the real number w conj(w); [Q] below is the true quotient, the complex number with Q w = z. *)

From Coq Require Import ZArith Reals List Lra Lia.
From Flocq Require Import Core.Core IEEE754.BinarySingleNaN.
From Verif Require Import Base FloatBase Literals Traits IntImpl FixedPrim FixedImpl FloatImpl Complex Spec SpecFilter SpecRotor SpecQuot QuotProofs.
Import ListNotations.
Open Scope Z_scope.
Notation finite z := (is_finite (re z) = true /\ is_finite (im z) = true).

Theorem C151_quotient_fixed : forall m f, supported f = true -> fsigned f = true -> forall z w Q, let N := (cabs (cval f w) * cabs (cval f w))%R in let g := (224 / 100 * ulp f)%R in
  cmul Q (cval f w) = cval f z -> (g < N)%R -> (N + g <= fval f (fmax f))%R -> (cabs (cval f z) * cabs (cval f w) + g <= fval f (fmax f))%R ->
  let e := ((1 + cabs Q) * g / (N - g))%R in (cabs Q + e <= fval f (fmax f))%R ->
  exists r, quotient (fixed_ops m f) (fixed_signed m f) z w = Ok r /\ (cabs (csub (cval f r) Q) <= e + 14143 / 10000 * ulp f)%R.
Proof. exact quotient_fixed. Qed.
Print Assumptions C151_quotient_fixed.
(** (1 + 2i) / (3 + 4i) = 0.44 + 0.08i in I16F16 *)
Example C151_fixed_case : let f := mkFty true 32 16 in quotient (fixed_ops Debug f) (fixed_signed Debug f) (mkC 65536 131072) (mkC 196608 262144) = Ok (mkC 28835 5242) /\
  cmul (44 / 100, 8 / 100)%R (cval f (mkC 196608 262144)) = cval f (mkC 65536 131072) /\
  cabs (cval f (mkC 196608 262144)) = 5%R /\ (224 / 100 * ulp f < 25)%R /\ (25 + 224 / 100 * ulp f <= fval f (fmax f))%R.
Proof.
  split; [reflexivity|]. unfold cval, fval, ulp, cmul. cbn. split; [f_equal; lra|]. split; [|lra].
  unfold cabs. cbn [fst snd]. replace (196608 * / 65536 * (196608 * / 65536) + 262144 * / 65536 * (262144 * / 65536))%R with (5 * 5)%R by field. apply sqrt_square. lra.
Qed.

(** Relative error of ten rounding units on floats, for all operands whose squares and products stay well inside the range. *)
Theorem C151_quotient_f32 : forall (z w : Cartesian f32) Q, finite z -> finite w -> cmul Q (cvalf w) = cvalf z ->
  (cabs (cvalf z) <= bpow radix2 60)%R -> (cabs (cvalf w) <= bpow radix2 60)%R ->
  (bpow radix2 (-59) <= cabs (cvalf w) * cabs (cvalf w))%R -> (bpow radix2 (-59) <= cabs (cvalf z) * cabs (cvalf w))%R ->
  exists r, quotient float_ops float_signed z w = Ok r /\ finite r /\ (cabs (csub (cvalf r) Q) <= 10 * bpow radix2 (-24) * cabs Q + bpow radix2 (-149))%R.
Proof. exact (quotient_float (prec := 24) (emax := 128) ltac:(lia) ltac:(lia)). Qed.
Print Assumptions C151_quotient_f32.
Theorem C151_quotient_f64 : forall (z w : Cartesian f64) Q, finite z -> finite w -> cmul Q (cvalf w) = cvalf z ->
  (cabs (cvalf z) <= bpow radix2 508)%R -> (cabs (cvalf w) <= bpow radix2 508)%R ->
  (bpow radix2 (-507) <= cabs (cvalf w) * cabs (cvalf w))%R -> (bpow radix2 (-507) <= cabs (cvalf z) * cabs (cvalf w))%R ->
  exists r, quotient float_ops float_signed z w = Ok r /\ finite r /\ (cabs (csub (cvalf r) Q) <= 10 * bpow radix2 (-53) * cabs Q + bpow radix2 (-1074))%R.
Proof. exact (quotient_float (prec := 53) (emax := 1024) ltac:(lia) ltac:(lia)). Qed.
Print Assumptions C151_quotient_f64.
(** (5 + 10i) / (3 + 4i) = 2.2 + 0.4i *)
Example C151_f32_case : match quotient float_ops float_signed (mkC (float_of_Z 24 128 5) (float_of_Z 24 128 10)) (mkC (float_of_Z 24 128 3) (float_of_Z 24 128 4)) with
  | Ok r => (B2SF (re r), B2SF (im r)) | _ => (SpecFloat.S754_nan, SpecFloat.S754_nan) end = (SpecFloat.S754_finite false 9227469 (-22), SpecFloat.S754_finite false 13421773 (-25)).
Proof. vm_compute. reflexivity. Qed.

(** Signed integers: the remainder is smaller than sqrt 2 |w|, and a divisible number is divided exactly. *)
Theorem C151_quotient_int : forall m t, isigned t = true -> forall z w, let a := re z in let b := im z in let c := re w in let d := im w in let N := c * c + d * d in
  N <> 0 -> (Z.abs a + Z.abs b) * (Z.abs c + Z.abs d) <= imax t -> (Z.abs c + Z.abs d) * (Z.abs c + Z.abs d) <= imax t ->
  exists r, quotient (int_ops m t) (int_signed m t) z w = Ok r /\
  (let x := a - (re r * c - im r * d) in let y := b - (re r * d + im r * c) in x * x + y * y < 2 * N) /\
  (forall q1 q2, a = q1 * c - q2 * d -> b = q1 * d + q2 * c -> r = mkC q1 q2).
Proof. exact quotient_int. Qed.
Print Assumptions C151_quotient_int.
Example C151_int_case : quotient (int_ops Debug i32) (int_signed Debug i32) (mkC (-11) 23) (mkC 5 (-2)) = Ok (mkC (-3) 3) /\
  quotient (int_ops Debug i32) (int_signed Debug i32) (mkC (-9) 21) (mkC 5 (-2)) = Ok (mkC (-3) 3) /\
  (Z.abs (-11) + Z.abs 23) * (Z.abs 5 + Z.abs (-2)) <= imax i32.
Proof. split; [reflexivity|]. split; [reflexivity|]. cbn. lia. Qed.
