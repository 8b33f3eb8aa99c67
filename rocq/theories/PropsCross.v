(** * Property C108: the same generic code on a fixed-point and on a float type. *)

From Coq Require Import ZArith Reals Lra List.
From Flocq Require Import Core.Core IEEE754.BinarySingleNaN.
From Verif Require Import Base FloatBase Literals Traits Trig IntImpl FixedPrim FixedImpl FloatImpl Spec
  CrossSin CrossAtan CrossSqrt.
Open Scope Z_scope.

(** C108.  Both types compute the same real function up to rounding: the difference is a few
    units in the last place of either type (plus the difference of the arguments), although
    both may be much further from the mathematical sine, angle or root. *)
Theorem C108_sin : forall m f, supported f = true -> fsigned f = true -> ffrac f <= fwidth f - 20 ->
  ((forall x (y : f32), Rabs (fval f x) <= PI -> is_finite y = true -> Rabs (B2R y) <= PI -> exists r (s : f32),
    sin (fixed_ops m f) (fixed_signed m f) (fixed_pi m f) (fixed_powi m f) x = Ok r /\
    sin float_ops float_signed float_pi float_powi y = Ok s /\ is_finite s = true /\
    Rabs (fval f r - B2R s) <= Rabs (fval f x - B2R y) + 405 / 100 * ulp f + 10 * bpow radix2 (-24)) /\
  (forall x (y : f64), Rabs (fval f x) <= PI -> is_finite y = true -> Rabs (B2R y) <= PI -> exists r (s : f64),
    sin (fixed_ops m f) (fixed_signed m f) (fixed_pi m f) (fixed_powi m f) x = Ok r /\
    sin float_ops float_signed float_pi float_powi y = Ok s /\ is_finite s = true /\
    Rabs (fval f r - B2R s) <= Rabs (fval f x - B2R y) + 405 / 100 * ulp f + 10 * bpow radix2 (-53)))%R.
Proof. exact cross_sin. Qed.
Print Assumptions C108_sin.
Theorem C108_atan2 : forall m f, supported f = true -> fsigned f = true -> forall y x,
  let M := Rmax (Rabs (fval f x)) (Rabs (fval f y)) in
  (16 * ulp f <= M * M -> 3 / 2 * (M * M) <= fval f (fmax f) ->
  (forall yf xf : f32, is_finite yf = true -> is_finite xf = true -> B2R yf = fval f y -> B2R xf = fval f x ->
   exists r s, fixed_atan2_poly m f y x = Ok r /\ float_atan2_poly yf xf = Ok s /\ is_finite s = true /\
   Rabs (fval f r - B2R s) <= (3 + 5 / (M * M)) * ulp f + 19 * bpow radix2 (-24)) /\
  (forall yf xf : f64, is_finite yf = true -> is_finite xf = true -> B2R yf = fval f y -> B2R xf = fval f x ->
   exists r s, fixed_atan2_poly m f y x = Ok r /\ float_atan2_poly yf xf = Ok s /\ is_finite s = true /\
   Rabs (fval f r - B2R s) <= (3 + 5 / (M * M)) * ulp f + 28 * bpow radix2 (-53)))%R.
Proof. exact cross_atan. Qed.
Print Assumptions C108_atan2.
Theorem C108_niirf : forall m f, supported f = true -> fsigned f = true -> 4 <= ffrac f <= fwidth f - 4 ->
  forall it, (2 <= it)%N -> forall x, fvalid f x -> 0 <= x ->
  (forall xf : f32, is_finite xf = true -> B2R xf = fval f x ->
   exists r s, returns (fun fuel => niirf (fixed_ops m f) (fixed_zero m f) (fixed_abs m f) (fixed_powi m f) m fuel x it) r /\
   returns (fun fuel => niirf float_ops float_zero float_abs float_powi m fuel xf it) s /\ is_finite s = true /\
   (Rabs (fval f r - B2R s) <= 7 / 2 * ulp f * Rmax 1 (2 * sqrt (fval f x)) + 13 * bpow radix2 (-24) * sqrt (fval f x))%R) /\
  (forall xf : f64, is_finite xf = true -> B2R xf = fval f x ->
   exists r s, returns (fun fuel => niirf (fixed_ops m f) (fixed_zero m f) (fixed_abs m f) (fixed_powi m f) m fuel x it) r /\
   returns (fun fuel => niirf float_ops float_zero float_abs float_powi m fuel xf it) s /\ is_finite s = true /\
   (Rabs (fval f r - B2R s) <= 7 / 2 * ulp f * Rmax 1 (2 * sqrt (fval f x)) + 90 * bpow radix2 (-53) * sqrt (fval f x))%R).
Proof. exact cross_sqrt. Qed.
Print Assumptions C108_niirf.
(** the values 1, (y, x) = (1, 2) and 2 in 12 fractional bits and as f32: the sines 3448/4096
    and 0.84147..., the angles 1913/4096 and 0.46715..., the roots 5786/4096 and 1.41281... *)
Example C108_ex : let f := mkFty true 32 12 in let one := float_of_Z 24 128 1 in let two := float_of_Z 24 128 2 in
  supported f = true /\ ffrac f <= fwidth f - 20 /\ 4 <= ffrac f <= fwidth f - 4 /\ fvalid f 8192 /\ is_finite one = true /\ is_finite two = true /\
  sin (fixed_ops Debug f) (fixed_signed Debug f) (fixed_pi Debug f) (fixed_powi Debug f) 4096 = Ok 3448 /\
  fixed_atan2_poly Debug f 4096 8192 = Ok 1913 /\
  niirf (fixed_ops Debug f) (fixed_zero Debug f) (fixed_abs Debug f) (fixed_powi Debug f) Debug 101 8192 2 = Ok 5786 /\
  option_map B2SF (match sin float_ops float_signed float_pi float_powi one with Ok s => Some s | _ => None end) = Some (SpecFloat.S754_finite false 14117540 (-24)) /\
  option_map B2SF (match float_atan2_poly one two with Ok s => Some s | _ => None end) = Some (SpecFloat.S754_finite false 15675063 (-25)) /\
  option_map B2SF (match niirf float_ops float_zero float_abs float_powi Debug 101 two 2 with Ok s => Some s | _ => None end) = Some (SpecFloat.S754_finite false 11851520 (-23)).
Proof. repeat split; vm_compute; congruence. Qed.
