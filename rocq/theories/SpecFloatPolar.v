(** * Spec, continued: what is asked of the libm routines, and ideal ones that meet it. *)

From Coq Require Import ZArith Reals.
From Flocq Require Import Core.Core IEEE754.BinarySingleNaN.
From Verif Require Import Base FloatBase Traits SpecAngle.

Section S.
Context {prec emax : Z} {Hp : Prec_gt_0 prec} {He : Prec_lt_emax prec emax}.
Notation float := (binary_float prec emax).

(** on every finite angle of magnitude at most [b], (sine, cosine) within [d] *)
Definition accurate_sincos_float (b d : R) (Sn : MixedSin float) : Prop :=
  forall a : float, is_finite a = true -> (Rabs (B2R a) <= b)%R -> exists s c : float,
    mixed_sincos Sn a = Ok (s, c) /\ is_finite s = true /\ is_finite c = true /\
    (Rabs (B2R s - sin (B2R a)) <= d)%R /\ (Rabs (B2R c - cos (B2R a)) <= d)%R.

(** on every finite pair that is not (0, 0), an angle within [d] of the true one; for a negative zero [y] and a
    negative [x] the C library returns -pi, which is allowed as well *)
Definition accurate_atan2_float (d : R) (A : MixedAtan float) : Prop :=
  forall (y x : float) th, is_finite y = true -> is_finite x = true -> is_angle (B2R y) (B2R x) th -> exists a : float,
    mixed_atan2 A y x = Ok a /\ is_finite a = true /\
    ((Rabs (B2R a - th) <= d)%R \/ (y = B754_zero true /\ th = PI /\ (Rabs (B2R a + PI) <= d)%R)).

(** the float nearest to the real [v] cut to [prec] fractional bits *)
Definition ideal_float (v : R) : float :=
  binary_normalize prec emax Hp He mode_NE (Zfloor (v * bpow radix2 prec)) (- prec) false.
Definition ideal_sin_float : MixedSin float := {|
  mixed_sin := fun a => Ok (ideal_float (sin (B2R a)));
  mixed_sincos := fun a => Ok (ideal_float (sin (B2R a)), ideal_float (cos (B2R a)));
  mixed_asin := fun a => Ok (ideal_float (asin (B2R a)))
|}.
Definition ideal_atan_float (angle : R -> R -> R) : MixedAtan float := {|
  mixed_atan := fun a => Ok (ideal_float (atan (B2R a)));
  mixed_atan2 := fun y x => Ok (ideal_float (angle (B2R y) (B2R x)));
  mixed_atan2_poly := fun y x => Ok (ideal_float (angle (B2R y) (B2R x)))
|}.
End S.
