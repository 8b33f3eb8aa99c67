(** * FloatBase: IEEE-754 binary32/binary64 (Rust [f32]/[f64]).

    The carrier and the rounded operations are Flocq's [binary_float] with
    rounding to nearest, ties to even.  All NaNs are identified and a NaN has
    sign bit 0 (payloads and NaN signs are not modelled). *)

From Coq Require Import ZArith.
From Flocq Require Import Core.Core IEEE754.BinarySingleNaN.
From Verif Require Import Base.
Open Scope Z_scope.

Notation f32 := (binary_float 24 128).
Notation f64 := (binary_float 53 1024).

#[global] Instance prec_gt_0_24 : Prec_gt_0 24 := eq_refl.
#[global] Instance prec_gt_0_53 : Prec_gt_0 53 := eq_refl.
#[global] Instance prec_lt_emax_24 : Prec_lt_emax 24 128 := eq_refl.
#[global] Instance prec_lt_emax_53 : Prec_lt_emax 53 1024 := eq_refl.

Section Conv.
Variables prec emax : Z.
Context (Hp : Prec_gt_0 prec) (He : Prec_lt_emax prec emax).

(** [z as fN] for an integer [z] (reference: round to nearest, ties to even) *)
Definition float_of_Z (z : Z) : binary_float prec emax :=
  binary_normalize prec emax Hp He mode_NE z 0 false.

(** [z * 2^e] rounded to nearest even *)
Definition float_of_scaled (z e : Z) : binary_float prec emax :=
  binary_normalize prec emax Hp He mode_NE z e false.

(** [x as fN] for a float [x] of any format *)
Definition float_of_float {p e} (x : binary_float p e) : binary_float prec emax :=
  match x with
  | B754_zero s => B754_zero s
  | B754_infinity s => B754_infinity s
  | B754_nan => B754_nan
  | B754_finite s m ex _ =>
      binary_normalize prec emax Hp He mode_NE (cond_Zopp s (Zpos m)) ex s
  end.

(** [x as iN]: truncate toward zero, saturate, NaN becomes 0 *)
Definition int_of_float (t : ity) (x : binary_float prec emax) : Z :=
  match x with
  | B754_zero _ => 0
  | B754_infinity s => if s then imin t else imax t
  | B754_nan => 0
  | B754_finite _ _ _ _ =>
      let z := Btrunc x in
      if z <? imin t then imin t else if imax t <? z then imax t else z
  end.
End Conv.
Arguments float_of_float prec emax {Hp He p e} x.
Arguments float_of_Z prec emax {Hp He} z.
Arguments float_of_scaled prec emax {Hp He} z e.
Arguments int_of_float {prec emax} t x.
