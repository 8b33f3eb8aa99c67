(** * Vocabulary for the complex exponential of floats. *)

From Coq Require Import ZArith Reals.
From Flocq Require Import Core.Core IEEE754.BinarySingleNaN.
From Verif Require Import Base FloatBase Traits SpecDb.
Open Scope Z_scope.

(** the true exponential of a pair of reals *)
Definition cexp (z : R * R) : R * R := (exp (fst z) * Rtrigo_def.cos (snd z), exp (fst z) * Rtrigo_def.sin (snd z))%R.
(** an exponential routine with relative error at most [d] wherever the value is an ordinary number *)
Definition exp_within {p e : Z} (d : R) (E : MixedExp (binary_float p e)) : Prop :=
  forall x, is_finite x = true -> (bpow radix2 (3 - e) <= exp (B2R x) <= bpow radix2 (e - 1))%R ->
    exists r, mixed_exp E x = Ok r /\ is_finite r = true /\ (Rabs (B2R r - exp (B2R x)) <= d * exp (B2R x))%R.
(** error of a complex exponential relative to its size, with sine/cosine error [d], relative exponential error [g], unit roundoff 2^-p *)
Definition exp_err (p : Z) (d g : R) : R := (1416 / 1000 * d + 1001 / 1000 * g + 2 * bpow radix2 (- p))%R.
(** correctly rounded routines *)
Definition best_exp {p e : Z} {Hp : Prec_gt_0 p} {He : Prec_lt_emax p e} : MixedExp (binary_float p e) :=
  {| mixed_exp := fun x => Ok (nearest_float (exp (B2R x))) |}.
Definition best_sin {p e : Z} {Hp : Prec_gt_0 p} {He : Prec_lt_emax p e} : MixedSin (binary_float p e) := {|
  mixed_sin := fun x => Ok (nearest_float (Rtrigo_def.sin (B2R x)));
  mixed_sincos := fun x => Ok (nearest_float (Rtrigo_def.sin (B2R x)), nearest_float (Rtrigo_def.cos (B2R x)));
  mixed_asin := fun x => Ok (nearest_float (asin (B2R x)))
|}.
