(** * Vocabulary for the complex exponential in fixed point. *)

From Coq Require Import ZArith Reals.
From Verif Require Import Base Traits FixedPrim Spec.

(** an exponential routine of absolute error at most [dg] wherever the true value is at most [M] *)
Definition accurate_exp (f : fty) (M dg : R) (E : MixedExp Z) : Prop :=
  forall a, fvalid f a -> (exp (fval f a) <= M)%R -> exists g, mixed_exp E a = Ok g /\ (Rabs (fval f g - exp (fval f a)) <= dg)%R.
(** error of a complex exponential of length [x], with sine/cosine error [d] and exponential error [dg] *)
Definition exp_err_fixed (f : fty) (d dg x : R) : R := (14143 / 10000 * (x * d + (1 + d) * dg + ulp f))%R.
(** a routine with the stated accuracy: the floor of the true value *)
Definition floor_exp (f : fty) : MixedExp Z := {| mixed_exp := fun a => Ok (Int_part (exp (fval f a) / ulp f)) |}.
