(** * What is known of one call of a library routine: its error at the point where it is called. *)

From Coq Require Import ZArith Reals.
From Flocq Require Import Core.Core IEEE754.BinarySingleNaN.
From Verif Require Import Base FixedPrim Spec.
Open Scope R_scope.

(** [g x] is finite and within [d] of [v] *)
Definition hits {p e : Z} (y : binary_float p e) (v d : R) : Prop := is_finite y = true /\ Rabs (B2R y - v) <= d.
(** the same in fixed point, for a call that returned *)
Definition hits_fixed (f : fty) (r : res Z) (v d : R) : Prop := exists y, r = Ok y /\ Rabs (fval f y - v) <= d.
