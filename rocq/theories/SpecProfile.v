(** * Spec, continued: comparing two builds of the same program. *)

From Coq Require Import ZArith.
From Verif Require Import Base.

(** whatever the first computation returns, the second returns too *)
Definition refines {A} (x y : res A) : Prop := forall r, x = Ok r -> y = Ok r.
