(** * Vocabulary for phases. *)

From Coq Require Import ZArith Reals.
From Verif Require Import SpecFilter.
Open Scope R_scope.

(** the complex conjugate *)
Definition cconj (z : R * R) : R * R := (fst z, - snd z).
