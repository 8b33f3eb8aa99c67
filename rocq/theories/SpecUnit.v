(** * Vocabulary for unit numbers. *)

From Coq Require Import ZArith Reals.
From Verif Require Import SpecFilter.
Open Scope R_scope.

(** z/|z| *)
Definition cunit (z : R * R) : R * R := (fst z / cabs z, snd z / cabs z).
