(** * Spec: a computed number that never points the wrong way. *)

From Coq Require Import ZArith Reals.
Open Scope R_scope.

(** [x] is not negative where [v] is not, and not positive where [v] is not; so it is zero where [v] is zero. *)
Definition same_side (x v : R) : Prop := (0 <= v -> 0 <= x) /\ (v <= 0 -> x <= 0).
