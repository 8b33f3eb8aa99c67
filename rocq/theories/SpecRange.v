(** * Spec, continued: exact sums. *)

From Coq Require Import ZArith List.
From Verif Require Import Base Complex Spec.
Open Scope Z_scope.

(** [z] plus the listed numbers, part by part, in Z *)
Definition psum (z : Cartesian Z) (ws : list (Cartesian Z)) : Cartesian Z := mkC (re z + sumZ (map re ws)) (im z + sumZ (map im ws)).
