(** * Vocabulary for rotations: products of complex numbers as pairs of reals. *)

From Coq Require Import ZArith Reals.
Open Scope R_scope.

Definition cmul (z w : R * R) : R * R := (fst z * fst w - snd z * snd w, fst z * snd w + snd z * fst w).
(** e^(ia) *)
Definition cis (a : R) : R * R := (Rtrigo_def.cos a, Rtrigo_def.sin a).
