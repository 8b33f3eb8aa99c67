(** * Vocabulary for Fourier sums. *)

From Coq Require Import ZArith Reals List.
From Verif Require Import SpecFilter SpecRotor.
Open Scope R_scope.

Definition cadd (z w : R * R) : R * R := (fst z + fst w, snd z + snd w).
(** the sum of x e^(ia) over the pairs (x, a) *)
Definition fourier (xs : list ((R * R) * R)) : R * R := fold_right (fun xa s => cadd (cmul (fst xa) (cis (snd xa))) s) (0, 0) xs.
(** the sum of the magnitudes of the samples *)
Definition total (xs : list ((R * R) * R)) : R := fold_right (fun xa s => cabs (fst xa) + s) 0 xs.
