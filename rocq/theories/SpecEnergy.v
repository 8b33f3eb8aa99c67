(** * Correlation and energy of sampled signals: the user program and the exact sums. *)

From Coq Require Import ZArith Reals List.
From Verif Require Import Base Traits Complex Spec SpecFilter SpecRotor SpecFourier SpecPhase.
Import ListNotations.

(** [for (x, y) in xs.iter().zip(ys) { acc = acc + x * y.conj(); }] from [acc = 0] *)
Definition correlate {T} (P : MixedOps T) (G : MixedNumSigned T) (zero : T) (xs ys : list (Cartesian T)) : res (Cartesian T) :=
  run (fun acc xy => p <- (c <- cartesian_conj G (snd xy) ;; cartesian_mul P (fst xy) c) ;; cartesian_add P acc p) (mkC zero zero) (combine xs ys).

Open Scope R_scope.
(** the sum of x times the conjugate of y *)
Fixpoint inner (xs ys : list (R * R)) : R * R :=
  match xs, ys with x :: xs, y :: ys => cadd (cmul x (cconj y)) (inner xs ys) | _, _ => (0, 0) end.
(** the sum of the squared magnitudes *)
Definition power (xs : list (R * R)) : R := fold_right (fun z s => (fst z * fst z + snd z * snd z) + s) 0 xs.
