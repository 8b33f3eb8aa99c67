(** * Vocabulary for recursive filters: complex numbers as pairs of reals. *)

From Coq Require Import ZArith Reals List.
From Flocq Require Import IEEE754.BinarySingleNaN.
From Verif Require Import FixedPrim Complex Spec.
Open Scope R_scope.

(** magnitude of a + bi *)
Definition cabs (z : R * R) : R := R_sqrt.sqrt (fst z * fst z + snd z * snd z).
(** z w + x *)
Definition iir (w z x : R * R) : R * R :=
  (fst z * fst w - snd z * snd w + fst x, fst z * snd w + snd z * fst w + snd x).
(** the complex number that a fixed-point one stands for *)
Definition cval (f : fty) (z : Cartesian Z) : R * R := (fval f (re z), fval f (im z)).
Definition csub (z w : R * R) : R * R := (fst z - fst w, snd z - snd w).
(** the complex number that a finite float one stands for *)
Definition cvalf {p e : Z} (z : Cartesian (binary_float p e)) : R * R := (B2R (re z), B2R (im z)).
