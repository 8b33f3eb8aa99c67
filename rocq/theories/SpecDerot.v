(** * Spec: removing a phase measured on a pilot, written by a user with the crate's operations. *)

From Coq Require Import ZArith Reals List.
From Verif Require Import Base Traits Complex.
Import ListNotations.

(** The user's program: divide the pilot by its magnitude, conjugate, multiply every sample by the result.  [divide] is the
    division of a complex by a real number of the same type. *)
Section Program.
Context {T : Type} (O : MixedOps T) (S : MixedNumSigned T) (Q : MixedSqrt T) (W : MixedPowi T) (divide : Cartesian T -> T -> res (Cartesian T)).
Fixpoint times_all (c : Cartesian T) (ys : list (Cartesian T)) : res (list (Cartesian T)) :=
  match ys with [] => Ok [] | y :: r => p <- cartesian_mul O y c ;; ps <- times_all c r ;; Ok (p :: ps) end.
Definition derotate (pilot : Cartesian T) (ys : list (Cartesian T)) : res (list (Cartesian T)) :=
  r <- cartesian_mag O Q W pilot ;; q <- divide pilot r ;; c <- cartesian_conj S q ;; times_all c ys.
End Program.
(** a real multiple of a complex number *)
Definition cscale (r : R) (z : R * R) : R * R := (r * fst z, r * snd z)%R.
