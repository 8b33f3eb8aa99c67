(** * Spec: complex multiplication with compensated parts, written once for every type. *)

From Coq Require Import ZArith Reals List.
From Verif Require Import Base Traits Complex SpecCompens SpecTwoProd.
Import ListNotations.

(** Cartesian { re: dot([(a, c), (-b, d)]), im: dot([(a, d), (b, c)]) } with the compensated dot product *)
Definition acc_mul {T} (O : MixedOps T) (N : MixedNumSigned T) (Z0 : MixedZero T) (k : Z) (z w : Cartesian T) : res (Cartesian T) :=
  n <- o_neg N (im z) ;; x <- comp_dot O Z0 k [(re z, re w); (n, im w)] ;; y <- comp_dot O Z0 k [(re z, im w); (im z, re w)] ;; Ok (mkC x y).
