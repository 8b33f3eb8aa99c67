(** * Polynomials: evaluation with the crate's operators (Horner's rule) and on the real numbers. *)

From Coq Require Import ZArith Reals List.
From Verif Require Import Base Traits.
Import ListNotations.

(** c0 + x * (c1 + x * (c2 + ...)), coefficients from the constant term upwards *)
Fixpoint horner {T : Type} (O : MixedOps T) (zero x : T) (l : list T) : res T :=
  match l with
  | [] => Ok zero
  | c :: r => h <- horner O zero x r ;; p <- o_mul O h x ;; o_add O p c
  end.
Fixpoint polyR (x : R) (l : list R) : R := match l with [] => 0 | c :: r => c + x * polyR x r end%R.
(** 1 + x + ... + x^(n-1) *)
Fixpoint geo (x : R) (n : nat) : R := match n with O => 0 | S k => 1 + x * geo x k end%R.
