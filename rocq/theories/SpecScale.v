(** * Vocabulary for scaling by powers of two. *)

From Coq Require Import ZArith Reals.
From Flocq Require Import Core.Core IEEE754.BinarySingleNaN.
From Verif Require Import Complex.
Open Scope Z_scope.

(** zero, or between 2^-h and 2^h in magnitude *)
Definition within2 (h : Z) (v : R) : Prop := (v = 0 \/ bpow radix2 (- h) <= Rabs v <= bpow radix2 h)%R.
(** b is a times 2^k *)
Definition scaled {p e : Z} (k : Z) (a b : binary_float p e) : Prop :=
  is_finite a = true /\ is_finite b = true /\ B2R b = (B2R a * bpow radix2 k)%R.
(** both parts *)
Definition cscaled {p e : Z} (k : Z) (z w : Cartesian (binary_float p e)) : Prop :=
  scaled k (re z) (re w) /\ scaled k (im z) (im w).
Definition cwithin {p e : Z} (h : Z) (z : Cartesian (binary_float p e)) : Prop :=
  within2 h (B2R (re z)) /\ within2 h (B2R (im z)).
