(** * Spec: the vocabulary of the property statements, independent of the model's code. *)

From Coq Require Import ZArith Reals List.
From Flocq Require Import Core.Core IEEE754.BinarySingleNaN.
From Verif Require Import Base FloatBase Traits IntImpl FixedPrim FixedImpl FloatImpl Complex.
Open Scope Z_scope.

(** the real number that a fixed-point bit pattern stands for, and one unit in the last place *)
Definition fval (f : fty) (a : Z) : R := (IZR a * bpow radix2 (- ffrac f))%R.
Definition ulp (f : fty) : R := bpow radix2 (- ffrac f).

(** congruence modulo the word size *)
Definition congr (t : ity) (a b : Z) : Prop := exists k, a = b + k * 2 ^ iwidth t.

(** component arithmetic on machine words: a primitive integer type, or a fixed-point format
    (whose [+], [-] are those of the underlying integer) *)
Inductive word_arith (m : mode) (t : ity) : MixedOps Z -> Prop :=
| word_int : word_arith m t (int_ops m t)
| word_fixed : forall f, fity f = t -> word_arith m t (fixed_ops m f).

Definition cvalid (t : ity) (z : Cartesian Z) : Prop := in_range t (re z) /\ in_range t (im z).

(** the Gaussian-integer product *)
Definition gauss_mul (z w : Cartesian Z) : Cartesian Z :=
  mkC (re z * re w - im z * im w) (re z * im w + im z * re w).
Definition gauss_add (z w : Cartesian Z) : Cartesian Z := mkC (re z + re w) (im z + im w).
Definition cwrap (t : ity) (z : Cartesian Z) : Cartesian Z := mkC (wrap t (re z)) (wrap t (im z)).

Fixpoint sumZ (l : list Z) : Z := match l with nil => 0 | x :: r => x + sumZ r end.

(** running a statement [z op= w1; z op= w2; ...] *)
Definition run {A B} (step : A -> B -> res A) (z : A) (ws : list B) : res A :=
  fold_left (fun r w => bind r (fun z => step z w)) ws (Ok z).

(** equal, or both zero (possibly of different sign) *)
Definition same_float {p e} (x y : binary_float p e) : Prop :=
  x = y \/ exists s1 s2, x = B754_zero s1 /\ y = B754_zero s2.
