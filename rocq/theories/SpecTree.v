(** * Products of many complex numbers in any order of multiplication. *)

From Coq Require Import ZArith Reals List.
From Verif Require Import Base Traits Complex Spec SpecFilter SpecRotor.
Import ListNotations.

(** an order of multiplication *)
Inductive tree (A : Type) : Type := Leaf (a : A) | Node (l r : tree A).
Arguments Leaf {A}. Arguments Node {A}.
Fixpoint leaves {A} (t : tree A) : list A := match t with Leaf a => [a] | Node l r => leaves l ++ leaves r end.
(** the parts of an expression, itself included *)
Fixpoint parts {A} (t : tree A) : list (tree A) := t :: match t with Leaf _ => [] | Node l r => parts l ++ parts r end.

Section Programs.
Context {T : Type} (P : MixedOps T).
(** [(a * b) * (c * d) ...] *)
Fixpoint multiply (t : tree (Cartesian T)) : res (Cartesian T) :=
  match t with Leaf z => Ok z | Node l r => x <- multiply l ;; y <- multiply r ;; cartesian_mul P x y end.
(** [for _ in 1..n { acc = acc * z; }] *)
Fixpoint power_loop (z : Cartesian T) (n : nat) (acc : Cartesian T) : res (Cartesian T) :=
  match n with O => Ok acc | S n => a <- cartesian_mul P acc z ;; power_loop z n a end.
(** square and multiply *)
Fixpoint power_fast (z : Cartesian T) (n : positive) : res (Cartesian T) :=
  match n with
  | xH => Ok z
  | xO p => a <- power_fast z p ;; cartesian_mul P a a
  | xI p => a <- power_fast z p ;; b <- cartesian_mul P a a ;; cartesian_mul P b z
  end.
End Programs.

(** the exact product *)
Definition cprod (l : list (R * R)) : R * R := fold_right cmul (1, 0)%R l.
Definition gprod (l : list (Cartesian Z)) : Cartesian Z := fold_right gauss_mul (mkC 1%Z 0%Z) l.
