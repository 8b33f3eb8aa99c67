(** * Spec: any formula a user writes with the complex operations, its exact value and a bound on its rounding error. *)

From Coq Require Import ZArith Reals.
From Verif Require Import Base Traits Complex Spec SpecFilter SpecRotor SpecFourier SpecPhase.
Open Scope Z_scope.

(** Sums, differences, products and conjugates of named complex inputs, nested in any way. *)
Inductive cformula := CInput (i : nat) | CPlus (a b : cformula) | CMinus (a b : cformula) | CTimes (a b : cformula) | CConj (a : cformula).

(** The generic program, evaluated left to right. *)
Section Program.
Context {T : Type} (O : MixedOps T) (N : MixedNumSigned T) (env : nat -> Cartesian T).
Fixpoint ccompute (e : cformula) : res (Cartesian T) :=
  match e with
  | CInput i => Ok (env i)
  | CPlus a b => x <- ccompute a ;; y <- ccompute b ;; cartesian_add O x y
  | CMinus a b => x <- ccompute a ;; y <- ccompute b ;; cartesian_sub O x y
  | CTimes a b => x <- ccompute a ;; y <- ccompute b ;; cartesian_mul O x y
  | CConj a => x <- ccompute a ;; cartesian_conj N x
  end.
End Program.

Section Exact.
Variable x : nat -> R * R.
(** The complex number the formula denotes. *)
Fixpoint cvalue (e : cformula) : R * R :=
  match e with
  | CInput i => x i
  | CPlus a b => cadd (cvalue a) (cvalue b)
  | CMinus a b => csub (cvalue a) (cvalue b)
  | CTimes a b => cmul (cvalue a) (cvalue b)
  | CConj a => cconj (cvalue a)
  end.
(** How a type rounds: the largest distance of a sum, or product, from the exact one of at most the given magnitude. *)
Record crounding := { c_sum : R -> R; c_prod : R -> R }.
Variables (u : crounding) (d : nat -> R).
(** The distance from the exact value when input [i] is within [d i] of the number meant. *)
Fixpoint cslack (e : cformula) : R :=
  match e with
  | CInput i => d i
  | CPlus a b => let p := cslack a + cslack b in p + c_sum u (cabs (cadd (cvalue a) (cvalue b)) + p)
  | CMinus a b => let p := cslack a + cslack b in p + c_sum u (cabs (csub (cvalue a) (cvalue b)) + p)
  | CTimes a b => let p := cabs (cvalue a) * cslack b + cabs (cvalue b) * cslack a + cslack a * cslack b in p + c_prod u (cabs (cvalue a) * cabs (cvalue b) + p)
  | CConj a => cslack a
  end%R.
(** Every intermediate value with its error is within the range of the type. *)
Variable top : R.
Fixpoint csafe (e : cformula) : Prop :=
  match e with
  | CInput i => True
  | CPlus a b | CMinus a b | CTimes a b => csafe a /\ csafe b /\ cabs (cvalue e) + cslack e <= top
  | CConj a => csafe a /\ cabs (cvalue a) + cslack a <= top
  end%R.
End Exact.

(** fixed point: sums are exact, a product is off by less than 2.24 steps *)
Definition cround_fixed (step : R) : crounding := {| c_sum := fun _ => 0%R; c_prod := fun _ => (224 / 100 * step)%R |}.
(** floats with unit roundoff [r] and underflow unit [eta] *)
Definition cround_float (r eta : R) : crounding := {| c_sum := fun t => (r * t + eta)%R; c_prod := fun t => (3 * r * t + 3 * eta)%R |}.

(** Integers: the Gaussian integer a formula denotes. *)
Fixpoint gvalue (x : nat -> Cartesian Z) (e : cformula) : Cartesian Z :=
  match e with
  | CInput i => x i
  | CPlus a b => gauss_add (gvalue x a) (gvalue x b)
  | CMinus a b => mkC (re (gvalue x a) - re (gvalue x b)) (im (gvalue x a) - im (gvalue x b))
  | CTimes a b => gauss_mul (gvalue x a) (gvalue x b)
  | CConj a => mkC (re (gvalue x a)) (- im (gvalue x a))
  end.
