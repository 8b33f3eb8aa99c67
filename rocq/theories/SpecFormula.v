(** * Spec: any formula a user writes with the crate's scalar operations, its exact value and a bound on its rounding error. *)

From Coq Require Import ZArith Reals List.
From Flocq Require Import Core.Core.
From Verif Require Import Base Traits.
Open Scope Z_scope.

(** Formulas over named inputs: integers converted from i32, sums, differences, products, quotients, sign changes, absolute values
    and square roots, nested in any way. *)
Inductive formula :=
| Input (i : nat) | Whole (k : Z)
| Plus (a b : formula) | Minus (a b : formula) | Times (a b : formula) | Over (a b : formula)
| Negated (a : formula) | Absolute (a : formula) | Root (a : formula).

(** The generic program: evaluated left to right on whatever type supplies the operations. *)
Section Program.
Context {T : Type} (O : MixedOps T) (N : MixedNumSigned T) (A : MixedAbs T) (Q : MixedSqrt T) (env : nat -> T).
Fixpoint compute (e : formula) : res T :=
  match e with
  | Input i => Ok (env i)
  | Whole k => o_of_i32 O k
  | Plus a b => x <- compute a ;; y <- compute b ;; o_add O x y
  | Minus a b => x <- compute a ;; y <- compute b ;; o_sub O x y
  | Times a b => x <- compute a ;; y <- compute b ;; o_mul O x y
  | Over a b => x <- compute a ;; y <- compute b ;; o_div O x y
  | Negated a => x <- compute a ;; o_neg N x
  | Absolute a => x <- compute a ;; mixed_abs A x
  | Root a => x <- compute a ;; mixed_sqrt Q x
  end.
End Program.

(** The real number the formula denotes. *)
Section Exact.
Variable x : nat -> R.
Fixpoint value (e : formula) : R :=
  match e with
  | Input i => x i
  | Whole k => IZR k
  | Plus a b => value a + value b
  | Minus a b => value a - value b
  | Times a b => value a * value b
  | Over a b => value a / value b
  | Negated a => - value a
  | Absolute a => Rabs (value a)
  | Root a => sqrt (value a)
  end%R.

(** How a type rounds: the largest error of a conversion, sum, product or quotient, and square root whose exact result has at most the
    given magnitude. *)
Record rounding := { r_whole : R -> R; r_sum : R -> R; r_prod : R -> R; r_root : R -> R }.
(** The error of the formula when input [i] is within [d i] of the number meant: the operands' errors carried through the
    operation, plus one rounding. *)
Variables (u : rounding) (d : nat -> R).
Fixpoint slack (e : formula) : R :=
  match e with
  | Input i => d i
  | Whole k => r_whole u (Rabs (IZR k))
  | Plus a b => let p := slack a + slack b in p + r_sum u (Rabs (value a + value b) + p)
  | Minus a b => let p := slack a + slack b in p + r_sum u (Rabs (value a - value b) + p)
  | Times a b => let p := Rabs (value a) * slack b + Rabs (value b) * slack a + slack a * slack b in p + r_prod u (Rabs (value a * value b) + p)
  | Over a b => let p := (slack a + Rabs (value a / value b) * slack b) / (Rabs (value b) - slack b) in p + r_prod u (Rabs (value a / value b) + p)
  | Negated a | Absolute a => slack a
  | Root a => let p := slack a / sqrt (value a) in p + r_root u (sqrt (value a) + p)
  end%R.
(** No division by something that may be zero, no square root of something that may be negative, and every intermediate value with
    its error within the range of the type. *)
Variable top : R.
Fixpoint safe (e : formula) : Prop :=
  match e with
  | Input i => True
  | Whole k => Rabs (value e) + slack e <= top
  | Plus a b | Minus a b | Times a b => safe a /\ safe b /\ Rabs (value e) + slack e <= top
  | Over a b => safe a /\ safe b /\ slack b < Rabs (value b) /\ Rabs (value e) + slack e <= top
  | Negated a | Absolute a => safe a /\ Rabs (value a) + slack a <= top
  | Root a => safe a /\ slack a <= value a
  end%R.
End Exact.
Fixpoint rootless (e : formula) : bool :=
  match e with
  | Input _ | Whole _ => true
  | Plus a b | Minus a b | Times a b | Over a b => rootless a && rootless b
  | Negated a | Absolute a => rootless a
  | Root _ => false
  end.

(** fixed point: conversions and sums are exact, a product or quotient loses less than one step, mixed_sqrt is the crate's own
    approximation *)
Definition round_fixed (step : R) : rounding :=
  {| r_whole := fun _ => 0%R; r_sum := fun _ => 0%R; r_prod := fun _ => step; r_root := fun t => ((/ 1000 + 5 * step) * t + 3 * step)%R |}.
(** floats with unit roundoff [r] and underflow unit [eta] *)
Definition round_float (r eta : R) : rounding :=
  {| r_whole := fun t => (r * t + / 2 * eta)%R; r_sum := fun t => (r * t + / 2 * eta)%R; r_prod := fun t => (r * t + / 2 * eta)%R; r_root := fun t => (r * t)%R |}.

(** Integers: the integer a formula without square roots denotes, with division rounding towards zero, ... *)
Section Integer.
Variable x : nat -> Z.
Fixpoint zvalue (e : formula) : Z :=
  match e with
  | Input i => x i
  | Whole k => k
  | Plus a b => zvalue a + zvalue b
  | Minus a b => zvalue a - zvalue b
  | Times a b => zvalue a * zvalue b
  | Over a b => Z.quot (zvalue a) (zvalue b)
  | Negated a => - zvalue a
  | Absolute a => Z.abs (zvalue a)
  | Root a => 0
  end.
(** ... and that every intermediate value fits the type and no divisor is zero. *)
Variable t : ity.
Fixpoint zfits (e : formula) : Prop :=
  in_range t (zvalue e) /\
  match e with
  | Input _ | Whole _ => True
  | Plus a b | Minus a b | Times a b => zfits a /\ zfits b
  | Over a b => zfits a /\ zfits b /\ zvalue b <> 0
  | Negated a | Absolute a => zfits a
  | Root _ => False
  end.
End Integer.
Fixpoint literals (t : ity) (e : formula) : Prop :=
  match e with
  | Input _ => True
  | Whole k => in_range t k
  | Plus a b | Minus a b | Times a b | Over a b => literals t a /\ literals t b
  | Negated a | Absolute a | Root a => literals t a
  end.
(** sums, differences, products and sign changes only *)
Fixpoint ring_only (e : formula) : bool :=
  match e with
  | Input _ | Whole _ => true
  | Plus a b | Minus a b | Times a b => ring_only a && ring_only b
  | Negated a => ring_only a
  | Over _ _ | Absolute _ | Root _ => false
  end.
