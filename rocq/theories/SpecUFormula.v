(** * Spec: when a formula is within reach of an unsigned type. *)

From Coq Require Import ZArith Reals.
From Verif Require Import SpecFormula.
Open Scope Z_scope.

(** No sign change, no square root, no negative literal; a difference must exceed its own error, so that it cannot go below zero; no
    divisor may be zero; and every intermediate value with its error is at most [top]. *)
Section Reach.
Variables (x : nat -> R) (u : rounding) (d : nat -> R) (top : R).
Notation value := (value x).
Notation slack := (slack x u d).
Fixpoint usafe (e : formula) : Prop :=
  match e with
  | Input _ => True
  | Whole k => 0 <= k /\ (IZR k <= top)%R
  | Plus a b | Times a b => usafe a /\ usafe b /\ (Rabs (value e) + slack e <= top)%R
  | Minus a b => usafe a /\ usafe b /\ (slack a + slack b <= value a - value b)%R
  | Over a b => usafe a /\ usafe b /\ (slack b < Rabs (value b))%R /\ (Rabs (value e) + slack e <= top)%R
  | Absolute a => usafe a
  | Negated _ | Root _ => False
  end.
End Reach.
