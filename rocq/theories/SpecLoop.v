(** * Spec: a feedback loop whose body is any formula. *)

From Coq Require Import ZArith Reals List.
From Verif Require Import Base Traits SpecFormula SpecProgram.
Import ListNotations.

(** [for v in inputs { s = body(s, v) }]: in the body, input 0 is the state and the further inputs are those of the current round. *)
Section Program.
Context {T : Type} (O : MixedOps T) (N : MixedNumSigned T) (A : MixedAbs T) (Q : MixedSqrt T).
Fixpoint loop (body : formula) (s : T) (ins : list (nat -> T)) : res T :=
  match ins with
  | [] => Ok s
  | v :: ins => s <- compute O N A Q (push s v) body ;; loop body s ins
  end.
End Program.
(** the exact loop *)
Fixpoint ideal (body : formula) (y : R) (xs : list (nat -> R)) : R :=
  match xs with [] => y | x :: xs => ideal body (value (push y x) body) xs end.
(** In one round with inputs [x] known to within [d], from any state in [lo, hi]: the body is safe, its own rounding error is at most
    [delta], its value stays in [lo, hi] with that margin, and it brings two states closer by the factor [L]. *)
Definition contracting (u : rounding) (top : R) (body : formula) (lo hi L delta : R) (x d : nat -> R) : Prop :=
  (forall t, lo <= t <= hi -> safe (push t x) u (push 0 d) top body /\ slack (push t x) u (push 0 d) body <= delta /\
    lo + delta <= value (push t x) body <= hi - delta)%R /\
  (forall t t', lo <= t <= hi -> lo <= t' <= hi -> Rabs (value (push t x) body - value (push t' x) body) <= L * Rabs (t - t'))%R.
