(** * Spec: a feedback loop with several state variables, each updated by any formula. *)

From Coq Require Import ZArith Reals List.
From Verif Require Import Base Traits SpecFormula.
Import ListNotations.

(** The state variables come first, then the inputs of the current round. *)
Definition spread {A} (s : list A) (v : nat -> A) (i : nat) : A := nth i s (v (i - length s)%nat).

(** [for v in inputs { (s0, s1, ...) = (b0(s, v), b1(s, v), ...) }]: every new value is computed from the old state. *)
Section Program.
Context {T : Type} (O : MixedOps T) (N : MixedNumSigned T) (A : MixedAbs T) (Q : MixedSqrt T).
Fixpoint eval_all (env : nat -> T) (bs : list formula) : res (list T) :=
  match bs with
  | [] => Ok []
  | b :: bs => r <- compute O N A Q env b ;; rs <- eval_all env bs ;; Ok (r :: rs)
  end.
Fixpoint vloop (bs : list formula) (s : list T) (ins : list (nat -> T)) : res (list T) :=
  match ins with
  | [] => Ok s
  | v :: ins => s <- eval_all (spread s v) bs ;; vloop bs s ins
  end.
End Program.
(** the exact loop *)
Definition update (bs : list formula) (x : nat -> R) (y : list R) : list R := map (value (spread y x)) bs.
Fixpoint videal (bs : list formula) (y : list R) (xs : list (nat -> R)) : list R :=
  match xs with [] => y | x :: xs => videal bs (update bs x y) xs end.

(** Each state variable in its own interval; two states closer than [rho] in the maximum norm with weights [w]. *)
Definition within (lo hi : nat -> R) (y : list R) : Prop := forall k, (k < length y)%nat -> (lo k <= nth k y 0 <= hi k)%R.
Definition apart (w : nat -> R) (rho : R) (y y' : list R) : Prop := forall k, (k < length y)%nat -> (Rabs (nth k y 0 - nth k y' 0) <= rho * w k)%R.

(** In one round with inputs [x] known to within [d], from any state in the box: every body meets [S] (no overflow and the like), its own
    rounding error is at most [delta] times the weight, its value stays in the box with that margin, and the round brings two states
    closer by the factor [L]. *)
Definition vcontracting (S : (nat -> R) -> (nat -> R) -> formula -> Prop) (u : rounding) (bs : list formula) (lo hi w : nat -> R) (L delta : R) (x d : nat -> R) : Prop :=
  (forall t, length t = length bs -> within lo hi t -> forall k b, nth_error bs k = Some b ->
    let e := spread (repeat 0%R (length bs)) d in S (spread t x) e b /\ (slack (spread t x) u e b <= delta * w k)%R /\
    (lo k + delta * w k <= value (spread t x) b <= hi k - delta * w k)%R) /\
  (forall t t' rho, length t = length bs -> length t' = length bs -> within lo hi t -> within lo hi t' -> apart w rho t t' ->
    apart w (L * rho) (update bs x t) (update bs x t')).
