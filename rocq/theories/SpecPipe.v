(** * Spec: a chain of stages, each turning a vector of values into another one by any formulas. *)

From Coq Require Import ZArith Reals List.
From Verif Require Import Base Traits SpecFormula SpecVLoop.
Import ListNotations.

(** A stage: one formula per component of the new vector, over the old vector followed by the stage's own coefficients. *)
Section Program.
Context {T : Type} (O : MixedOps T) (N : MixedNumSigned T) (A : MixedAbs T) (Q : MixedSqrt T).
Fixpoint pipe (s : list T) (stages : list (list formula * (nat -> T))) : res (list T) :=
  match stages with
  | [] => Ok s
  | (bs, v) :: stages => s <- eval_all O N A Q (spread s v) bs ;; pipe s stages
  end.
End Program.
Fixpoint pipe_exact (y : list R) (stages : list (list formula * (nat -> R))) : list R :=
  match stages with [] => y | (bs, x) :: stages => pipe_exact (update bs x y) stages end.

(** The vectors met at some point of the chain: their length, an interval and a weight for each component. *)
Record box := mkBox { dim : nat; low : nat -> R; high : nat -> R; weight : nat -> R }.
Definition inside (B : box) (y : list R) : Prop := length y = dim B /\ within (low B) (high B) y.

(** From [B] to [B'] with coefficients [x] known to within [d]: every formula meets [S], its own rounding error is at most [delta] times
    the weight, its value is in [B'] with that margin, and differences grow at most by the factor [L]. *)
Definition stage_ok (S : (nat -> R) -> (nat -> R) -> formula -> Prop) (u : rounding) (B B' : box) (L delta : R) (bs : list formula) (x d : nat -> R) : Prop :=
  length bs = dim B' /\
  (forall t, inside B t -> forall k b, nth_error bs k = Some b -> let e := spread (repeat 0%R (dim B)) d in
    S (spread t x) e b /\ (slack (spread t x) u e b <= delta * weight B' k)%R /\
    (low B' k + delta * weight B' k <= value (spread t x) b <= high B' k - delta * weight B' k)%R) /\
  (forall t t' rho, inside B t -> inside B t' -> apart (weight B) rho t t' -> apart (weight B') (L * rho) (update bs x t) (update bs x t')).

(** [tracked B E l B' E']: the chain leads from [B] to [B'], and errors up to [E] before it become errors up to [E'] after it — each stage
    multiplies by its [L] and adds its [delta]. *)
Inductive tracked {T} (S : (nat -> R) -> (nat -> R) -> formula -> Prop) (u : rounding) (good : T -> R -> R -> Prop) :
  box -> R -> list (list formula * (nat -> T) * (nat -> R)) -> box -> R -> Prop :=
| tracked_end : forall B E, tracked S u good B E [] B E
| tracked_stage : forall B E bs v x d B1 L delta l B' E', (forall i, good (v i) (x i) (d i)) -> stage_ok S u B B1 L delta bs x d ->
    tracked S u good B1 (L * E + delta) l B' E' -> tracked S u good B E ((bs, v, x) :: l) B' E'.
