(** * Vocabulary for phase unwrapping. *)

From Coq Require Import ZArith Reals List.
Open Scope R_scope.

(** One reading of a phase that turns: the number read, the true phase, and how many whole turns are missing from what was read. *)
Record reading (A : Type) := Reading { seen : A; true_phase : R; turns : Z }.
Arguments Reading {A} _ _ _.  Arguments seen {A} _.  Arguments true_phase {A} _.  Arguments turns {A} _.

(** The reading is right, up to whole turns of [2 T], within [e]. *)
Definition reads {A} (val : A -> R) (T e : R) (r : reading A) : Prop :=
  Rabs (true_phase r - (val (seen r) + IZR (turns r) * (2 * T))) <= e.
(** The true phase moves by at most [s] between one reading and the next. *)
Fixpoint slow {A} (s : R) (prev : R) (rs : list (reading A)) : Prop :=
  match rs with nil => True | r :: rs => Rabs (true_phase r - prev) <= s /\ slow s (true_phase r) rs end.
