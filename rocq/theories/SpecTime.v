(** * Specification of running time: how often loops go round. *)

From Coq Require Import ZArith.
From Verif Require Import Base.
Open Scope Z_scope.

(** [F n] is a computation in which every loop is cut off after [n] tests of its condition (a
    loop whose body runs [j] times tests it [j + 1] times).  [takes F k r]: the computation
    returns [r], and its longest loop runs its body exactly [k] times. *)
Definition takes {A} (F : nat -> res A) (k : Z) (r : A) : Prop :=
  forall n : nat, F n = if Z.of_nat n <=? k then OutOfFuel else Ok r.

(** Some loop runs its body at least [k] times (or the computation never ends). *)
Definition takes_at_least {A} (F : nat -> res A) (k : Z) : Prop :=
  forall n : nat, Z.of_nat n <= k -> F n = OutOfFuel.
