(** * C181: a limited integrator, [acc = clamp(acc + x, lo, hi)] for every sample. *)

From Coq Require Import ZArith List.
From Verif Require Import Base Traits SpecPeak.
Import ListNotations.
Open Scope Z_scope.

Fixpoint limited {T} (O : MixedOps T) (lo hi a : T) (xs : list T) : res T :=
  match xs with [] => Ok a | x :: r => s <- o_add O a x ;; limited O lo hi (clamp O lo hi s) r end.
(** the same on whole numbers without overflow *)
Definition exact_limited (lo hi a : Z) (xs : list Z) : Z := fold_left (fun s x => Z.max lo (Z.min hi (s + x))) xs a.
