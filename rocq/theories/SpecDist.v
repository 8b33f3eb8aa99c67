(** * Distances and decisions for the nearest symbol. *)

From Coq Require Import ZArith List.
From Verif Require Import Base Traits Trig Complex.
Import ListNotations.

Section Programs.
Context {T : Type} (P : MixedOps T) (Q : MixedSqrt T) (W : MixedPowi T).
(** [(z - w).mag()] *)
Definition distance (z w : Cartesian T) : res T := d <- cartesian_sub P z w ;; cartesian_mag P Q W d.
(** [for s in symbols { let d = (z - s).mag(); if d < bd { best = s; bd = d; } }] *)
Fixpoint nearer (z best : Cartesian T) (bd : T) (symbols : list (Cartesian T)) : res (Cartesian T) :=
  match symbols with
  | [] => Ok best
  | s :: l => d <- distance z s ;; if o_lt P d bd then nearer z s d l else nearer z best bd l
  end.
Definition nearest (z first : Cartesian T) (symbols : list (Cartesian T)) : res (Cartesian T) := d <- distance z first ;; nearer z first d symbols.
End Programs.
