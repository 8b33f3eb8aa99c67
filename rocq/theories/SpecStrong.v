(** * C182: the strongest sample of a list, by squared magnitude. *)

From Coq Require Import List.
From Verif Require Import Base Traits Complex.
Import ListNotations.

(** [z.re * z.re + z.im * z.im] *)
Definition strength {T} (O : MixedOps T) (z : Cartesian T) : res T :=
  a <- o_mul O (re z) (re z) ;; b <- o_mul O (im z) (im z) ;; o_add O a b.
(** [for y in zs { if strength(best) < strength(y) { best = y } }] *)
Fixpoint strongest {T} (O : MixedOps T) (best : Cartesian T) (zs : list (Cartesian T)) : res (Cartesian T) :=
  match zs with [] => Ok best | y :: l => s <- strength O best ;; d <- strength O y ;; strongest O (if o_lt O s d then y else best) l end.
