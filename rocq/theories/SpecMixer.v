(** * Mixers: a user program that turns complex samples by a running phase. *)

From Coq Require Import ZArith List.
From Verif Require Import Base Traits Complex.
Import ListNotations.

(** [for (step, x) in samples { let w = rot(phi); out.push(x * w); phi = (phi + step).mixed_wrap_phase(); }] *)
Definition mixer {T} (P : MixedOps T) (rot : T -> res (Cartesian T)) (wrp : T -> res T) : T -> list (T * Cartesian T) -> res (list (Cartesian T)) :=
  fix go phi l := match l with
  | [] => Ok []
  | (s, x) :: l => w <- rot phi ;; y <- cartesian_mul P x w ;; t <- o_add P phi s ;; phi' <- wrp t ;; r <- go phi' l ;; Ok (y :: r)
  end.
(** the same with [w.conj()]: the other direction *)
Definition counter {T} (S : MixedNumSigned T) (rot : T -> res (Cartesian T)) (x : T) : res (Cartesian T) := w <- rot x ;; cartesian_conj S w.
