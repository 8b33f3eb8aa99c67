(** * Phase-locked loops: a user program that follows measured angles. *)

From Coq Require Import ZArith Reals List.
From Verif Require Import Base Traits.
Import ListNotations.

(** [for theta in angles { let e = (theta - phi).mixed_wrap_phase(); errors.push(e); phi = (phi + gain * e).mixed_wrap_phase(); }] *)
Definition pll {T} (P : MixedOps T) (wrp : T -> res T) (gain : T) : T -> list T -> res (list T) :=
  fix go phi l := match l with
  | [] => Ok []
  | t :: l => d <- o_sub P t phi ;; e <- wrp d ;; c <- o_mul P gain e ;; a <- o_add P phi c ;; phi' <- wrp a ;; r <- go phi' l ;; Ok (e :: r)
  end.

Open Scope Z_scope.
(** angles between [-p] and [p], each at most [s] away from the one before, the shorter way round *)
Fixpoint turning (p s : Z) (prev : Z) (l : list Z) : Prop :=
  match l with [] => True | t :: l => - p <= t < p /\ (exists d turns, t = prev + d + turns * (2 * p) /\ Z.abs d <= s) /\ turning p s t l end.

(** the same for angles that are real numbers *)
Fixpoint turningR (p s : R) (prev : R) (l : list R) : Prop :=
  match l with [] => True | t :: l => (- p <= t < p /\ (exists d turns, t = prev + d + IZR turns * (2 * p) /\ Rabs d <= s))%R /\ turningR p s t l end.
