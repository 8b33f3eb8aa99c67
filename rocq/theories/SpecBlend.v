(** * Small user programs: interpolation, averages, exponential smoothing, written with the crate's operators only. *)

From Coq Require Import ZArith Reals List.
From Verif Require Import Base Traits.
Import ListNotations.
Open Scope Z_scope.

Section S.
Context {T : Type} (O : MixedOps T).

(** a + (b - a) * t *)
Definition lerp (a b t : T) : res T := d <- o_sub O b a ;; p <- o_mul O d t ;; o_add O a p.
(** x1 + x2 + ..., from the left *)
Fixpoint total (acc : T) (l : list T) : res T :=
  match l with [] => Ok acc | x :: r => s <- o_add O acc x ;; total s r end.
(** the sum, divided by the number of samples *)
Definition mean (zero : T) (l : list T) : res T :=
  s <- total zero l ;; n <- o_of_i32 O (Z.of_nat (length l)) ;; o_div O s n.
(** y <- y + (x - y) * alpha, for every sample x *)
Fixpoint smooth (alpha y : T) (l : list T) : res T :=
  match l with [] => Ok y | x :: r => y' <- lerp y x alpha ;; smooth alpha y' r end.
End S.
Definition sumZ (l : list Z) : Z := fold_right Z.add 0 l.
(** the same programs on the real numbers *)
Fixpoint smoothR (alpha y : R) (l : list R) : R :=
  match l with [] => y | x :: r => smoothR alpha (y + (x - y) * alpha) r end.
Definition sumR (l : list R) : R := fold_right Rplus 0%R l.
