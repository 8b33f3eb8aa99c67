(** * User programs: the variance in two passes and in one, written with the crate's operators only. *)

From Coq Require Import ZArith Reals List.
From Verif Require Import Base Traits SpecBlend.
Import ListNotations.
Open Scope Z_scope.

Section S.
Context {T : Type} (O : MixedOps T).

(** (x - mu) * (x - mu), for every sample x *)
Fixpoint sqdev (mu : T) (l : list T) : res (list T) :=
  match l with [] => Ok [] | x :: r => d <- o_sub O x mu ;; s <- o_mul O d d ;; t <- sqdev mu r ;; Ok (s :: t) end.
(** x * x, for every sample x *)
Fixpoint squares (l : list T) : res (list T) :=
  match l with [] => Ok [] | x :: r => s <- o_mul O x x ;; t <- squares r ;; Ok (s :: t) end.
(** the average of the squared distances from the average *)
Definition variance (zero : T) (l : list T) : res T := mu <- mean O zero l ;; q <- sqdev mu l ;; mean O zero q.
(** the average of the squares less the square of the average *)
Definition variance1 (zero : T) (l : list T) : res T :=
  mu <- mean O zero l ;; q <- squares l ;; a <- mean O zero q ;; b <- o_mul O mu mu ;; o_sub O a b.
End S.
(** on the real numbers *)
Definition avgR (l : list R) : R := (sumR l / INR (length l))%R.
Definition varR (l : list R) : R := avgR (map (fun x => (x - avgR l) ^ 2)%R l).
