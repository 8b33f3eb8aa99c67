(** * User programs: the standard deviation and the root mean square, written with the crate's operations only. *)

From Coq Require Import ZArith Reals List.
From Verif Require Import Base Traits SpecBlend SpecVar.
Import ListNotations.
Open Scope Z_scope.

Section S.
Context {T : Type} (O : MixedOps T) (Q : MixedSqrt T).
(** the square root of the two-pass variance *)
Definition deviation (zero : T) (l : list T) : res T := v <- variance O zero l ;; mixed_sqrt Q v.
(** the square root of the average of the squares *)
Definition rms (zero : T) (l : list T) : res T := q <- squares O l ;; a <- mean O zero q ;; mixed_sqrt Q a.
End S.
(** on the real numbers: the average of the squares *)
Definition msqR (l : list R) : R := avgR (map (fun x => x ^ 2)%R l).
