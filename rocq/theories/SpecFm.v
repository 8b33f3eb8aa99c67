(** * Spec: a frequency discriminator written by a user with the crate's operations. *)

From Coq Require Import ZArith Reals List.
From Verif Require Import Base Traits Complex Spec SpecFilter SpecRotor SpecUnit.
Import ListNotations.

(** The user's program: the angle of each sample times the conjugate of the one before. *)
Section Program.
Context {T : Type} (O : MixedOps T) (S : MixedNumSigned T) (ang : Cartesian T -> res T).
Fixpoint discriminator (prev : Cartesian T) (l : list (Cartesian T)) : res (list T) :=
  match l with
  | [] => Ok []
  | z :: r => q <- cartesian_conj S prev ;; p <- cartesian_mul O z q ;; c <- ang p ;;
              cs <- discriminator z r ;; Ok (c :: cs)
  end.
End Program.

(** A sample together with a phase it has: its value is its magnitude times e^(i phase). *)
Definition has_phase {C : Type} (val : C -> R * R) (a b : R) (r : C * R) : Prop :=
  (a <= cabs (val (fst r)) <= b)%R /\ cunit (val (fst r)) = cis (snd r).
(** From each phase to the next the signal turns by at most [s] in either direction. *)
Fixpoint turns_by (s t0 : R) (ts : list R) : Prop :=
  match ts with [] => True | t :: r => (Rabs (t - t0) <= s)%R /\ turns_by s t r end.
Fixpoint differences (t0 : R) (ts : list R) : list R :=
  match ts with [] => [] | t :: r => (t - t0)%R :: differences t r end.
