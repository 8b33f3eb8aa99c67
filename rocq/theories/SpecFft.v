(** * The fast Fourier transform: a user program on complex samples, and the sums it should give. *)

From Coq Require Import ZArith Reals List Arith.
From Verif Require Import Base Traits Complex Spec SpecFilter SpecRotor SpecFourier.
Import ListNotations.

(** [xs.iter().step_by(2)] and [xs.iter().skip(1).step_by(2)] *)
Fixpoint evens {A} (xs : list A) : list A := match xs with x :: _ :: r => x :: evens r | _ => xs end.
Fixpoint odds {A} (xs : list A) : list A := match xs with _ :: y :: r => y :: odds r | _ => [] end.

Section Programs.
Context {T : Type} (P : MixedOps T).
(** [let t = w * o; upper.push(e + t); lower.push(e - t);] for every triple *)
Fixpoint butterflies (ws es os : list (Cartesian T)) : res (list (Cartesian T) * list (Cartesian T)) :=
  match ws, es, os with
  | w :: ws, e :: es, o :: os =>
      t <- cartesian_mul P w o ;; h <- cartesian_add P e t ;; l <- cartesian_sub P e t ;;
      r <- butterflies ws es os ;; Ok (h :: fst r, l :: snd r)
  | _, _, _ => Ok ([], [])
  end.
(** the recursive transform of [2^k] samples; [tw j]: the table of [2^j] unit numbers for the step from [2^j] to [2^(j+1)] *)
Fixpoint fft (tw : nat -> list (Cartesian T)) (k : nat) (xs : list (Cartesian T)) : res (list (Cartesian T)) :=
  match k with
  | O => Ok xs
  | S k => es <- fft tw k (evens xs) ;; os <- fft tw k (odds xs) ;; p <- butterflies (tw k) es os ;; Ok (fst p ++ snd p)
  end.
End Programs.

Open Scope R_scope.
(** f 0 + ... + f (n-1) *)
Fixpoint csumf (n : nat) (f : nat -> R * R) : R * R := match n with O => (0, 0) | S n => cadd (csumf n f) (f n) end.
(** the [j]th coefficient of the transform of [n] samples, [s] = -1 forth, [s] = 1 back *)
Definition dft (s : R) (n : nat) (xs : list (R * R)) (j : nat) : R * R :=
  csumf n (fun i => cmul (nth i xs (0, 0)) (cis (s * (2 * PI) * INR i * INR j / INR n))).
(** tables for up to [2^k] samples, each entry within [d] of the true unit number *)
Definition tables {A} (val : A -> R * R) (ok : A -> Prop) (s d : R) (k : nat) (tw : nat -> list A) : Prop :=
  forall j, (j < k)%nat -> length (tw j) = (2 ^ j)%nat /\
  forall i w, nth_error (tw j) i = Some w -> ok w /\ cabs (csub (val w) (cis (s * (2 * PI) * INR i / INR (2 ^ (j + 1))))) <= d.
(** [ys] has the same length as the exact values, each within [e] *)
Definition near {A} (val : A -> R * R) (e : R) (n : nat) (ys : list A) (f : nat -> R * R) : Prop :=
  length ys = n /\ forall j y, nth_error ys j = Some y -> cabs (csub (val y) (f j)) <= e.
