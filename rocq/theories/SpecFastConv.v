(** * Convolution through the fast transform: a user program on complex samples, and the sums it should give. *)

From Coq Require Import ZArith Reals List Arith.
From Verif Require Import Base Traits Complex Spec SpecFilter SpecRotor SpecFourier SpecFft.
Import ListNotations.

Section Programs.
Context {T : Type} (P : MixedOps T).
(** [xs.iter().zip(hs).map(|(x, h)| *x * *h)] *)
Fixpoint products (xs hs : list (Cartesian T)) : res (list (Cartesian T)) :=
  match xs, hs with
  | x :: xs, h :: hs => p <- cartesian_mul P x h ;; r <- products xs hs ;; Ok (p :: r)
  | _, _ => Ok []
  end.
(** transform both, multiply bin by bin, transform back with the conjugate tables *)
Definition fastconv (tw tw' : nat -> list (Cartesian T)) (k : nat) (xs hs : list (Cartesian T)) : res (list (Cartesian T)) :=
  X <- fft P tw k xs ;; H <- fft P tw k hs ;; Y <- products X H ;; fft P tw' k Y.
End Programs.

Open Scope R_scope.
(** the cyclic convolution of [n] samples: the sum of x_i h_(j - i), indices modulo [n] *)
Definition cconv (n : nat) (xs hs : list (R * R)) (j : nat) : R * R :=
  csumf n (fun i => cmul (nth i xs (0, 0)) (nth ((j + n - i) mod n) hs (0, 0))).
(** the output of a filter with taps [hs] for the samples [xs]: the sum of x_i h_(j - i), i from 0 to j *)
Definition lconv (xs hs : list (R * R)) (j : nat) : R * R :=
  csumf (S j) (fun i => cmul (nth i xs (0, 0)) (nth (j - i) hs (0, 0))).
