(** * Filters with finitely many taps: a user program on complex samples, and what it should give. *)

From Coq Require Import ZArith List Arith.
From Verif Require Import Base Traits Complex Spec SpecMoving.
Import ListNotations.

Section Programs.
Context {T : Type} (P : MixedOps T).
(** [let mut acc = zero; for (h, x) in taps.iter().zip(recent) { acc = acc + h * x; }], [recent] newest first *)
Definition dot (zero : Cartesian T) (hs recent : list (Cartesian T)) : res (Cartesian T) :=
  run (fun acc s => p <- cartesian_mul P (fst s) (snd s) ;; cartesian_add P acc p) zero (combine hs recent).
(** the same for every sample; [past]: the samples already seen, newest first *)
Fixpoint fir (zero : Cartesian T) (hs past xs : list (Cartesian T)) : res (list (Cartesian T)) :=
  match xs with [] => Ok [] | x :: r => y <- dot zero hs (x :: past) ;; l <- fir zero hs (x :: past) r ;; Ok (y :: l) end.
(** [for (x, y) in a.iter().zip(b) { out.push(x + y) }] *)
Fixpoint add_all (a b : list (Cartesian T)) : res (list (Cartesian T)) :=
  match a, b with x :: a, y :: b => s <- cartesian_add P x y ;; l <- add_all a b ;; Ok (s :: l) | _, _ => Ok [] end.
End Programs.

Open Scope Z_scope.
(** the [i]th value of the convolution: the sum of [h k * x (i - k)] *)
Definition convolved (hs xs : list (Cartesian Z)) (i : nat) : Cartesian Z :=
  csum (map (fun k => gauss_mul (nth k hs (mkC 0 0)) (nth (i - k) xs (mkC 0 0))) (seq 0 (Nat.min (length hs) (S i)))).
(** both at once: all values *)
Definition convolution (hs xs : list (Cartesian Z)) : list (Cartesian Z) := map (convolved hs xs) (seq 0 (length xs)).
(** sum of the sizes of the taps *)
Definition tap_sum (hs : list (Cartesian Z)) : Z := sumZ (map (fun h => Z.abs (re h) + Z.abs (im h)) hs).
