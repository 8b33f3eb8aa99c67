(** * Moving sums and integrator-comb filters: user programs on complex samples, and what they should give. *)

From Coq Require Import ZArith List Arith.
From Verif Require Import Base Traits Complex Spec.
Import ListNotations.

Section Programs.
Context {T : Type} (P : MixedOps T).
(** [for (x, old) in samples { acc = acc + x - old; }], where [old] is the sample that leaves the window *)
Definition moving (acc : Cartesian T) (samples : list (Cartesian T * Cartesian T)) : res (Cartesian T) :=
  run (fun acc s => a <- cartesian_add P acc (fst s) ;; cartesian_sub P a (snd s)) acc samples.
(** running sums *)
Fixpoint integrate (acc : Cartesian T) (xs : list (Cartesian T)) : res (list (Cartesian T)) :=
  match xs with [] => Ok [] | x :: r => a <- cartesian_add P acc x ;; l <- integrate a r ;; Ok (a :: l) end.
(** differences *)
Fixpoint comb (prev : Cartesian T) (xs : list (Cartesian T)) : res (list (Cartesian T)) :=
  match xs with [] => Ok [] | x :: r => a <- cartesian_sub P x prev ;; l <- comb x r ;; Ok (a :: l) end.
Fixpoint times {A} (n : nat) (g : A -> res A) (a : A) : res A := match n with O => Ok a | S n => b <- g a ;; times n g b end.
(** every [r]th element, from the [c + 1]st *)
Fixpoint every {A} (r c : nat) (l : list A) : list A :=
  match l with [] => [] | x :: l => match c with O => x :: every r (r - 1) l | S c => every r c l end end.
(** [n] integrators, every [r]th sample, [n] combs *)
Definition cic (zero : Cartesian T) (n r : nat) (xs : list (Cartesian T)) : res (list (Cartesian T)) :=
  ys <- times n (integrate zero) xs ;; times n (comb zero) (every r (r - 1) ys).
End Programs.

Open Scope Z_scope.
Definition csum (l : list (Cartesian Z)) : Cartesian Z := mkC (sumZ (map re l)) (sumZ (map im l)).
(** [n] elements from the [i]th on *)
Definition window {A} (i n : nat) (l : list A) : list A := firstn n (skipn i l).
(** the sum of the last [r] values of a signal that was zero before it began; and that, [n] times over *)
Definition boxcar (r : nat) (x : nat -> Z) (i : nat) : Z := sumZ (map (fun j => if (j <=? i)%nat then x (i - j)%nat else 0) (seq 0 r)).
Definition boxcars (n r : nat) (x : nat -> Z) : nat -> Z := Nat.iter n (boxcar r) x.
