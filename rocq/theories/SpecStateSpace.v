(** * Spec: linear filters in state-space form, s = A s + c. *)

From Coq Require Import ZArith Reals List.
From Verif Require Import Base Traits.
Import ListNotations.

(** One component: start from the input and add coefficient times state, left to right. *)
Section Program.
Context {T : Type} (O : MixedOps T).
Fixpoint add_dot (acc : T) (a s : list T) : res T :=
  match a, s with
  | a0 :: a, s0 :: s => p <- o_mul O a0 s0 ;; acc <- o_add O acc p ;; add_dot acc a s
  | _, _ => Ok acc
  end.
Fixpoint affine (A : list (list T)) (c s : list T) : res (list T) :=
  match A, c with
  | a :: A, c0 :: c => r <- add_dot c0 a s ;; rs <- affine A c s ;; Ok (r :: rs)
  | _, _ => Ok []
  end.
Fixpoint state_space (A : list (list T)) (s : list T) (cs : list (list T)) : res (list T) :=
  match cs with [] => Ok s | c :: cs => s <- affine A c s ;; state_space A s cs end.
End Program.

(** The exact filter. *)
Fixpoint dot (a s : list R) : R := match a, s with a0 :: a, s0 :: s => (a0 * s0 + dot a s)%R | _, _ => 0%R end.
Fixpoint affineR (A : list (list R)) (c s : list R) : list R :=
  match A, c with a :: A, c0 :: c => (c0 + dot a s)%R :: affineR A c s | _, _ => [] end.
Fixpoint state_spaceR (A : list (list R)) (s : list R) (cs : list (list R)) : list R :=
  match cs with [] => s | c :: cs => state_spaceR A (affineR A c s) cs end.

(** Weighted maximum norms of vectors, of their differences, of rows, and of differences of rows. *)
Definition bounded (X : R) (w s : list R) : Prop := Forall2 (fun w s => Rabs s <= X * w)%R w s.
Fixpoint close (rho : R) (w s y : list R) : Prop :=
  match w, s, y with
  | w0 :: w, s0 :: s, y0 :: y => (Rabs (s0 - y0) <= rho * w0)%R /\ close rho w s y
  | [], [], [] => True
  | _, _, _ => False
  end.
Fixpoint wsum (a w : list R) : R := match a, w with a0 :: a, w0 :: w => (Rabs a0 * w0 + wsum a w)%R | _, _ => 0%R end.
(** Every row of the matrix, in these weights, sums to at most [L]; two matrices differ by at most [q]. *)
Definition gain (L : R) (w : list R) (A : list (list R)) : Prop := Forall2 (fun w0 a => wsum a w <= L * w0)%R w A.
Definition minus (a b : list R) : list R := map (fun p => (fst p - snd p)%R) (combine a b).
Definition matrix_near (q : R) (w : list R) (A A' : list (list R)) : Prop :=
  Forall2 (fun a a' => length a = length a') A A' /\ gain q w (map (fun p => minus (fst p) (snd p)) (combine A A')).
(** Both matrices, the computed [A] and the ideal [A'], have gain at most [L] < 1; states up to [X] and inputs up to [U] leave room for the
    rounding [nu] of one round, where [step] is the rounding of one multiplication and addition and nothing exceeds [B]. *)
Definition stable (B step X U L nu : R) (w : list R) (A A' : list (list R)) : Prop :=
  (0 <= X /\ 0 <= L < 1 /\ 0 <= nu /\ L * X + U + nu <= X)%R /\ gain L w A /\ gain L w A' /\
  Forall (fun w0 => 0 <= w0 /\ X * w0 <= B /\ INR (length w) * step <= nu * w0)%R w.
