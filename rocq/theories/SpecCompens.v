(** * Spec: compensated addition and summation, written once for every type. *)

From Coq Require Import ZArith Reals List.
From Verif Require Import Base Traits.
Import ListNotations.

Section Program.
Context {T : Type} (O : MixedOps T) (Z0 : MixedZero T).
(** let s = a + b; let v = s - a; let e = (a - (s - v)) + (b - v); (s, e) *)
Definition two_sum (a b : T) : res (T * T) :=
  s <- o_add O a b ;; v <- o_sub O s a ;; w <- o_sub O s v ;; p <- o_sub O a w ;; q <- o_sub O b v ;; e <- o_add O p q ;; Ok (s, e).
(** for x in xs { let (t, e) = two_sum(s, x); s = t; c = c + e } *)
Fixpoint comp_loop (s c : T) (xs : list T) : res (T * T) :=
  match xs with
  | [] => Ok (s, c)
  | x :: xs => p <- two_sum s x ;; c <- o_add O c (snd p) ;; comp_loop (fst p) c xs
  end.
Definition comp_sum (xs : list T) : res T := z <- mixed_zero Z0 ;; p <- comp_loop z z xs ;; o_add O (fst p) (snd p).
(** for x in xs { s = s + x } *)
Fixpoint plain_loop (s : T) (xs : list T) : res T :=
  match xs with [] => Ok s | x :: xs => s <- o_add O s x ;; plain_loop s xs end.
Definition plain_sum (xs : list T) : res T := z <- mixed_zero Z0 ;; plain_loop z xs.
End Program.

Definition total (xs : list R) : R := fold_right Rplus 0%R xs.
