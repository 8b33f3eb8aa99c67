(** * Spec: products without rounding error and the compensated dot product, written once for every type. *)

From Coq Require Import ZArith Reals List.
From Verif Require Import Base Traits SpecCompens.
Import ListNotations.

Section Program.
Context {T : Type} (O : MixedOps T) (Z0 : MixedZero T).
(** let p = x * T::mixed_from_num(k); let h = (x - p) + p; (h, x - h) *)
Definition split_half (k : Z) (x : T) : res (T * T) :=
  c <- o_of_i32 O k ;; p <- o_mul O x c ;; q <- o_sub O x p ;; h <- o_add O q p ;; t <- o_sub O x h ;; Ok (h, t).
(** let r = a * b; let e = (((ha*hb - r) + ha*tb) + ta*hb) + ta*tb; (r, e) *)
Definition two_prod (k : Z) (a b : T) : res (T * T) :=
  x <- split_half k a ;; y <- split_half k b ;; r <- o_mul O a b ;;
  p1 <- o_mul O (fst x) (fst y) ;; t1 <- o_sub O p1 r ;;
  p2 <- o_mul O (fst x) (snd y) ;; t2 <- o_add O t1 p2 ;;
  p3 <- o_mul O (snd x) (fst y) ;; t3 <- o_add O t2 p3 ;;
  p4 <- o_mul O (snd x) (snd y) ;; e <- o_add O t3 p4 ;; Ok (r, e).
(** every product and its error, in order *)
Fixpoint products (k : Z) (xs : list (T * T)) : res (list T) :=
  match xs with
  | [] => Ok []
  | (a, b) :: xs => p <- two_prod k a b ;; r <- products k xs ;; Ok (fst p :: snd p :: r)
  end.
Definition comp_dot (k : Z) (xs : list (T * T)) : res T := l <- products k xs ;; comp_sum O Z0 l.
(** for (a, b) in xs { s = s + a * b } *)
Fixpoint plain_dot_loop (s : T) (xs : list (T * T)) : res T :=
  match xs with [] => Ok s | (a, b) :: xs => p <- o_mul O a b ;; s <- o_add O s p ;; plain_dot_loop s xs end.
Definition plain_dot (xs : list (T * T)) : res T := z <- mixed_zero Z0 ;; plain_dot_loop z xs.
End Program.

(** The literal that splits a significand of [p] bits: 4097 for f32, 134217729 for f64. *)
Definition splitter (p : Z) : Z := (2 ^ (p - Z.div2 p) + 1)%Z.
(** Sum of products and of their magnitudes. *)
Definition sum_prod (xs : list (R * R)) : R := total (map (fun p => fst p * snd p)%R xs).
Definition sum_abs (xs : list (R * R)) : R := total (map (fun p => Rabs (fst p * snd p))%R xs).
