(** * Complex quotients through the conjugate: a user program. *)

From Coq Require Import ZArith.
From Verif Require Import Base Traits Complex.

(** [let c = w.conj(); let p = z * c; let n = (w * c).re; Cartesian::new(p.re / n, p.im / n)] *)
Definition quotient {T} (P : MixedOps T) (S : MixedNumSigned T) (z w : Cartesian T) : res (Cartesian T) :=
  c <- cartesian_conj S w ;; p <- cartesian_mul P z c ;; n <- cartesian_mul P w c ;;
  x <- o_div P (re p) (re n) ;; y <- o_div P (im p) (re n) ;; Ok (mkC x y).
