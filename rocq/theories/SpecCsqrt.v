(** * Spec: a complex square root written by a user with the crate's operations. *)

From Coq Require Import ZArith Reals List.
From Verif Require Import Base Traits Complex.
Open Scope Z_scope.

(** The textbook program: s = sqrt((|z| + |re z|) / 2) and q = im z / (2 s) are the parts of the root, in an order and with signs
    that make its real part non-negative. *)
Section Program.
Context {T : Type} (O : MixedOps T) (Sg : MixedNumSigned T) (Q : MixedSqrt T) (W : MixedPowi T) (A : MixedAbs T) (Z0 : MixedZero T).
Definition complex_sqrt (z : Cartesian T) : res (Cartesian T) :=
  r <- cartesian_mag O Q W z ;; a <- mixed_abs A (re z) ;; t <- o_add O r a ;; two <- o_of_i32 O 2 ;; h <- o_div O t two ;;
  s <- mixed_sqrt Q h ;; d <- o_add O s s ;; q <- o_div O (im z) d ;; zero <- mixed_zero Z0 ;;
  if o_le O zero (re z) then Ok (mkC s q)
  else if o_le O zero (im z) then Ok (mkC q s)
  else q1 <- o_neg Sg q ;; s1 <- o_neg Sg s ;; Ok (mkC q1 s1).
End Program.
