(** * C178: the signs of the parts of a complex product, and the turn test Im(conj(z) w). *)

From Coq Require Import ZArith Reals List Lia Lra.
From Flocq Require Import Core.Core IEEE754.BinarySingleNaN.
From Verif Require Import Base FloatBase Traits FixedPrim FixedImpl FloatImpl Complex Spec SpecSign SignProofs.
Open Scope Z_scope.

Notation rnd p e := (round radix2 (SpecFloat.fexp p e) ZnearestE).
(** Floats, without any restriction on the operands: a finite part never has the wrong sign, and is zero exactly when its two
    products round to the same number. *)
Theorem C178_product_float : forall p e {Hp : Prec_gt_0 p} {He : Prec_lt_emax p e} (z w r : Cartesian (binary_float p e)), cartesian_mul float_ops z w = Ok r ->
  let a := B2R (re z) in let b := B2R (im z) in let c := B2R (re w) in let d := B2R (im w) in
  (is_finite (re r) = true -> same_side (B2R (re r)) (a * c - b * d) /\ (B2R (re r) = 0 <-> rnd p e (a * c) = rnd p e (b * d))%R) /\
  (is_finite (im r) = true -> same_side (B2R (im r)) (a * d + b * c) /\ (B2R (im r) = 0 <-> rnd p e (a * d) = - rnd p e (b * c))%R).
Proof. exact @product_side_float. Qed.
Print Assumptions C178_product_float.
Theorem C178_turn_float : forall p e {Hp : Prec_gt_0 p} {He : Prec_lt_emax p e} (z w q r : Cartesian (binary_float p e)),
  cartesian_conj float_signed z = Ok q -> cartesian_mul float_ops q w = Ok r -> is_finite (im r) = true ->
  let a := B2R (re z) in let b := B2R (im z) in let c := B2R (re w) in let d := B2R (im w) in
  same_side (B2R (im r)) (a * d - b * c) /\ (B2R (im r) = 0 <-> rnd p e (a * d) = rnd p e (b * c))%R.
Proof. exact @turn_side_float. Qed.
Print Assumptions C178_turn_float.

(** Fixed point, on bits: the real part never has the wrong sign; the imaginary part is negative where the exact one is, but
    can be one step negative where the exact one lies in [0, 1) steps.  What is missing from the full claim is refuted below. *)
Theorem C178_product_fixed_partial : forall f, supported f = true -> forall z w r, cartesian_mul (fixed_ops Debug f) z w = Ok r ->
  let a := re z in let b := im z in let c := re w in let d := im w in
  (b * d <= a * c -> 0 <= re r) /\ (a * c <= b * d -> re r <= 0) /\
  (a * d + b * c < 0 -> im r < 0) /\ (0 <= a * d + b * c -> -1 <= im r) /\ (fone f <= a * d + b * c -> 0 <= im r).
Proof. exact product_side_fixed. Qed.
Print Assumptions C178_product_fixed_partial.
(** The exact condition for each sign of each part: the parts of the exact product are compared with the fraction of its first term
    instead of with zero. *)
Theorem C178_sign_fixed_iff : forall f, supported f = true -> forall z w r, cartesian_mul (fixed_ops Debug f) z w = Ok r ->
  let a := re z in let b := im z in let c := re w in let d := im w in let o := fone f in
  (0 < re r <-> (a * c) mod o < a * c - b * d) /\ (re r < 0 <-> a * c - b * d <= (a * c) mod o - o) /\
  (0 < im r <-> o + (a * d) mod o <= a * d + b * c) /\ (im r < 0 <-> a * d + b * c < (a * d) mod o).
Proof. exact product_sign_iff. Qed.
Print Assumptions C178_sign_fixed_iff.
Theorem C178_turn_fixed_partial : forall f, supported f = true -> forall z w q r,
  cartesian_conj (fixed_signed Debug f) z = Ok q -> cartesian_mul (fixed_ops Debug f) q w = Ok r ->
  let a := re z in let b := im z in let c := re w in let d := im w in
  (a * d - b * c < 0 -> im r < 0) /\ (0 <= a * d - b * c -> -1 <= im r) /\ (fone f <= a * d - b * c -> 0 <= im r).
Proof. exact turn_fixed. Qed.
Print Assumptions C178_turn_fixed_partial.
(** Two equal vectors, so no turn at all: the test says clockwise.  On every signed format with a fractional bit. *)
Theorem C178_turn_refuted : forall m f, supported f = true -> fsigned f = true -> 1 <= ffrac f -> let z := mkC 1 1 in
  exists q r, cartesian_conj (fixed_signed m f) z = Ok q /\ cartesian_mul (fixed_ops m f) q z = Ok r /\ im r = -1.
Proof. exact turn_wrong. Qed.
Print Assumptions C178_turn_refuted.

Example C178_fixed_ex : let f := mkFty true 16 8 in supported f = true /\
  cartesian_mul (fixed_ops Debug f) (mkC 300 (-200)) (mkC 100 150) = Ok (mkC 235 96) /\ 150 * -200 <= 300 * 100 /\ fone f <= 300 * 150 + -200 * 100 /\
  cartesian_mul (fixed_ops Debug f) (mkC 1 (-1)) (mkC 1 1) = Ok (mkC 1 (-1)) /\ 1 * 1 + -1 * 1 = 0.
Proof. repeat split; vm_compute; congruence. Qed.
Example C178_float_ex : let n := float_of_Z 24 128 in
  match cartesian_mul float_ops (mkC (n 3) (n 4)) (mkC (n (-5)) (n 6)) with
  | Ok r => is_finite (re r) = true /\ is_finite (im r) = true /\ Bsign (re r) = true /\ B2SF (re r) = B2SF (n (-39)) /\ B2SF (im r) = B2SF (n (-2)) | _ => False end.
Proof. vm_compute. repeat split. Qed.
