(** * C14 at zero on every type, C17 for integral bases in release builds, C30 and C31 on every component type. *)

From Coq Require Import ZArith Reals List Bool.
From Flocq Require Import Core.Core IEEE754.BinarySingleNaN.
From Verif Require Import Base FloatBase Traits IntImpl FixedPrim FixedImpl FloatImpl Complex Spec Gap5Proofs.
Import ListNotations.
Open Scope Z_scope.

(** C14, fixed point: the predicates exclude each other everywhere and leave out exactly the zero of signed types. *)
Theorem C14_at_zero_fixed : forall m f x, supported f = true -> fvalid f x ->
  (mixed_is_positive (fixed_real m f) x = mixed_is_negative (fixed_real m f) x <-> fsigned f = true /\ x = 0).
Proof. exact fixed_predicates_zero. Qed.
Print Assumptions C14_at_zero_fixed.
(** C14, floats: positive are +0, +infinity and the numbers above zero; everything else but NaN is negative, -0 included. *)
Theorem C14_at_zero_float : forall p e {Hp : Prec_gt_0 p} {He : Prec_lt_emax p e} (x : binary_float p e), is_nan x = false ->
  (mixed_is_positive float_real x = true <-> x = B754_zero false \/ x = B754_infinity false \/ is_finite x = true /\ (0 < B2R x)%R) /\
  mixed_is_negative float_real x = negb (mixed_is_positive float_real x).
Proof. exact @float_predicates_zero. Qed.
Print Assumptions C14_at_zero_float.
Example C14_zero_ex : mixed_is_positive (fixed_real Debug (mkFty true 16 8)) 0 = false /\ mixed_is_negative (fixed_real Debug (mkFty true 16 8)) 0 = false /\
  mixed_is_positive (fixed_real Debug (mkFty false 16 8)) 0 = true /\ mixed_is_negative float_real (B754_zero true : f32) = true /\ is_nan (B754_zero true : f32) = false.
Proof. repeat split. Qed.

(** C17, the remaining case: in a release build a negative exponent n of an integral fixed-point base k returns k^(2^64 + n) reduced
    to the type, so every even base gives zero. *)
Theorem C17_negative_integral : forall f k n, supported f = true -> fvalid f (k * fone f) -> - 2 ^ 31 <= n < 0 ->
  mixed_powi (fixed_powi Release f) (k * fone f) n = Ok (wrap (fity f) (k ^ (2 ^ 64 + n) * fone f)) /\
  (Z.even k = true -> mixed_powi (fixed_powi Release f) (k * fone f) n = Ok 0).
Proof. exact negative_integral. Qed.
Print Assumptions C17_negative_integral.
(** 6^(-1) in FixedI32<U16> *)
Example C17_integral_ex : mixed_powi (fixed_powi Release (mkFty true 32 16)) (6 * 65536) (-1) = Ok 0.
Proof. refine (proj2 (negative_integral (mkFty true 32 16) 6 (-1) eq_refl _ _) eq_refl); split; vm_compute; try discriminate; reflexivity. Qed.

(** C30, every component type: the imaginary part after += is the new real part plus the operand's imaginary part (-= alike), and
    nothing else can make the assignment fail. *)
Theorem C30_assign_iff_partial : forall T (O : MixedOps T) z w r,
  (cartesian_add_assign O z w = Ok r <-> o_add O (re z) (re w) = Ok (re r) /\ o_add O (re r) (im w) = Ok (im r)) /\
  (cartesian_sub_assign O z w = Ok r <-> o_sub O (re z) (re w) = Ok (re r) /\ o_sub O (re r) (im w) = Ok (im r)).
Proof. exact @assign_iff. Qed.
Print Assumptions C30_assign_iff_partial.
(** C30, floats: both results side by side. *)
Theorem C30_assign_float_partial : forall p e {Hp : Prec_gt_0 p} {He : Prec_lt_emax p e} (z w : Cartesian (binary_float p e)),
  let a := Bplus mode_NE (re z) (re w) in let s := Bminus mode_NE (re z) (re w) in
  cartesian_add_assign float_ops z w = Ok (mkC a (Bplus mode_NE a (im w))) /\ cartesian_sub_assign float_ops z w = Ok (mkC s (Bminus mode_NE s (im w))) /\
  cartesian_add float_ops z w = Ok (mkC a (Bplus mode_NE (im z) (im w))) /\ cartesian_sub float_ops z w = Ok (mkC s (Bminus mode_NE (im z) (im w))).
Proof. exact @assign_float. Qed.
Print Assumptions C30_assign_float_partial.
(** C31, every component type: after any number of += the real part is the running sum of the real parts; the imaginary part is that
    sum plus the last operand's imaginary part, whatever came before. *)
Theorem C31_history_any_partial : forall T (O : MixedOps T) ws w z r, run (cartesian_add_assign O) z (ws ++ [w]) = Ok r ->
  run (o_add O) (re z) (map re (ws ++ [w])) = Ok (re r) /\ o_add O (re r) (im w) = Ok (im r).
Proof. exact @history_any. Qed.
Print Assumptions C31_history_any_partial.
Example C31_any_ex : let n := float_of_Z 24 128 in
  match run (cartesian_add_assign float_ops) (mkC (n 0) (n 9)) [mkC (n 1) (n 5); mkC (n 2) (n 7)] with Ok r => B2SF (re r) = B2SF (n 3) /\ B2SF (im r) = B2SF (n 10) | _ => False end.
Proof. vm_compute. split; reflexivity. Qed.
