(** * C179: comparing two numbers, comparing their difference with zero, and comparing products. *)

From Coq Require Import ZArith Reals List Lia Lra.
From Flocq Require Import Core.Core IEEE754.BinarySingleNaN.
From Verif Require Import Base FloatBase Traits IntImpl FixedPrim FixedImpl FloatImpl Spec CompareProofs.
Open Scope Z_scope.

(** Floats, NaN, infinities and overflowing differences included: x - y compares with zero as x compares with y, except that
    an infinity minus itself is not a number. *)
Theorem C179_difference_float_partial : forall p e {Hp : Prec_gt_0 p} {He : Prec_lt_emax p e} (x y : binary_float p e),
  (forall s, ~ (x = B754_infinity s /\ y = B754_infinity s)) -> exists d z, o_sub float_ops x y = Ok d /\ mixed_zero float_zero = Ok z /\
  o_cmp float_ops d z = o_cmp float_ops x y.
Proof. exact @diff_float. Qed.
Print Assumptions C179_difference_float_partial.
Theorem C179_difference_float_refuted : forall p e {Hp : Prec_gt_0 p} {He : Prec_lt_emax p e} s, let x : binary_float p e := B754_infinity s in
  exists d z, o_sub float_ops x x = Ok d /\ mixed_zero float_zero = Ok z /\ o_cmp float_ops x x = Some Eq /\ o_cmp float_ops d z = None.
Proof. exact @inf_minus_inf. Qed.
Print Assumptions C179_difference_float_refuted.

(** Fixed point, both profiles: they agree exactly when the difference fits. *)
Theorem C179_difference_fixed_partial : forall m f, supported f = true -> forall x y, fvalid f x -> fvalid f y ->
  (fvalid f (x - y) <-> exists d, o_sub (fixed_ops m f) x y = Ok d /\ o_cmp (fixed_ops m f) d 0 = o_cmp (fixed_ops m f) x y).
Proof. exact diff_fixed_iff. Qed.
Print Assumptions C179_difference_fixed_partial.
(** Every format has operands for which the release build orders them the other way through the difference. *)
Theorem C179_difference_fixed_refuted : forall f, supported f = true -> exists x y d, fvalid f x /\ fvalid f y /\ o_sub (fixed_ops Release f) x y = Ok d /\
  o_cmp (fixed_ops Release f) x y <> o_cmp (fixed_ops Release f) d 0.
Proof. exact diff_wrong. Qed.
Print Assumptions C179_difference_fixed_refuted.

(** Products: rounding can make two different products equal but never puts them in the wrong order. *)
Theorem C179_products_float : forall p e {Hp : Prec_gt_0 p} {He : Prec_lt_emax p e} (a b c d x y : binary_float p e),
  o_mul float_ops a b = Ok x -> o_mul float_ops c d = Ok y -> is_finite x = true -> is_finite y = true ->
  (o_cmp float_ops x y = Some Lt -> B2R a * B2R b < B2R c * B2R d)%R /\ (o_cmp float_ops x y = Some Gt -> B2R a * B2R b > B2R c * B2R d)%R /\
  (B2R a * B2R b = B2R c * B2R d -> o_cmp float_ops x y = Some Eq)%R.
Proof. exact @products_float. Qed.
Print Assumptions C179_products_float.
Theorem C179_products_fixed : forall f, supported f = true -> forall a b c d x y, o_mul (fixed_ops Debug f) a b = Ok x -> o_mul (fixed_ops Debug f) c d = Ok y ->
  (o_cmp (fixed_ops Debug f) x y = Some Lt -> a * b < c * d) /\ (o_cmp (fixed_ops Debug f) x y = Some Gt -> c * d < a * b) /\ (a * b = c * d -> o_cmp (fixed_ops Debug f) x y = Some Eq).
Proof. exact products_fixed. Qed.
Print Assumptions C179_products_fixed.

(** Primitive integers of every width, both profiles; products are compared exactly in debug builds. *)
Theorem C179_difference_int_partial : forall m t, 1 <= iwidth t -> forall x y, in_range t x -> in_range t y ->
  (in_range t (x - y) <-> exists d, o_sub (int_ops m t) x y = Ok d /\ o_cmp (int_ops m t) d 0 = o_cmp (int_ops m t) x y).
Proof. exact diff_int_iff. Qed.
Print Assumptions C179_difference_int_partial.
Theorem C179_products_int : forall t a b c d x y, o_mul (int_ops Debug t) a b = Ok x -> o_mul (int_ops Debug t) c d = Ok y ->
  o_cmp (int_ops Debug t) x y = Some (a * b ?= c * d).
Proof. exact products_int. Qed.
Print Assumptions C179_products_int.

(** The largest f32 minus its negative overflows to infinity, which still compares as greater; the smallest subnormal differences are not lost. *)
Example C179_float_ex : let big : f32 := @B754_finite 24 128 false 16777215 104 eq_refl in let tiny : f32 := @B754_finite 24 128 false 1 (-149) eq_refl in
  o_cmp float_ops (Bminus mode_NE big (Bopp big)) (B754_zero false) = Some Gt /\ B2SF (Bminus mode_NE big (Bopp big)) = SpecFloat.S754_infinity false /\
  o_cmp float_ops (Bminus mode_NE (B754_zero true) tiny) (B754_zero false) = Some Lt.
Proof. cbv zeta. repeat split; vm_compute; reflexivity. Qed.
Example C179_fixed_ex : let f := mkFty true 16 8 in supported f = true /\ fvalid f 20000 /\ fvalid f (-20000) /\
  o_sub (fixed_ops Release f) 20000 (-20000) = Ok (-25536) /\ o_sub (fixed_ops Debug f) 20000 (-20000) = Panic POverflow /\ o_sub (fixed_ops Debug f) 20000 (-12767) = Ok 32767 /\
  o_mul (fixed_ops Debug f) 100 3 = Ok 1 /\ o_mul (fixed_ops Debug f) 100 2 = Ok 0.
Proof. cbv zeta. repeat split; try discriminate; vm_compute; reflexivity. Qed.
Example C179_int_ex : in_range i32 2000000000 /\ in_range i32 (-2000000000) /\ o_sub (int_ops Debug i32) 2000000000 (-2000000000) = Panic POverflow /\
  o_sub (int_ops Release i32) 2000000000 (-2000000000) = Ok (-294967296) /\ o_sub (int_ops Release u8) 3 5 = Ok 254 /\
  o_mul (int_ops Debug i32) 46340 46340 = Ok 2147395600 /\ o_mul (int_ops Debug i32) 46339 46341 = Ok 2147395599.
Proof. repeat split; try discriminate; vm_compute; reflexivity. Qed.
