(** * Properties C32, C36, C38, C42, C48 on every float type, and scalar operators with an exact condition. *)

From Coq Require Import ZArith Reals List.
From Flocq Require Import Core.Core IEEE754.BinarySingleNaN.
From Verif Require Import Base FloatBase Traits IntImpl FixedPrim FixedImpl FloatImpl Complex Spec GapProofs.
Import ListNotations.
Open Scope Z_scope.

(** C32: a scalar operator returns [r] exactly when the conversion and the componentwise operations return its parts. *)
Theorem C32_scalar_iff : forall T1 T2 (O : MixedOps T2) (C : MixedNumConversion T1 T2) z s r,
  (cartesian_add_scalar O C z s = Ok r <-> exists c, mixed_from_num C s = Ok c /\ o_add O (re z) c = Ok (re r) /\ im r = im z) /\
  (cartesian_sub_scalar O C z s = Ok r <-> exists c, mixed_from_num C s = Ok c /\ o_sub O (re z) c = Ok (re r) /\ im r = im z) /\
  (cartesian_mul_scalar O C z s = Ok r <-> exists c, mixed_from_num C s = Ok c /\ o_mul O (re z) c = Ok (re r) /\ o_mul O (im z) c = Ok (im r)).
Proof. exact scalar_iff. Qed.
Print Assumptions C32_scalar_iff.
Example C32_iff_ex : cartesian_sub_scalar (int_ops Debug i16) (int_conv_int i16 i32) (mkC 7 9) 10 = Ok (mkC (-3) 9) /\
  cartesian_mul_scalar (int_ops Debug i16) (int_conv_int i16 i32) (mkC 7 9) (-10) = Ok (mkC (-70) (-90)).
Proof. split; reflexivity. Qed.

(** C36: floats of any precision, divided by a zero of any type. *)
Theorem C36_div_zero_float : forall p e {Hp : Prec_gt_0 p} {He : Prec_lt_emax p e} p1 e1 {Hp1 : Prec_gt_0 p1} {He1 : Prec_lt_emax p1 e1} m t1 (z : Cartesian (binary_float p e)) (q : Polar (binary_float p e)) s, In t1 int_types ->
  cartesian_div_scalar float_ops float_ops (float_conv_float p1 e1) float_zero float_real z (B754_zero s : binary_float p1 e1) = Ok (mkC Bmax_float Bmax_float) /\
  cartesian_div_scalar (int_ops m t1) float_ops (float_conv_int t1) (int_zero t1) float_real z 0 = Ok (mkC Bmax_float Bmax_float) /\
  ops_div_scalar_cartesian float_ops float_real z (B754_zero s) = Ok (mkC Bmax_float Bmax_float) /\
  polar_div_real float_ops float_real float_zero q (B754_zero s) = Ok (mkP Bmax_float (ang q)).
Proof. exact @div_zero_float. Qed.
Print Assumptions C36_div_zero_float.
Theorem C36_div_assign_zero_float_refuted : forall p e {Hp : Prec_gt_0 p} {He : Prec_lt_emax p e} p1 e1 {Hp1 : Prec_gt_0 p1} {He1 : Prec_lt_emax p1 e1} m t1 (z : Cartesian (binary_float p e)) s, In t1 int_types ->
  cartesian_div_assign_scalar float_ops float_ops (float_conv_float p1 e1) float_zero float_real z (B754_zero s : binary_float p1 e1) = Ok (mkC (B754_infinity s) (B754_infinity s)) /\
  cartesian_div_assign_scalar (int_ops m t1) float_ops (float_conv_int t1) (int_zero t1) float_real z 0 = Ok (mkC (B754_infinity false) (B754_infinity false)).
Proof. exact @div_assign_zero_float. Qed.
Print Assumptions C36_div_assign_zero_float_refuted.
Example C36_float_ex : In i32 int_types /\ is_finite (Bmax_float : f32) = true.
Proof. split; [cbn; tauto|reflexivity]. Qed.

(** C38: floats of any precision. *)
Theorem C38_polar_mul_float : forall p e {Hp : Prec_gt_0 p} {He : Prec_lt_emax p e} (a b : Polar (binary_float p e)),
  (Bcompare (mag a) (B754_zero false) = Some Eq \/ Bcompare (mag b) (B754_zero false) = Some Eq -> polar_mul float_ops a b = Ok (mkP (B754_zero false) (B754_zero false))) /\
  (Bcompare (mag a) (B754_zero false) <> Some Eq -> Bcompare (mag b) (B754_zero false) <> Some Eq ->
     polar_mul float_ops a b = Ok (mkP (Bmult mode_NE (mag a) (mag b)) (Bplus mode_NE (ang a) (ang b)))).
Proof. exact @polar_mul_float. Qed.
Print Assumptions C38_polar_mul_float.
Theorem C38_polar_one_float : forall p e {Hp : Prec_gt_0 p} {He : Prec_lt_emax p e}, 1 < p -> forall a : Polar (binary_float p e), Bcompare (mag a) (B754_zero false) <> Some Eq ->
  exists o r, polar_one float_zero float_one = Ok o /\ polar_mul float_ops a o = Ok r /\ polar_mul float_ops o a = Ok r /\ mag r = mag a /\
  (ang r = ang a \/ ang a = B754_zero true /\ ang r = B754_zero false).
Proof. exact @polar_one_float. Qed.
Print Assumptions C38_polar_one_float.
(** scaling by a real keeps the angle, on every type *)
Theorem C38_scale : forall T (O : MixedOps T) p s r, polar_mul_real O p s = Ok r <-> o_mul O (mag p) s = Ok (mag r) /\ ang r = ang p.
Proof. exact polar_scale. Qed.
Print Assumptions C38_scale.
Example C38_float_ex : Bcompare (Bone : f32) (B754_zero false) <> Some Eq /\ polar_mul_real (int_ops Debug i8) (mkP 5 3) (-7) = Ok (mkP (-35) 3).
Proof. split; [vm_compute; discriminate|reflexivity]. Qed.

(** C42: between floats, the result is the source rounded to nearest even, with its sign; beyond the target's range it is infinite. *)
Theorem C42_float_narrowing : forall x : f64, exists y : f32, mixed_from_num (float_conv_float 53 1024) x = Ok y /\
  (is_nan x = true -> is_nan y = true) /\
  (forall s, x = B754_infinity s -> y = B754_infinity s) /\
  (is_finite x = true -> let v := round radix2 (FLT_exp (-149) 24) ZnearestE (B2R x) in
     Bsign y = Bsign x /\
     ((Rabs v < bpow radix2 128)%R -> is_finite y = true /\ B2R y = v) /\
     ((bpow radix2 128 <= Rabs v)%R -> y = B754_infinity (Bsign x))).
Proof. exact (narrow 53 1024). Qed.
Print Assumptions C42_float_narrowing.
Example C42_narrowing_ex :
  match mixed_from_num (float_conv_float (prec := 24) (emax := 128) 53 1024) (float_of_scaled 53 1024 (-(2 ^ 25 + 3)) (-10)) with
  | Ok y => B2SF y = SpecFloat.S754_finite true (2 ^ 23 + 1) (-8) | _ => False end /\
  mixed_from_num (float_conv_float (prec := 24) (emax := 128) 53 1024) (float_of_scaled 53 1024 (2 ^ 25 - 1) 103) = Ok (B754_infinity false).
Proof. split; vm_compute; reflexivity. Qed.

(** C48: lexicographic on the values of finite floats (so that -0 equals +0); a NaN that decides leaves the pair unordered, and no number with a NaN equals any. *)
Theorem C48_cartesian_order_float : forall p e {Hp : Prec_gt_0 p} {He : Prec_lt_emax p e} (a b : Cartesian (binary_float p e)),
  (is_finite (re a) = true -> is_finite (re b) = true -> is_finite (im a) = true -> is_finite (im b) = true ->
     (cartesian_cmp float_ops a b = Some Lt <-> (B2R (re a) < B2R (re b) \/ B2R (re a) = B2R (re b) /\ B2R (im a) < B2R (im b))%R) /\
     (cartesian_cmp float_ops a b = Some Eq <-> B2R (re a) = B2R (re b) /\ B2R (im a) = B2R (im b)) /\
     (cartesian_eq float_ops a b = true <-> B2R (re a) = B2R (re b) /\ B2R (im a) = B2R (im b)) /\
     (cartesian_cmp float_ops a b = Some Gt <-> cartesian_cmp float_ops b a = Some Lt) /\ cartesian_cmp float_ops a b <> None) /\
  (is_nan (re a) = true \/ is_nan (re b) = true -> cartesian_cmp float_ops a b = None) /\
  (is_nan (im a) = true \/ is_nan (im b) = true -> cartesian_cmp float_ops a b <> Some Eq) /\
  (is_nan (re a) = true \/ is_nan (re b) = true \/ is_nan (im a) = true \/ is_nan (im b) = true -> cartesian_eq float_ops a b = false) /\
  (is_nan (im a) = true \/ is_nan (im b) = true -> is_finite (re a) = true -> is_finite (re b) = true ->
     (cartesian_cmp float_ops a b = Some Lt <-> (B2R (re a) < B2R (re b))%R) /\ (cartesian_cmp float_ops a b = None <-> B2R (re a) = B2R (re b))).
Proof. exact @order_float. Qed.
Print Assumptions C48_cartesian_order_float.
Theorem C48_polar_order_float : forall p e {Hp : Prec_gt_0 p} {He : Prec_lt_emax p e} (a b : Polar (binary_float p e)),
  (is_finite (mag a) = true -> is_finite (mag b) = true -> is_finite (ang a) = true -> is_finite (ang b) = true ->
     (polar_cmp float_ops a b = Some Lt <-> (B2R (mag a) < B2R (mag b) \/ B2R (mag a) = B2R (mag b) /\ B2R (ang a) < B2R (ang b))%R) /\
     (polar_cmp float_ops a b = Some Eq <-> B2R (mag a) = B2R (mag b) /\ B2R (ang a) = B2R (ang b)) /\
     (polar_eq float_ops a b = true <-> B2R (mag a) = B2R (mag b) /\ B2R (ang a) = B2R (ang b)) /\
     (polar_cmp float_ops a b = Some Gt <-> polar_cmp float_ops b a = Some Lt)) /\
  (is_nan (mag a) = true \/ is_nan (mag b) = true -> polar_cmp float_ops a b = None) /\
  (is_nan (mag a) = true \/ is_nan (mag b) = true \/ is_nan (ang a) = true \/ is_nan (ang b) = true -> polar_eq float_ops a b = false).
Proof. exact @order_polar. Qed.
Print Assumptions C48_polar_order_float.
Theorem C48_default_zero_float : forall p e {Hp : Prec_gt_0 p} {He : Prec_lt_emax p e},
  cartesian_zero (float_zero (prec := p) (emax := e)) = Ok (cartesian_default (B754_zero false)) /\
  polar_zero (float_zero (prec := p) (emax := e)) = Ok (polar_default (B754_zero false)).
Proof. exact @zero_float. Qed.
Print Assumptions C48_default_zero_float.
Example C48_float_ex : cartesian_cmp float_ops (mkC (B754_zero true) Bone : Cartesian f32) (mkC (B754_zero false) (B754_zero false)) = Some Gt /\
  cartesian_cmp float_ops (mkC (B754_zero true) B754_nan : Cartesian f32) (mkC (B754_zero false) (B754_zero false)) = None /\
  cartesian_cmp float_ops (mkC (B754_zero true) B754_nan : Cartesian f32) (mkC Bone (B754_zero false)) = Some Lt.
Proof. repeat split; vm_compute; reflexivity. Qed.
