(** * Properties C13-C18: sign, absolute value, predicates, integer powers. *)

From Coq Require Import ZArith Reals Lia List Bool.
From Flocq Require Import Core.Core IEEE754.BinarySingleNaN.
From Verif Require Import Base FloatBase Traits Trig IntImpl FixedPrim FixedImpl FloatImpl Spec
  Lemmas ScalarProofs FloatLemmas FloatProofs ScalarProofs2 PowNeg.
Open Scope Z_scope.

(** C13, integers: sign is -1/+1 (zero is positive), abs is |x| except for the signed
    minimum, and sign * abs = x whenever abs returns. *)
Theorem C13_int_sign_abs : forall m t x, In t int_types -> in_range t x ->
  mixed_sign (int_real m t) x = Ok (if x <? 0 then -1 else 1) /\
  (~ (isigned t = true /\ x = imin t) -> mixed_abs (int_abs m t) x = Ok (Z.abs x)) /\
  (isigned t = true -> x = imin t ->
     mixed_abs (int_abs m t) x = match m with Debug => Panic POverflow | Release => Ok x end) /\
  (forall s a, mixed_sign (int_real m t) x = Ok s -> mixed_abs (int_abs m t) x = Ok a ->
     o_mul (int_ops m t) s a = Ok x).
Proof. exact int_sign_abs_all. Qed.
Print Assumptions C13_int_sign_abs.
Example C13_int_ex : In i32 int_types /\ in_range i32 (-7) /\
  mixed_abs (int_abs Debug i32) (-7) = Ok 7 /\ mixed_sign (int_real Debug i32) (-7) = Ok (-1).
Proof. repeat split; try (vm_compute; congruence). simpl; tauto. Qed.

(** C13, fixed point. *)
Theorem C13_fixed_sign_abs : forall m f x, supported f = true -> fvalid f x ->
  mixed_sign (fixed_real m f) x = Ok (if x <? 0 then - 2 ^ ffrac f else 2 ^ ffrac f) /\
  (~ (fsigned f = true /\ x = fmin f) -> mixed_abs (fixed_abs m f) x = Ok (Z.abs x)) /\
  (fsigned f = true -> x = fmin f ->
     mixed_abs (fixed_abs m f) x = match m with Debug => Panic POverflow | Release => Ok x end) /\
  (forall s a, mixed_sign (fixed_real m f) x = Ok s -> mixed_abs (fixed_abs m f) x = Ok a ->
     o_mul (fixed_ops m f) s a = Ok x).
Proof. exact fixed_sign_abs_all. Qed.
Print Assumptions C13_fixed_sign_abs.
Example C13_fixed_ex : supported (mkFty true 32 22) = true /\ fvalid (mkFty true 32 22) (-5) /\
  mixed_abs (fixed_abs Debug (mkFty true 32 22)) (-5) = Ok 5.
Proof. repeat split; vm_compute; congruence. Qed.

(** C13, floats: [x] is negative iff it compares below zero; sign * abs returns [x] itself,
    except that -0 becomes +0 (which compares equal). *)
Theorem C13_f32_sign_abs : forall x : f32, is_nan x = false ->
  exists s a p, mixed_sign float_real x = Ok s /\ mixed_abs float_abs x = Ok a /\
    o_mul float_ops s a = Ok p /\
    ((is_finite x = true /\ (B2R x < 0)%R) \/ x = B754_infinity true -> s = Bopp Bone) /\
    (~ ((is_finite x = true /\ (B2R x < 0)%R) \/ x = B754_infinity true) -> s = Bone) /\
    (is_finite x = true -> B2R a = Rabs (B2R x)) /\ Bsign a = false /\
    Bcompare p x = Some Eq /\ (x <> B754_zero true -> p = x).
Proof. exact (@float_sign_abs_all 24 128 _ _ eq_refl). Qed.
Print Assumptions C13_f32_sign_abs.
Theorem C13_f64_sign_abs : forall x : f64, is_nan x = false ->
  exists s a p, mixed_sign float_real x = Ok s /\ mixed_abs float_abs x = Ok a /\
    o_mul float_ops s a = Ok p /\
    ((is_finite x = true /\ (B2R x < 0)%R) \/ x = B754_infinity true -> s = Bopp Bone) /\
    (~ ((is_finite x = true /\ (B2R x < 0)%R) \/ x = B754_infinity true) -> s = Bone) /\
    (is_finite x = true -> B2R a = Rabs (B2R x)) /\ Bsign a = false /\
    Bcompare p x = Some Eq /\ (x <> B754_zero true -> p = x).
Proof. exact (@float_sign_abs_all 53 1024 _ _ eq_refl). Qed.
Print Assumptions C13_f64_sign_abs.
Example C13_float_ex : is_nan (float_of_Z 24 128 (-3)) = false /\
  mixed_abs float_abs (float_of_Z 24 128 (-3)) = Ok (float_of_Z 24 128 3).
Proof. split; [reflexivity|]. apply (f_equal Ok), B2SF_inj. vm_compute. reflexivity. Qed.

(** C14 is false: zero is positive on unsigned types and on floats, not on signed types;
    the float -0 is negative. *)
Theorem C14_is_positive_refuted :
  mixed_is_positive (int_real Debug u8) 0 = true /\
  mixed_is_positive (int_real Debug i8) 0 = false /\
  mixed_is_positive (fixed_real Debug (mkFty false 32 22)) 0 = true /\
  mixed_is_positive (fixed_real Debug (mkFty true 32 22)) 0 = false /\
  mixed_is_positive float_real (B754_zero false : f32) = true /\
  mixed_is_negative float_real (B754_zero true : f32) = true.
Proof. repeat split. Qed.
Print Assumptions C14_is_positive_refuted.

(** C14 holds for every non-zero value.  Missing: zero, where it is false. *)
Theorem C14_nonzero_partial :
  (forall m t x, In t int_types -> in_range t x -> x <> 0 ->
     (mixed_is_positive (int_real m t) x = true <-> 0 < x) /\
     (mixed_is_negative (int_real m t) x = true <-> x < 0)) /\
  (forall m f x, supported f = true -> fvalid f x -> x <> 0 ->
     (mixed_is_positive (fixed_real m f) x = true <-> 0 < x) /\
     (mixed_is_negative (fixed_real m f) x = true <-> x < 0)) /\
  (forall x : f32, is_finite x = true -> B2R x <> 0%R ->
     (mixed_is_positive float_real x = true <-> (0 < B2R x)%R) /\
     (mixed_is_negative float_real x = true <-> (B2R x < 0)%R)) /\
  (forall x : f64, is_finite x = true -> B2R x <> 0%R ->
     (mixed_is_positive float_real x = true <-> (0 < B2R x)%R) /\
     (mixed_is_negative float_real x = true <-> (B2R x < 0)%R)).
Proof.
  exact (conj int_predicates_nonzero (conj fixed_predicates_nonzero
    (conj (@float_predicates_nonzero 24 128 _ _) (@float_predicates_nonzero 53 1024 _ _)))).
Qed.
Print Assumptions C14_nonzero_partial.
Example C14_ex : in_range u8 3 /\ mixed_is_positive (int_real Debug u8) 3 = true.
Proof. repeat split; vm_compute; congruence. Qed.

(** The predicates are the complement of each other on unsigned types and floats, and on
    signed types fail together exactly at zero. *)
Theorem C14_at_zero_iff : forall m t x, In t int_types -> in_range t x ->
  (mixed_is_positive (int_real m t) x = mixed_is_negative (int_real m t) x
   <-> isigned t = true /\ x = 0).
Proof. exact int_predicates_zero. Qed.
Print Assumptions C14_at_zero_iff.

(** C15: integer powers.  [fin m t v] is the outcome of an operator with mathematical value
    [v]; both build profiles are spelled out. *)
Theorem C15_int_powi : forall t x n, In t int_types -> in_range t x -> 0 <= n < 2 ^ 31 ->
  mixed_powi (int_powi Release t) x n = Ok (wrap t (x ^ n)) /\
  (in_range t (x ^ n) -> mixed_powi (int_powi Debug t) x n = Ok (x ^ n)) /\
  (~ in_range t (x ^ n) -> mixed_powi (int_powi Debug t) x n = Panic POverflow).
Proof. exact int_powi_all. Qed.
Print Assumptions C15_int_powi.
(** the free function trigonometry::powi, every usize exponent *)
Theorem C15_trig_powi : forall t x (n : N), In t int_types -> in_range t x ->
  powi (int_ops Release t) x n = Ok (wrap t (x ^ Z.of_N n)) /\
  (in_range t (x ^ Z.of_N n) -> powi (int_ops Debug t) x n = Ok (x ^ Z.of_N n)) /\
  (~ in_range t (x ^ Z.of_N n) -> powi (int_ops Debug t) x n = Panic POverflow).
Proof. exact trig_powi_all. Qed.
Print Assumptions C15_trig_powi.
Example C15_ex : In i32 int_types /\ in_range i32 (-3) /\ mixed_powi (int_powi Debug i32) (-3) 5 = Ok (-243)
  /\ mixed_powi (int_powi Debug i8) 2 7 = Panic POverflow /\ mixed_powi (int_powi Release i8) 2 7 = Ok (-128).
Proof. split; [simpl; tauto|]. repeat split; vm_compute; congruence. Qed.

(** C16: fixed-point powers.  For |x|<=1 the call returns and is within n-1 ulp of x^n
    (from below for x>=0); for integer-valued x the result is exact when it fits. *)
Theorem C16_fixed_powi : forall m f x, supported f = true -> fvalid f x ->
  mixed_powi (fixed_powi m f) x 0 = Ok (2 ^ ffrac f) /\
  mixed_powi (fixed_powi m f) x 1 = Ok x /\
  (forall n, 1 <= n < 2 ^ 31 -> (Rabs (fval f x) <= 1)%R ->
     exists r, mixed_powi (fixed_powi m f) x n = Ok r /\ fvalid f r /\
       (Rabs (fval f r - fval f x ^ Z.to_nat n) <= IZR (n - 1) * ulp f)%R /\
       (Rabs (fval f r) <= 1)%R /\
       (0 <= x -> (0 <= fval f r <= fval f x ^ Z.to_nat n)%R)) /\
  (forall k n, x = k * 2 ^ ffrac f -> 0 <= n < 2 ^ 31 -> fvalid f (k ^ n * 2 ^ ffrac f) ->
     mixed_powi (fixed_powi m f) x n = Ok (k ^ n * 2 ^ ffrac f)).
Proof. exact fixed_powi_all. Qed.
Print Assumptions C16_fixed_powi.
Example C16_ex : supported (mkFty true 32 22) = true /\ fvalid (mkFty true 32 22) 3000000 /\
  mixed_powi (fixed_powi Debug (mkFty true 32 22)) 3000000 5 = Ok 785174.
Proof. repeat split; vm_compute; congruence. Qed.

(** C17 is false: a negative exponent is cast to usize.  On integers the outcome is that of
    the exponent 2^64-n; on fixed types every 0<=x<1 gives 0 (its reciprocal is at least 1). *)
Theorem C17_negative_powi_refuted :
  (forall m, mixed_powi (float_powi (prec:=53) (emax:=1024)) (float_of_Z 53 1024 2) (-1) = Ok (float_of_scaled 53 1024 1 (-1))
    /\ mixed_powi (fixed_powi m (mkFty true 32 22)) (2 ^ 21) (-1) = Ok 0
    /\ fval (mkFty true 32 22) (2 ^ 21) = (1 / 2)%R) /\
  mixed_powi (int_powi Debug i32) 2 (-1) = Panic POverflow /\
  mixed_powi (int_powi Release i32) 2 (-1) = Ok 0 /\
  mixed_powi (int_powi Debug i32) (-1) (-1) = Ok (-1).
Proof. exact negative_powi_cases. Qed.
Print Assumptions C17_negative_powi_refuted.
Theorem C17_negative_exponent_iff : 
  (forall m t x n, In t int_types -> in_range t x -> - 2 ^ 31 <= n < 0 ->
     mixed_powi (int_powi m t) x n = fin m t (x ^ (2 ^ 64 + n))) /\
  (forall m f x n, supported f = true -> 0 <= x < 2 ^ ffrac f -> - 2 ^ 31 <= n < 0 ->
     mixed_powi (fixed_powi m f) x n = Ok 0).
Proof. exact negative_powi_all. Qed.
Print Assumptions C17_negative_exponent_iff.
(** Every fixed-point value, not only those in [0,1): 0 below one in size, +-1 at one, overflow above it in the checked build.  Missing:
    what the unchecked build leaves after 2^64 - n wrapping products of a value above one. *)
Theorem C17_negative_fixed_partial : forall m f x n, supported f = true -> fvalid f x -> - 2 ^ 31 <= n < 0 ->
  (Z.abs x < 2 ^ ffrac f -> mixed_powi (fixed_powi m f) x n = Ok 0) /\
  (Z.abs x = 2 ^ ffrac f -> mixed_powi (fixed_powi m f) x n = Ok (if Z.even n then 2 ^ ffrac f else x)) /\
  (2 ^ ffrac f < Z.abs x -> mixed_powi (fixed_powi Debug f) x n = Panic POverflow).
Proof. exact negative_fixed. Qed.
Print Assumptions C17_negative_fixed_partial.
(** (-0.5)^-3 on FixedI32<U22> is 0, 1.5^-1 panics *)
Example C17_ex : mixed_powi (fixed_powi Release (mkFty true 32 22)) (- 2 ^ 21) (-3) = Ok 0 /\ mixed_powi (fixed_powi Debug (mkFty true 32 22)) (3 * 2 ^ 21) (-1) = Panic POverflow.
Proof.
  assert (V : fvalid (mkFty true 32 22) (- 2 ^ 21) /\ fvalid (mkFty true 32 22) (3 * 2 ^ 21)) by (cbv; repeat split; discriminate).
  destruct (negative_fixed Release (mkFty true 32 22) (- 2 ^ 21) (-3) eq_refl (proj1 V) ltac:(lia)) as (A & _ & _).
  destruct (negative_fixed Debug (mkFty true 32 22) (3 * 2 ^ 21) (-1) eq_refl (proj2 V) ltac:(lia)) as (_ & _ & B).
  split; [apply A | apply B]; reflexivity.
Qed.

(** C18: floats. *)
Theorem C18_float_powi :
  (forall x : f32, mixed_powi float_powi x 0 = Ok Bone /\ mixed_powi float_powi x 1 = Ok x /\
     mixed_powi float_powi x 2 = Ok (Bmult mode_NE x x) /\
     mixed_powi float_powi x (-1) = Ok (Bdiv mode_NE Bone x) /\
     (forall e, exists r, mixed_powi float_powi x e = Ok r /\
        (Z.even e = true -> Bsign r = false /\ mixed_powi float_powi (Bopp x) e = Ok r) /\
        (Z.even e = false -> mixed_powi float_powi (Bopp x) e = Ok (Bopp r)))) /\
  (forall x : f64, mixed_powi float_powi x 0 = Ok Bone /\ mixed_powi float_powi x 1 = Ok x /\
     mixed_powi float_powi x 2 = Ok (Bmult mode_NE x x) /\
     mixed_powi float_powi x (-1) = Ok (Bdiv mode_NE Bone x) /\
     (forall e, exists r, mixed_powi float_powi x e = Ok r /\
        (Z.even e = true -> Bsign r = false /\ mixed_powi float_powi (Bopp x) e = Ok r) /\
        (Z.even e = false -> mixed_powi float_powi (Bopp x) e = Ok (Bopp r)))).
Proof. exact (conj (@float_powi_all 24 128 _ _) (@float_powi_all 53 1024 _ _)). Qed.
Print Assumptions C18_float_powi.
Example C18_ex : mixed_powi float_powi (float_of_Z 24 128 3) 5 = Ok (float_of_Z 24 128 243) /\
  mixed_powi float_powi (float_of_Z 24 128 (-3)) 5 = Ok (float_of_Z 24 128 (-243)).
Proof. split; apply (f_equal Ok), B2SF_inj; vm_compute; reflexivity. Qed.
