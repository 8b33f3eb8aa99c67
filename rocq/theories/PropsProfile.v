(** * Property C51: a value returned by a debug build is the value a release build returns. *)

From Coq Require Import ZArith NArith List Bool.
From Verif Require Import Base FloatBase Traits Trig IntImpl FixedPrim FixedImpl Complex Display Spec SpecProfile ProfileProofs.
Open Scope Z_scope.

(** every scalar operation on integers *)
Theorem C51_profile_scalar_int : forall t a b e,
  refines (o_add (int_ops Debug t) a b) (o_add (int_ops Release t) a b) /\ refines (o_sub (int_ops Debug t) a b) (o_sub (int_ops Release t) a b) /\
  refines (o_mul (int_ops Debug t) a b) (o_mul (int_ops Release t) a b) /\ refines (o_div (int_ops Debug t) a b) (o_div (int_ops Release t) a b) /\
  refines (o_neg (int_signed Debug t) a) (o_neg (int_signed Release t) a) /\ refines (mixed_abs (int_abs Debug t) a) (mixed_abs (int_abs Release t) a) /\
  refines (mixed_sign (int_real Debug t) a) (mixed_sign (int_real Release t) a) /\ refines (mixed_powi (int_powi Debug t) a e) (mixed_powi (int_powi Release t) a e).
Proof. exact profile_scalar_int. Qed.
Print Assumptions C51_profile_scalar_int.
(** every scalar operation and in-house approximation on fixed-point numbers, any fuel *)
Theorem C51_profile_scalar_fixed : forall f a b e fuel,
  refines (o_add (fixed_ops Debug f) a b) (o_add (fixed_ops Release f) a b) /\ refines (o_sub (fixed_ops Debug f) a b) (o_sub (fixed_ops Release f) a b) /\
  refines (o_mul (fixed_ops Debug f) a b) (o_mul (fixed_ops Release f) a b) /\ refines (o_div (fixed_ops Debug f) a b) (o_div (fixed_ops Release f) a b) /\
  refines (o_neg (fixed_signed Debug f) a) (o_neg (fixed_signed Release f) a) /\ refines (mixed_abs (fixed_abs Debug f) a) (mixed_abs (fixed_abs Release f) a) /\
  refines (mixed_sign (fixed_real Debug f) a) (mixed_sign (fixed_real Release f) a) /\ refines (mixed_powi (fixed_powi Debug f) a e) (mixed_powi (fixed_powi Release f) a e) /\
  refines (mixed_sqrt (fixed_sqrt Debug f fuel) a) (mixed_sqrt (fixed_sqrt Release f fuel) a) /\
  refines (mixed_wrap_phase (fixed_wrap_phase Debug f fuel) a) (mixed_wrap_phase (fixed_wrap_phase Release f fuel) a) /\
  refines (Trig.sin (fixed_ops Debug f) (fixed_signed Debug f) (fixed_pi Debug f) (fixed_powi Debug f) a)
    (Trig.sin (fixed_ops Release f) (fixed_signed Release f) (fixed_pi Release f) (fixed_powi Release f) a) /\
  refines (Trig.cos (fixed_ops Debug f) (fixed_signed Debug f) (fixed_pi Debug f) (fixed_powi Debug f) fuel a)
    (Trig.cos (fixed_ops Release f) (fixed_signed Release f) (fixed_pi Release f) (fixed_powi Release f) fuel a) /\
  refines (fixed_atan2_poly Debug f a b) (fixed_atan2_poly Release f a b) /\
  refines (atan (fixed_ops Debug f) (fixed_signed Debug f) (fixed_powi Debug f) (fixed_real Debug f) (fixed_zero Debug f) (fixed_pi Debug f) (fixed_abs Debug f) (fixed_one Debug f) a)
    (atan (fixed_ops Release f) (fixed_signed Release f) (fixed_powi Release f) (fixed_real Release f) (fixed_zero Release f) (fixed_pi Release f) (fixed_abs Release f) (fixed_one Release f) a).
Proof. exact profile_scalar_fixed. Qed.
Print Assumptions C51_profile_scalar_fixed.
(** the square-root iteration, any iteration count *)
Theorem C51_profile_niirf : forall f fuel a it, refines (niirf (fixed_ops Debug f) (fixed_zero Debug f) (fixed_abs Debug f) (fixed_powi Debug f) Debug fuel a it)
  (niirf (fixed_ops Release f) (fixed_zero Release f) (fixed_abs Release f) (fixed_powi Release f) Release fuel a it).
Proof. exact profile_niirf_all. Qed.
Print Assumptions C51_profile_niirf.
(** complex integers *)
Theorem C51_profile_complex_int : forall t t1 z w p s k, let D := int_ops Debug t in let R := int_ops Release t in
  refines (cartesian_add D z w) (cartesian_add R z w) /\ refines (cartesian_sub D z w) (cartesian_sub R z w) /\
  refines (cartesian_add_assign D z w) (cartesian_add_assign R z w) /\ refines (cartesian_sub_assign D z w) (cartesian_sub_assign R z w) /\
  refines (cartesian_mul D z w) (cartesian_mul R z w) /\
  refines (cartesian_div D (int_powi Debug t) z w) (cartesian_div R (int_powi Release t) z w) /\
  refines (cartesian_div_assign D (int_powi Debug t) z w) (cartesian_div_assign R (int_powi Release t) z w) /\
  refines (cartesian_conj (int_signed Debug t) z) (cartesian_conj (int_signed Release t) z) /\
  refines (polar_conj (int_signed Debug t) p) (polar_conj (int_signed Release t) p) /\
  refines (polar_mul D p k) (polar_mul R p k) /\ refines (polar_mul_real D p s) (polar_mul_real R p s) /\
  refines (polar_div_real D (int_real Debug t) (int_zero t) p s) (polar_div_real R (int_real Release t) (int_zero t) p s) /\
  let C := int_conv_int t t1 in
  refines (cartesian_add_scalar D C z s) (cartesian_add_scalar R C z s) /\ refines (cartesian_sub_scalar D C z s) (cartesian_sub_scalar R C z s) /\
  refines (cartesian_mul_scalar D C z s) (cartesian_mul_scalar R C z s) /\
  refines (cartesian_div_scalar (int_ops Debug t1) D C (int_zero t1) (int_real Debug t) z s) (cartesian_div_scalar (int_ops Release t1) R C (int_zero t1) (int_real Release t) z s) /\
  refines (cartesian_div_assign_scalar (int_ops Debug t1) D C (int_zero t1) (int_real Debug t) z s) (cartesian_div_assign_scalar (int_ops Release t1) R C (int_zero t1) (int_real Release t) z s).
Proof. exact profile_complex_int. Qed.
Print Assumptions C51_profile_complex_int.
(** complex fixed-point numbers *)
Theorem C51_profile_complex_fixed : forall f t1 z w p k s fuel, let D := fixed_ops Debug f in let R := fixed_ops Release f in
  refines (cartesian_add D z w) (cartesian_add R z w) /\ refines (cartesian_sub D z w) (cartesian_sub R z w) /\
  refines (cartesian_add_assign D z w) (cartesian_add_assign R z w) /\ refines (cartesian_sub_assign D z w) (cartesian_sub_assign R z w) /\
  refines (cartesian_mul D z w) (cartesian_mul R z w) /\
  refines (cartesian_div D (fixed_powi Debug f) z w) (cartesian_div R (fixed_powi Release f) z w) /\
  refines (cartesian_div_assign D (fixed_powi Debug f) z w) (cartesian_div_assign R (fixed_powi Release f) z w) /\
  refines (cartesian_conj (fixed_signed Debug f) z) (cartesian_conj (fixed_signed Release f) z) /\
  refines (polar_conj (fixed_signed Debug f) p) (polar_conj (fixed_signed Release f) p) /\
  refines (polar_mul D p k) (polar_mul R p k) /\ refines (polar_mul_real D p s) (polar_mul_real R p s) /\
  refines (polar_div_real D (fixed_real Debug f) (fixed_zero Debug f) p s) (polar_div_real R (fixed_real Release f) (fixed_zero Release f) p s) /\
  refines (cartesian_mag D (fixed_sqrt Debug f fuel) (fixed_powi Debug f) z) (cartesian_mag R (fixed_sqrt Release f fuel) (fixed_powi Release f) z) /\
  let C := fixed_conv_int Debug f t1 in let C' := fixed_conv_int Release f t1 in
  refines (cartesian_add_scalar D C z s) (cartesian_add_scalar R C' z s) /\ refines (cartesian_sub_scalar D C z s) (cartesian_sub_scalar R C' z s) /\
  refines (cartesian_mul_scalar D C z s) (cartesian_mul_scalar R C' z s) /\
  refines (cartesian_div_scalar (int_ops Debug t1) D C (int_zero t1) (fixed_real Debug f) z s) (cartesian_div_scalar (int_ops Release t1) R C' (int_zero t1) (fixed_real Release f) z s) /\
  refines (cartesian_div_assign_scalar (int_ops Debug t1) D C (int_zero t1) (fixed_real Debug f) z s) (cartesian_div_assign_scalar (int_ops Release t1) R C' (int_zero t1) (fixed_real Release f) z s).
Proof. exact profile_complex_fixed. Qed.
Print Assumptions C51_profile_complex_fixed.
(** the operations that call external routines, if those behave likewise *)
Theorem C51_profile_external : forall f A A' S S' E E',
  (forall y x, refines (mixed_atan2 A y x) (mixed_atan2 A' y x)) -> (forall x, refines (mixed_sincos S x) (mixed_sincos S' x)) -> (forall x, refines (mixed_exp E x) (mixed_exp E' x)) ->
  forall z p n fuel, let D := fixed_ops Debug f in let R := fixed_ops Release f in
  let Q := fixed_sqrt Debug f fuel in let Q' := fixed_sqrt Release f fuel in let W := fixed_powi Debug f in let W' := fixed_powi Release f in
  let H := fixed_wrap_phase Debug f fuel in let H' := fixed_wrap_phase Release f fuel in
  refines (cartesian_to_polar D Q W A z) (cartesian_to_polar R Q' W' A' z) /\
  refines (polar_to_cartesian D H S p) (polar_to_cartesian R H' S' p) /\
  refines (cartesian_arg A z) (cartesian_arg A' z) /\
  refines (ops_powi D Q W A S (fx_of_int Debug f) z n) (ops_powi R Q' W' A' S' (fx_of_int Release f) z n) /\
  refines (cartesian_exp D S E z) (cartesian_exp R S' E' z) /\
  refines (cartesian_mul_polar D H S z p) (cartesian_mul_polar R H' S' z p) /\
  refines (cartesian_mul_assign_polar D H S z p) (cartesian_mul_assign_polar R H' S' z p) /\
  refines (polar_mul_cartesian D Q W A p z) (polar_mul_cartesian R Q' W' A' p z) /\
  refines (cartesian_conj_polar D (fixed_signed Debug f) Q W A z) (cartesian_conj_polar R (fixed_signed Release f) Q' W' A' z) /\
  refines (polar_conj_cartesian D (fixed_signed Debug f) H S p) (polar_conj_cartesian R (fixed_signed Release f) H' S' p).
Proof. exact profile_oracle_fixed. Qed.
Print Assumptions C51_profile_external.
(** printing *)
Theorem C51_profile_display : forall show std sp pre z,
  (forall t, refines (write_complex (int_ops Debug t) (int_zero t) show std sp pre z) (write_complex (int_ops Release t) (int_zero t) show std sp pre z)) /\
  (forall f, refines (write_complex (fixed_ops Debug f) (fixed_zero Debug f) show std sp pre z) (write_complex (fixed_ops Release f) (fixed_zero Release f) show std sp pre z)).
Proof. exact profile_display. Qed.
Print Assumptions C51_profile_display.

(** The hypothesis is met: (3 + 4i)(1 - 2i) in i16 returns 11 - 2i in a debug build, hence in a release build. *)
Example C51_ex : cartesian_mul (int_ops Debug i16) (mkC 3 4) (mkC 1 (-2)) = Ok (mkC 11 (-2)) /\
  cartesian_mul (int_ops Release i16) (mkC 3 4) (mkC 1 (-2)) = Ok (mkC 11 (-2)).
Proof. split; reflexivity. Qed.
(** The converse fails: a release build may return where the debug build panics; here with a product that
    is nonetheless right, because the overflows of the intermediate results cancel. *)
Theorem C51_profile_converse_refuted : exists z w r, cartesian_mul (int_ops Release i8) z w = Ok r /\
  cartesian_mul (int_ops Debug i8) z w = Panic POverflow /\ re r = re z * re w - im z * im w /\ im r = re z * im w + im z * re w.
Proof. exact profile_converse. Qed.
Print Assumptions C51_profile_converse_refuted.
