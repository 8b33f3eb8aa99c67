(** * Property C122: a wider type returns what the narrow one returned.

    [refines x y]: whatever [x] returns, [y] returns.  Two fixed types with the same number of fractional bits
    hold the same value in the same bits. *)

From Coq Require Import ZArith List.
From Flocq Require Import IEEE754.BinarySingleNaN.
From Verif Require Import Base FloatBase Traits Trig IntImpl FixedPrim FixedImpl Complex Display Spec SpecProfile WideProofs.
Import ListNotations.
Open Scope Z_scope.

(** C122. *)
Theorem C122_wide_scalar : forall m f g, supported f = true -> fsigned g = fsigned f -> ffrac g = ffrac f -> fwidth f <= fwidth g ->
  forall a b e fuel it, let D := fixed_ops Debug f in let R := fixed_ops m g in
  refines (o_add D a b) (o_add R a b) /\ refines (o_sub D a b) (o_sub R a b) /\ refines (o_mul D a b) (o_mul R a b) /\ refines (o_div D a b) (o_div R a b) /\
  refines (o_neg (fixed_signed Debug f) a) (o_neg (fixed_signed m g) a) /\ refines (mixed_abs (fixed_abs Debug f) a) (mixed_abs (fixed_abs m g) a) /\
  refines (mixed_sign (fixed_real Debug f) a) (mixed_sign (fixed_real m g) a) /\ refines (mixed_powi (fixed_powi Debug f) a e) (mixed_powi (fixed_powi m g) a e) /\
  refines (mixed_sqrt (fixed_sqrt Debug f fuel) a) (mixed_sqrt (fixed_sqrt m g fuel) a) /\
  refines (niirf D (fixed_zero Debug f) (fixed_abs Debug f) (fixed_powi Debug f) Debug fuel a it) (niirf R (fixed_zero m g) (fixed_abs m g) (fixed_powi m g) m fuel a it) /\
  refines (mixed_wrap_phase (fixed_wrap_phase Debug f fuel) a) (mixed_wrap_phase (fixed_wrap_phase m g fuel) a) /\
  refines (Trig.sin D (fixed_signed Debug f) (fixed_pi Debug f) (fixed_powi Debug f) a) (Trig.sin R (fixed_signed m g) (fixed_pi m g) (fixed_powi m g) a) /\
  refines (Trig.cos D (fixed_signed Debug f) (fixed_pi Debug f) (fixed_powi Debug f) fuel a) (Trig.cos R (fixed_signed m g) (fixed_pi m g) (fixed_powi m g) fuel a) /\
  refines (fixed_atan2_poly Debug f a b) (fixed_atan2_poly m g a b) /\
  refines (atan D (fixed_signed Debug f) (fixed_powi Debug f) (fixed_real Debug f) (fixed_zero Debug f) (fixed_pi Debug f) (fixed_abs Debug f) (fixed_one Debug f) a)
    (atan R (fixed_signed m g) (fixed_powi m g) (fixed_real m g) (fixed_zero m g) (fixed_pi m g) (fixed_abs m g) (fixed_one m g) a).
Proof. exact (fun m f g H1 H2 H3 H4 => wide_scalar m f g H2 H3 (conj (wide_width f H1) H4)). Qed.
Print Assumptions C122_wide_scalar.
Theorem C122_wide_conversions : forall m f g, supported f = true -> fsigned g = fsigned f -> ffrac g = ffrac f -> fwidth f <= fwidth g ->
  forall t1 a (x : f32) (y : f64),
  refines (mixed_from_num (fixed_conv_int Debug f t1) a) (mixed_from_num (fixed_conv_int m g t1) a) /\
  refines (mixed_to_num (fixed_conv_int Debug f t1) a) (mixed_to_num (fixed_conv_int m g t1) a) /\
  refines (mixed_from_num (fixed_conv_f32 Debug f) x) (mixed_from_num (fixed_conv_f32 m g) x) /\
  refines (mixed_from_num (fixed_conv_f64 Debug f) y) (mixed_from_num (fixed_conv_f64 m g) y) /\
  mixed_to_num (fixed_conv_f32 Debug f) a = mixed_to_num (fixed_conv_f32 m g) a /\
  mixed_to_num (fixed_conv_f64 Debug f) a = mixed_to_num (fixed_conv_f64 m g) a.
Proof. exact (fun m f g H1 H2 H3 H4 => wide_convs m f g H2 H3 (conj (wide_width f H1) H4)). Qed.
Print Assumptions C122_wide_conversions.
(** a scalar divisor of zero is excluded: the quotient is then the largest value of the type *)
Theorem C122_wide_complex : forall m f g, supported f = true -> fsigned g = fsigned f -> ffrac g = ffrac f -> fwidth f <= fwidth g ->
  forall z w p k s t1 fuel show std sp pre, let D := fixed_ops Debug f in let R := fixed_ops m g in
  refines (cartesian_add D z w) (cartesian_add R z w) /\ refines (cartesian_sub D z w) (cartesian_sub R z w) /\ refines (cartesian_mul D z w) (cartesian_mul R z w) /\
  refines (cartesian_add_assign D z w) (cartesian_add_assign R z w) /\ refines (cartesian_sub_assign D z w) (cartesian_sub_assign R z w) /\
  refines (cartesian_div D (fixed_powi Debug f) z w) (cartesian_div R (fixed_powi m g) z w) /\
  refines (cartesian_conj (fixed_signed Debug f) z) (cartesian_conj (fixed_signed m g) z) /\ refines (polar_conj (fixed_signed Debug f) p) (polar_conj (fixed_signed m g) p) /\
  refines (polar_mul D p k) (polar_mul R p k) /\ refines (polar_mul_real D p s) (polar_mul_real R p s) /\
  refines (cartesian_mag D (fixed_sqrt Debug f fuel) (fixed_powi Debug f) z) (cartesian_mag R (fixed_sqrt m g fuel) (fixed_powi m g) z) /\
  refines (write_complex D (fixed_zero Debug f) show std sp pre z) (write_complex R (fixed_zero m g) show std sp pre z) /\
  let C := fixed_conv_int Debug f t1 in let C' := fixed_conv_int m g t1 in
  refines (cartesian_add_scalar D C z s) (cartesian_add_scalar R C' z s) /\ refines (cartesian_sub_scalar D C z s) (cartesian_sub_scalar R C' z s) /\
  refines (cartesian_mul_scalar D C z s) (cartesian_mul_scalar R C' z s) /\
  (In t1 int_types -> s <> 0 -> refines (cartesian_div_scalar (int_ops Debug t1) D C (int_zero t1) (fixed_real Debug f) z s) (cartesian_div_scalar (int_ops m t1) R C' (int_zero t1) (fixed_real m g) z s)).
Proof. exact (fun m f g H1 H2 H3 H4 => wide_complex m f g H2 H3 (conj (wide_width f H1) H4)). Qed.
Print Assumptions C122_wide_complex.
(** the operations that call external routines, if those behave likewise *)
Theorem C122_wide_external : forall m f g, supported f = true -> fsigned g = fsigned f -> ffrac g = ffrac f -> fwidth f <= fwidth g -> forall A A' S S' E E',
  (forall y x, refines (mixed_atan2 A y x) (mixed_atan2 A' y x)) -> (forall x, refines (mixed_sincos S x) (mixed_sincos S' x)) -> (forall x, refines (mixed_exp E x) (mixed_exp E' x)) ->
  forall z p n fuel, let D := fixed_ops Debug f in let R := fixed_ops m g in
  let Q := fixed_sqrt Debug f fuel in let Q' := fixed_sqrt m g fuel in let W := fixed_powi Debug f in let W' := fixed_powi m g in
  let H := fixed_wrap_phase Debug f fuel in let H' := fixed_wrap_phase m g fuel in
  refines (cartesian_to_polar D Q W A z) (cartesian_to_polar R Q' W' A' z) /\
  refines (polar_to_cartesian D H S p) (polar_to_cartesian R H' S' p) /\
  refines (ops_powi D Q W A S (fx_of_int Debug f) z n) (ops_powi R Q' W' A' S' (fx_of_int m g) z n) /\
  refines (cartesian_exp D S E z) (cartesian_exp R S' E' z) /\
  refines (cartesian_mul_polar D H S z p) (cartesian_mul_polar R H' S' z p) /\
  refines (polar_mul_cartesian D Q W A p z) (polar_mul_cartesian R Q' W' A' p z).
Proof. exact (fun m f g H1 H2 H3 H4 => wide_external m f g H2 H3 (conj (wide_width f H1) H4)). Qed.
Print Assumptions C122_wide_external.
(** integers: any type holding all values of the first, signed or not *)
Theorem C122_wide_int : forall m t u, In t int_types -> In u int_types -> imin u <= imin t -> imax t <= imax u ->
  forall a b e z w p k s, let D := int_ops Debug t in let R := int_ops m u in
  refines (o_add D a b) (o_add R a b) /\ refines (o_sub D a b) (o_sub R a b) /\ refines (o_mul D a b) (o_mul R a b) /\ refines (o_div D a b) (o_div R a b) /\
  refines (o_neg (int_signed Debug t) a) (o_neg (int_signed m u) a) /\
  (in_range t a -> refines (mixed_abs (int_abs Debug t) a) (mixed_abs (int_abs m u) a)) /\
  refines (mixed_powi (int_powi Debug t) a e) (mixed_powi (int_powi m u) a e) /\
  refines (cartesian_add D z w) (cartesian_add R z w) /\ refines (cartesian_sub D z w) (cartesian_sub R z w) /\ refines (cartesian_mul D z w) (cartesian_mul R z w) /\
  refines (cartesian_add_assign D z w) (cartesian_add_assign R z w) /\ refines (cartesian_sub_assign D z w) (cartesian_sub_assign R z w) /\
  refines (cartesian_div D (int_powi Debug t) z w) (cartesian_div R (int_powi m u) z w) /\
  refines (cartesian_conj (int_signed Debug t) z) (cartesian_conj (int_signed m u) z) /\
  refines (polar_mul D p k) (polar_mul R p k) /\ refines (polar_mul_real D p s) (polar_mul_real R p s).
Proof. exact wide_int_api. Qed.
Print Assumptions C122_wide_int.
(** The square root of 2 in FixedI16<U10> and in FixedI64<U10>; the square of 6 overflows only the narrow type;
    divided by zero, each gives its own maximum. *)
Example C122_ex : let f := mkFty true 16 10 in let g := mkFty true 64 10 in supported f = true /\ supported g = true /\
  mixed_sqrt (fixed_sqrt Debug f 40) 2048 = Ok 1446 /\ mixed_sqrt (fixed_sqrt Debug g 40) 2048 = Ok 1446 /\
  o_mul (fixed_ops Debug f) 6144 6144 = Panic POverflow /\ o_mul (fixed_ops Debug g) 6144 6144 = Ok 36864 /\
  cartesian_div_scalar (int_ops Debug i32) (fixed_ops Debug f) (fixed_conv_int Debug f i32) (int_zero i32) (fixed_real Debug f) (mkC 1 1) 0 = Ok (mkC (fmax f) (fmax f)).
Proof. repeat split; vm_compute; reflexivity. Qed.
