(** * Property C123: scaling by powers of two is exact on floats. *)

From Coq Require Import ZArith Reals List.
From Flocq Require Import Core.Core IEEE754.BinarySingleNaN.
From Verif Require Import Base FloatBase Traits Trig FixedPrim FixedImpl FloatImpl Complex Spec SpecScale FloatScale ScaleProofs.
Open Scope Z_scope.

Notation float_mag m libm_sqrt fuel := (cartesian_mag float_ops (float_sqrt m libm_sqrt fuel) float_powi).

(** C123.  If every number of a computation is multiplied by a power of two, the sum, the product, the magnitude and the angle
    come out multiplied by the matching power of two (the angle: unchanged, to the last bit). *)
Theorem C123_sum_float : forall p e {Hp : Prec_gt_0 p} {He : Prec_lt_emax p e}, 5 <= e ->
  forall k (z z' w w' : Cartesian (binary_float p e)), cscaled k z z' -> cscaled k w w' ->
  (forall v, v = z \/ v = z' \/ v = w \/ v = w' -> Rabs (B2R (re v)) <= bpow radix2 (e - 2) /\ Rabs (B2R (im v)) <= bpow radix2 (e - 2))%R ->
  exists r r', cartesian_add float_ops z w = Ok r /\ cartesian_add float_ops z' w' = Ok r' /\ cscaled k r r'.
Proof. exact @add_scaled. Qed.
Print Assumptions C123_sum_float.
Theorem C123_product_float : forall p e {Hp : Prec_gt_0 p} {He : Prec_lt_emax p e}, forall h, 0 <= h -> 2 * h <= e - 3 ->
  forall j k (z z' w w' : Cartesian (binary_float p e)), cscaled j z z' -> cscaled k w w' ->
  cwithin h z -> cwithin h z' -> cwithin h w -> cwithin h w' ->
  exists r r', cartesian_mul float_ops z w = Ok r /\ cartesian_mul float_ops z' w' = Ok r' /\ cscaled (j + k) r r'.
Proof. exact @mul_scaled. Qed.
Print Assumptions C123_product_float.
Theorem C123_magnitude_float : forall p e {Hp : Prec_gt_0 p} {He : Prec_lt_emax p e},
  forall m fuel libm_sqrt, (forall x : binary_float p e, libm_sqrt x = Bsqrt mode_NE x) -> forall h, 0 <= h -> 2 * h <= e - 3 ->
  forall k (z z' : Cartesian (binary_float p e)), cscaled k z z' -> cwithin h z -> cwithin h z' ->
  exists r r', float_mag m libm_sqrt fuel z = Ok r /\ float_mag m libm_sqrt fuel z' = Ok r' /\ scaled k r r'.
Proof. exact @mag_scaled. Qed.
Print Assumptions C123_magnitude_float.
Theorem C123_angle_f32 : forall k (y y' x x' : f32), scaled k y y' -> scaled k x x' ->
  within2 61 (B2R y) -> within2 61 (B2R y') -> within2 61 (B2R x) -> within2 61 (B2R x') -> (B2R y <> 0 \/ B2R x <> 0)%R ->
  float_atan2_poly y' x' = float_atan2_poly y x.
Proof. exact atan2_scaled_f32. Qed.
Print Assumptions C123_angle_f32.
Theorem C123_angle_f64 : forall k (y y' x x' : f64), scaled k y y' -> scaled k x x' ->
  within2 509 (B2R y) -> within2 509 (B2R y') -> within2 509 (B2R x) -> within2 509 (B2R x') -> (B2R y <> 0 \/ B2R x <> 0)%R ->
  float_atan2_poly y' x' = float_atan2_poly y x.
Proof. exact atan2_scaled_f64. Qed.
Print Assumptions C123_angle_f64.
(** Fixed types: exact for sums whenever both sums return; for products only up to one ulp of the scaled result, see the example
    (FixedI16<U8>: 3 ulp times 1/2 is 1 ulp, 6 ulp times 1/2 is 3 ulp). *)
Theorem C123_sum_fixed : forall f k, 0 <= k -> forall z w r r', let s v := mkC (re v * 2 ^ k) (im v * 2 ^ k) in
  cartesian_add (fixed_ops Debug f) z w = Ok r -> cartesian_add (fixed_ops Debug f) (s z) (s w) = Ok r' -> r' = s r.
Proof. exact add_scaled_fixed. Qed.
Print Assumptions C123_sum_fixed.
(** 3 + 4i in f32 and 2^40 times as much *)
Example C123_ex : let a z := float_of_Z 24 128 z in let b z := float_of_scaled 24 128 z 40 in
  map_res B2SF (float_atan2_poly (a 3) (a 4)) = Ok (SpecFloat.S754_finite false 10864167 (-24)) /\
  map_res B2SF (float_atan2_poly (b 3) (b 4)) = Ok (SpecFloat.S754_finite false 10864167 (-24)) /\
  map_res B2SF (float_mag Debug (Bsqrt mode_NE) 1 (mkC (a 3) (a 5))) = Ok (SpecFloat.S754_finite false 12228392 (-21)) /\
  map_res B2SF (float_mag Debug (Bsqrt mode_NE) 1 (mkC (b 3) (b 5))) = Ok (SpecFloat.S754_finite false 12228392 19) /\
  (let f := mkFty true 16 8 in cartesian_mul (fixed_ops Debug f) (mkC 3 0) (mkC 128 0) = Ok (mkC 1 0) /\
   cartesian_mul (fixed_ops Debug f) (mkC 6 0) (mkC 128 0) = Ok (mkC 3 0)).
Proof. repeat split; vm_compute; reflexivity. Qed.
