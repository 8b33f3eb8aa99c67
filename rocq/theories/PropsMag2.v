(** * Properties C118-C120: order and bounds of magnitudes, magnitudes of products. *)

From Coq Require Import ZArith Reals List.
From Flocq Require Import Core.Core IEEE754.BinarySingleNaN.
From Verif Require Import Base FloatBase Traits Trig IntImpl FixedPrim FixedImpl FloatImpl Complex Spec SpecFilter MagOrder MagShort MagMul.
Open Scope Z_scope.

Notation finite z := (is_finite (re z) = true /\ is_finite (im z) = true).
Notation float_mag m libm_sqrt fuel := (cartesian_mag float_ops (float_sqrt m libm_sqrt fuel) float_powi).
Notation fixed_mag m f fuel := (cartesian_mag (fixed_ops m f) (fixed_sqrt m f fuel) (fixed_powi m f)).
Notation mag32 z := (map_res B2SF (float_mag Debug (Bsqrt mode_NE) 1 (z : Cartesian f32))).

(** C118.  Floats, with a correctly rounded root.  A number whose parts are larger has the larger magnitude,
    the magnitude is at least either part and at most the float sum of the parts,
    and no part of [z / |z|] exceeds one: exactly, not up to rounding. *)
Theorem C118_order : forall p e {Hp : Prec_gt_0 p} {He : Prec_lt_emax p e} m fuel libm_sqrt, (forall x : binary_float p e, libm_sqrt x = Bsqrt mode_NE x) ->
  forall z w rw, is_finite (re z) = true -> is_finite (im z) = true -> float_mag m libm_sqrt fuel w = Ok rw -> is_finite rw = true ->
  is_finite (re w) = true -> is_finite (im w) = true -> (Rabs (B2R (re z)) <= Rabs (B2R (re w)))%R -> (Rabs (B2R (im z)) <= Rabs (B2R (im w)))%R ->
  exists rz, float_mag m libm_sqrt fuel z = Ok rz /\ is_finite rz = true /\ (0 <= B2R rz <= B2R rw)%R.
Proof. exact @mag_mono. Qed.
Print Assumptions C118_order.
Theorem C118_parts : forall p e {Hp : Prec_gt_0 p} {He : Prec_lt_emax p e}, 2 <= p -> 3 <= e ->
  forall m fuel libm_sqrt, (forall x : binary_float p e, libm_sqrt x = Bsqrt mode_NE x) ->
  forall z r, is_finite (re z) = true -> is_finite (im z) = true -> float_mag m libm_sqrt fuel z = Ok r -> is_finite r = true ->
  (bpow radix2 (2 - e) <= B2R (re z) * B2R (re z) \/ bpow radix2 (2 - e) <= B2R (im z) * B2R (im z))%R ->
  (Rabs (B2R (re z)) <= B2R r)%R /\ (Rabs (B2R (im z)) <= B2R r)%R.
Proof. exact @mag_parts. Qed.
Print Assumptions C118_parts.
Theorem C118_sum : forall p e {Hp : Prec_gt_0 p} {He : Prec_lt_emax p e}, 24 <= p -> 40 <= e ->
  forall m fuel (z : Cartesian (binary_float p e)) libm_sqrt, (forall x, libm_sqrt x = Bsqrt mode_NE x) ->
  forall k, 2 * k + 1 < e -> is_finite (re z) = true -> is_finite (im z) = true ->
  let M := Rmax (Rabs (B2R (re z))) (Rabs (B2R (im z))) in
  (bpow radix2 (13 - e) <= M * M)%R -> (M <= bpow radix2 k)%R ->
  exists r s, float_mag m libm_sqrt fuel z = Ok r /\ is_finite r = true /\
  o_add float_ops (Babs (re z)) (Babs (im z)) = Ok s /\ is_finite s = true /\ (B2R r <= B2R s)%R.
Proof. exact @mag_triangle. Qed.
Print Assumptions C118_sum.
Theorem C118_normalise : forall p e {Hp : Prec_gt_0 p} {He : Prec_lt_emax p e}, 2 <= p -> 3 <= e ->
  forall m fuel libm_sqrt, (forall x : binary_float p e, libm_sqrt x = Bsqrt mode_NE x) ->
  forall z r, is_finite (re z) = true -> is_finite (im z) = true -> float_mag m libm_sqrt fuel z = Ok r -> is_finite r = true ->
  (bpow radix2 (2 - e) <= B2R (re z) * B2R (re z) \/ bpow radix2 (2 - e) <= B2R (im z) * B2R (im z))%R ->
  exists n, cartesian_div_scalar float_ops float_ops (float_conv_float p e) float_zero float_real z r = Ok n /\
  is_finite (re n) = true /\ is_finite (im n) = true /\ (Rabs (B2R (re n)) <= 1)%R /\ (Rabs (B2R (im n)) <= 1)%R.
Proof. exact @normalise_float. Qed.
Print Assumptions C118_normalise.
(** 1 + 2^-20 i: the magnitude is 1, its first part; 3 + 4i and 3 + 5i *)
Example C118_ex : mag32 (mkC (float_of_Z 24 128 1) (float_of_scaled 24 128 1 (-20))) = Ok (B2SF (float_of_Z 24 128 1)) /\
  mag32 (mkC (float_of_Z 24 128 3) (float_of_Z 24 128 4)) = Ok (B2SF (float_of_Z 24 128 5)) /\
  mag32 (mkC (float_of_Z 24 128 3) (float_of_Z 24 128 5)) = Ok (SpecFloat.S754_finite false 12228392 (-21)).
Proof. repeat split; vm_compute; reflexivity. Qed.

(** C119 is false: on every signed fixed type with at least ten fractional bits the magnitude of 0.75 + 0i is
    less than 0.75, and 0.75 divided by it exceeds one. *)
Theorem C119_short_refuted : forall m f, supported f = true -> fsigned f = true -> 10 <= ffrac f ->
  let x := 3 * 2 ^ (ffrac f - 2) in exists r q,
  returns (fun fuel => fixed_mag m f fuel (mkC x 0)) r /\ 0 < r < x /\ o_div (fixed_ops m f) x r = Ok q /\ fone f < q.
Proof. exact mag_short. Qed.
Print Assumptions C119_short_refuted.
(** What holds instead: the claim up to 0.1 %, five ulp and the loss in squaring. *)
Theorem C119_bounds_partial : forall m f z, supported f = true -> fsigned f = true -> 3 <= ffrac f <= fwidth f - 4 ->
  (fval f (re z) * fval f (re z) + fval f (im z) * fval f (im z) <= fval f (fmax f))%R ->
  exists r, returns (fun fuel => fixed_mag m f fuel z) r /\
  let e := (3 * ulp f + R_sqrt.sqrt (2 * ulp f))%R in
  (Rmax (Rabs (fval f (re z))) (Rabs (fval f (im z))) * (999 / 1000 - 5 * ulp f) - e <= fval f r <=
   (Rabs (fval f (re z)) + Rabs (fval f (im z))) * (1001 / 1000 + 5 * ulp f) + e)%R.
Proof. exact mag_parts_fixed. Qed.
Print Assumptions C119_bounds_partial.
(** FixedI32<U16>: 0.75 is 49152, its magnitude 49108; 49152/49108 is 65594/65536 *)
Example C119_ex : let f := mkFty true 32 16 in fixed_mag Debug f 20 (mkC 49152 0) = Ok 49108 /\ o_div (fixed_ops Debug f) 49152 49108 = Ok 65594.
Proof. split; vm_compute; reflexivity. Qed.

(** C120.  The magnitude of a product is the product of the magnitudes. *)
Theorem C120_product_fixed : forall m f, supported f = true -> fsigned f = true -> 2 <= ffrac f <= fwidth f - 4 ->
  forall z w, cvalid (fity f) z -> cvalid (fity f) w ->
  let N := (cabs (fval f (re z), fval f (im z)) * cabs (fval f (re w), fval f (im w)))%R in
  ((N + 3 * ulp f) * (N + 3 * ulp f) <= fval f (fmax f))%R ->
  exists p r, cartesian_mul (fixed_ops m f) z w = Ok p /\ returns (fun fuel => fixed_mag m f fuel p) r /\
  (Rabs (fval f r - N) <= (/ 1000 + 5 * ulp f) * N + 11 * ulp f + R_sqrt.sqrt (2 * ulp f))%R.
Proof. exact mag_mul_fixed. Qed.
Print Assumptions C120_product_fixed.
Theorem C120_product_float : forall p e {Hp : Prec_gt_0 p} {He : Prec_lt_emax p e}, 24 <= p -> 40 <= e ->
  forall m fuel libm_sqrt, (forall x : binary_float p e, libm_sqrt x = Bsqrt mode_NE x) ->
  forall z w : Cartesian (binary_float p e), finite z -> finite w ->
  let nz := cabs (B2R (re z), B2R (im z)) in let nw := cabs (B2R (re w), B2R (im w)) in
  forall k, 3 - e <= 2 * k -> 2 * (2 * k + 2) + 1 < e -> (nz <= bpow radix2 k)%R -> (nw <= bpow radix2 k)%R ->
  (bpow radix2 (16 - e) <= (nz * nw) * (nz * nw))%R ->
  exists q r, cartesian_mul float_ops z w = Ok q /\ finite q /\ float_mag m libm_sqrt fuel q = Ok r /\ is_finite r = true /\
  (Rabs (B2R r - nz * nw) <= 7 * bpow radix2 (- p) * (nz * nw))%R.
Proof. exact @mag_mul_float. Qed.
Print Assumptions C120_product_float.
(** |(3+4i)(5+12i)| = 65 *)
Example C120_ex : (p <- cartesian_mul (fixed_ops Debug (mkFty true 32 12)) (mkC (3 * 2 ^ 12) (4 * 2 ^ 12)) (mkC (5 * 2 ^ 12) (12 * 2 ^ 12)) ;;
    fixed_mag Debug (mkFty true 32 12) 20 p) = Ok 266240 /\
  mag32 (match cartesian_mul float_ops (mkC (float_of_Z 24 128 3) (float_of_Z 24 128 4)) (mkC (float_of_Z 24 128 5) (float_of_Z 24 128 12)) with Ok p => p | _ => mkC B754_nan B754_nan end) = Ok (B2SF (float_of_Z 24 128 65)).
Proof. split; vm_compute; reflexivity. Qed.
