(** * Properties C115-C117: functions that undo each other. *)

From Coq Require Import ZArith Reals Lra List.
From Flocq Require Import Core.Core IEEE754.BinarySingleNaN.
From Verif Require Import Base FloatBase Literals Traits Trig IntImpl FixedPrim FixedImpl FloatImpl Complex Spec
  InvTrig SqrtInv.
Open Scope Z_scope.

Notation niirf_flt m := (niirf float_ops float_zero float_abs float_powi m).

(** C115.  [atan2(sin x, cos x)] gives [x] back, up to whole turns near the cut at -pi and pi. *)
Theorem C115_atan2_sincos_fixed : forall m f, supported f = true -> fsigned f = true -> 8 <= ffrac f <= fwidth f - 20 -> forall x, (Rabs (fval f x) <= PI)%R ->
  exists s c r k, sin (fixed_ops m f) (fixed_signed m f) (fixed_pi m f) (fixed_powi m f) x = Ok s /\
  returns (fun fuel => cos (fixed_ops m f) (fixed_signed m f) (fixed_pi m f) (fixed_powi m f) fuel x) c /\
  fixed_atan2_poly m f s c = Ok r /\ -1 <= k <= 1 /\ ((Rabs (fval f x) <= 3)%R -> k = 0) /\
  (Rabs (fval f r - (fval f x + IZR k * (2 * PI))) <= 493 / 100000 + 26 * ulp f)%R.
Proof. exact inv_fixed. Qed.
Print Assumptions C115_atan2_sincos_fixed.
Theorem C115_atan2_sincos_f32 : forall x : f32, is_finite x = true -> (Rabs (B2R x) <= PI)%R ->
  exists (s c r : f32) k, sin float_ops float_signed float_pi float_powi x = Ok s /\
  (forall fuel, (2 <= fuel)%nat -> cos float_ops float_signed float_pi float_powi fuel x = Ok c) /\
  float_atan2_poly s c = Ok r /\ is_finite r = true /\ -1 <= k <= 1 /\ ((Rabs (B2R x) <= 3)%R -> k = 0) /\
  (Rabs (B2R r - (B2R x + IZR k * (2 * PI))) <= 493 / 100000)%R.
Proof. exact inv_f32. Qed.
Print Assumptions C115_atan2_sincos_f32.
Theorem C115_atan2_sincos_f64 : forall x : f64, is_finite x = true -> (Rabs (B2R x) <= PI)%R ->
  exists (s c r : f64) k, sin float_ops float_signed float_pi float_powi x = Ok s /\
  (forall fuel, (2 <= fuel)%nat -> cos float_ops float_signed float_pi float_powi fuel x = Ok c) /\
  float_atan2_poly s c = Ok r /\ is_finite r = true /\ -1 <= k <= 1 /\ ((Rabs (B2R x) <= 3)%R -> k = 0) /\
  (Rabs (B2R r - (B2R x + IZR k * (2 * PI))) <= 493 / 100000)%R.
Proof. exact inv_f64. Qed.
Print Assumptions C115_atan2_sincos_f64.
(** I20F12: sin 2 and cos 2 lead back to 2.0029 (8204/4096) *)
Example C115_ex : let f := mkFty true 32 12 in
  (s <- sin (fixed_ops Debug f) (fixed_signed Debug f) (fixed_pi Debug f) (fixed_powi Debug f) (2 * 2 ^ 12) ;;
   c <- cos (fixed_ops Debug f) (fixed_signed Debug f) (fixed_pi Debug f) (fixed_powi Debug f) 2 (2 * 2 ^ 12) ;;
   fixed_atan2_poly Debug f s c) = Ok 8204 /\ (Rabs (fval f (2 * 2 ^ 12)) <= 3)%R.
Proof. split; [vm_compute; reflexivity|]. unfold fval. cbn. rewrite Rabs_pos_eq; lra. Qed.

(** C116, fixed point: the root of a square, and the square of a root. *)
Theorem C116_sqrt_of_square_fixed : forall m f, supported f = true -> fsigned f = true -> 2 <= ffrac f <= fwidth f - 4 ->
  forall x, (fval f x * fval f x <= fval f (fmax f))%R -> exists s r,
  o_mul (fixed_ops m f) x x = Ok s /\ mixed_powi (fixed_powi m f) x 2 = Ok s /\ returns (fun fuel => mixed_sqrt (fixed_sqrt m f fuel) s) r /\
  let e := ((/ 1000 + 5 * ulp f) * Rabs (fval f x) + 3 * ulp f)%R in
  (Rabs (fval f r - Rabs (fval f x)) <= e + R_sqrt.sqrt (ulp f))%R /\
  (x <> 0 -> (Rabs (fval f r - Rabs (fval f x)) <= e + ulp f / Rabs (fval f x))%R).
Proof. exact sqrt_of_square. Qed.
Print Assumptions C116_sqrt_of_square_fixed.
Theorem C116_square_of_sqrt_fixed : forall m f, supported f = true -> fsigned f = true -> 2 <= ffrac f <= fwidth f - 4 ->
  forall x, fvalid f x -> 0 <= x ->
  let a := (/ 1000 + 5 * ulp f)%R in
  let e := (a * (2 + a) * fval f x + 6 * (1 + a) * ulp f * R_sqrt.sqrt (fval f x) + 9 * (ulp f * ulp f))%R in
  (fval f x + e <= fval f (fmax f))%R -> exists r s,
  returns (fun fuel => mixed_sqrt (fixed_sqrt m f fuel) x) r /\ o_mul (fixed_ops m f) r r = Ok s /\ mixed_powi (fixed_powi m f) r 2 = Ok s /\
  (Rabs (fval f s - fval f x) <= e + ulp f)%R.
Proof. exact square_of_sqrt. Qed.
Print Assumptions C116_square_of_sqrt_fixed.
(** I16F16: the root of (-3)^2 is 2.9973 (196432/65536), the square of the root of 2 is 1.9960 (130812/65536) *)
Example C116_fixed_ex : let f := mkFty true 32 16 in
  bind (o_mul (fixed_ops Debug f) (-3 * 2 ^ 16) (-3 * 2 ^ 16)) (mixed_sqrt (fixed_sqrt Debug f 20)) = Ok 196432 /\
  bind (mixed_sqrt (fixed_sqrt Debug f 20) (2 * 2 ^ 16)) (fun r => o_mul (fixed_ops Debug f) r r) = Ok 130812.
Proof. split; vm_compute; reflexivity. Qed.
(** C116, floats with the iterative root *)
Theorem C116_niirf_of_square_f32 : forall m it (x : f32), (2 <= it)%N -> is_finite x = true ->
  is_finite (Bmult mode_NE x x) = true -> (bpow radix2 (-126) <= B2R x * B2R x)%R ->
  exists y r, o_mul float_ops x x = Ok y /\ returns (fun fuel => niirf_flt m fuel y it) r /\ is_finite r = true /\
  (Rabs (B2R r - Rabs (B2R x)) <= 1002 / 1000000 * Rabs (B2R x))%R.
Proof. exact niirf_square_f32. Qed.
Print Assumptions C116_niirf_of_square_f32.
Theorem C116_niirf_of_square_f64 : forall m it (x : f64), (2 <= it)%N -> is_finite x = true ->
  is_finite (Bmult mode_NE x x) = true -> (bpow radix2 (-1022) <= B2R x * B2R x)%R ->
  exists y r, o_mul float_ops x x = Ok y /\ returns (fun fuel => niirf_flt m fuel y it) r /\ is_finite r = true /\
  (Rabs (B2R r - Rabs (B2R x)) <= 1002 / 1000000 * Rabs (B2R x))%R.
Proof. exact niirf_square_f64. Qed.
Print Assumptions C116_niirf_of_square_f64.
Theorem C116_square_of_niirf_f32 : forall m it (x : f32), (2 <= it)%N -> is_finite x = true -> (bpow radix2 (-125) <= B2R x <= bpow radix2 126)%R ->
  exists r s, returns (fun fuel => niirf_flt m fuel x it) r /\ o_mul float_ops r r = Ok s /\ is_finite s = true /\ (Rabs (B2R s - B2R x) <= 2003 / 1000000 * B2R x)%R.
Proof. exact square_niirf_f32. Qed.
Print Assumptions C116_square_of_niirf_f32.
Theorem C116_square_of_niirf_f64 : forall m it (x : f64), (2 <= it)%N -> is_finite x = true -> (bpow radix2 (-1021) <= B2R x <= bpow radix2 1022)%R ->
  exists r s, returns (fun fuel => niirf_flt m fuel x it) r /\ o_mul float_ops r r = Ok s /\ is_finite s = true /\ (Rabs (B2R s - B2R x) <= 2003 / 1000000 * B2R x)%R.
Proof. exact square_niirf_f64. Qed.
Print Assumptions C116_square_of_niirf_f64.
Example C116_float_ex : (match o_mul float_ops (float_of_Z 24 128 (-3)) (float_of_Z 24 128 (-3)) with Ok y => B2SF y | _ => SpecFloat.S754_nan end = B2SF (float_of_Z 24 128 9)) /\
  match niirf_flt Debug 10 (float_of_Z 24 128 9) 2 with Ok r => B2SF r | _ => SpecFloat.S754_nan end = SpecFloat.S754_finite false 12571662 (-22).
Proof. split; vm_compute; reflexivity. Qed.

(** C117.  With a correctly rounded root, the root of a float square is exactly the absolute value,
    the magnitude of a real or imaginary number is exact, and the square of a root is off by at most 3.1 u. *)
Theorem C117_sqrt_of_square_float : forall p e {Hp : Prec_gt_0 p} {He : Prec_lt_emax p e}, 2 <= p -> 3 <= e ->
  forall m fuel libm_sqrt, (forall x : binary_float p e, libm_sqrt x = Bsqrt mode_NE x) ->
  forall x : binary_float p e, is_finite x = true -> is_finite (Bmult mode_NE x x) = true -> (bpow radix2 (2 - e) <= B2R x * B2R x)%R ->
  bind (o_mul float_ops x x) (mixed_sqrt (float_sqrt m libm_sqrt fuel)) = Ok (Babs x) /\
  bind (mixed_powi float_powi x 2) (mixed_sqrt (float_sqrt m libm_sqrt fuel)) = Ok (Babs x).
Proof. exact @sqrt_square_float. Qed.
Print Assumptions C117_sqrt_of_square_float.
Theorem C117_mag_axis_float : forall p e {Hp : Prec_gt_0 p} {He : Prec_lt_emax p e}, 2 <= p -> 3 <= e ->
  forall m fuel libm_sqrt, (forall x : binary_float p e, libm_sqrt x = Bsqrt mode_NE x) ->
  forall x : binary_float p e, is_finite x = true -> is_finite (Bmult mode_NE x x) = true -> (bpow radix2 (2 - e) <= B2R x * B2R x)%R ->
  forall s, cartesian_mag float_ops (float_sqrt m libm_sqrt fuel) float_powi (mkC x (B754_zero s)) = Ok (Babs x) /\
            cartesian_mag float_ops (float_sqrt m libm_sqrt fuel) float_powi (mkC (B754_zero s) x) = Ok (Babs x).
Proof. exact @mag_axis. Qed.
Print Assumptions C117_mag_axis_float.
Theorem C117_square_of_sqrt_float : forall p e {Hp : Prec_gt_0 p} {He : Prec_lt_emax p e}, 24 <= p -> 40 <= e ->
  forall m fuel libm_sqrt, (forall x : binary_float p e, libm_sqrt x = Bsqrt mode_NE x) ->
  forall x : binary_float p e, is_finite x = true -> (bpow radix2 (3 - e) <= B2R x <= bpow radix2 (e - 2))%R ->
  exists r s, mixed_sqrt (float_sqrt m libm_sqrt fuel) x = Ok r /\ o_mul float_ops r r = Ok s /\ is_finite s = true /\
  (Rabs (B2R s - B2R x) <= 31 / 10 * bpow radix2 (- p) * B2R x)%R.
Proof. exact @square_sqrt_float. Qed.
Print Assumptions C117_square_of_sqrt_float.
(** 1 - 2^-24: its square is rounded, yet the root recovers it *)
Example C117_ex : let x : f32 := @B754_finite 24 128 true 16777215 (-24) eq_refl in is_finite (Bmult mode_NE x x) = true /\
  B2SF (Bmult mode_NE x x) = SpecFloat.S754_finite false 16777214 (-24) /\ B2SF (Bsqrt mode_NE (Bmult mode_NE x x)) = SpecFloat.S754_finite false 16777215 (-24).
Proof. repeat split; vm_compute; reflexivity. Qed.
