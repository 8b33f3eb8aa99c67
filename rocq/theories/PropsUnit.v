(** * Properties C126, C127 and C128: Fourier sums, unit numbers, triangle inequality; and division of floats (C35). *)

From Coq Require Import ZArith Reals List Bool.
From Flocq Require Import Core.Core IEEE754.BinarySingleNaN.
From Verif Require Import Base FloatBase Traits Trig FixedPrim FixedImpl FloatImpl Complex Spec SpecFilter SpecRotor SpecFourier SpecUnit FloatArith FourierProofs UnitProofs.
Import ListNotations.
Open Scope Z_scope.

Notation fixed_sin m f := (Trig.sin (fixed_ops m f) (fixed_signed m f) (fixed_pi m f) (fixed_powi m f)).
Notation fixed_cos m f := (Trig.cos (fixed_ops m f) (fixed_signed m f) (fixed_pi m f) (fixed_powi m f)).
Notation flt_sin := (Trig.sin float_ops float_signed float_pi float_powi).
Notation flt_cos := (Trig.cos float_ops float_signed float_pi float_powi).
Notation finite z := (is_finite (re z) = true /\ is_finite (im z) = true).
Notation fixed_mag m f fuel := (cartesian_mag (fixed_ops m f) (fixed_sqrt m f fuel) (fixed_powi m f)).
Notation float_mag m libm_sqrt fuel := (cartesian_mag float_ops (float_sqrt m libm_sqrt fuel) float_powi).
(** the user's loop: acc = acc + x * Cartesian{re: cos(a), im: sin(a)} for every pair (x, a) *)
Notation fourier_loop O sin cos start xs := (run (fun acc xa => p <- (w <- (s <- sin (snd xa) ;; c <- cos (snd xa) ;; Ok (mkC c s)) ;; cartesian_mul O (fst xa) w) ;; cartesian_add O acc p) start xs).

(** C126.  A Fourier coefficient, summed up sample by sample with the crate's sine, cosine, product and sum, is within the sum of
    the magnitudes of the samples times a few millionths (plus rounding) of the exact coefficient, and no step panics. *)
Theorem C126_fourier_fixed : forall m f, supported f = true -> fsigned f = true -> ffrac f <= fwidth f - 20 -> forall (ws : list (Cartesian Z * Z)) acc,
  (forall x a, In (x, a) ws -> (Rabs (fval f a) <= PI)%R) ->
  let d := (14143 / 10000 * (5 / 1000000 + 7 * ulp f))%R in let g := (224 / 100 * ulp f)%R in let n := INR (length ws) in
  let xs := map (fun xa => (cval f (fst xa), fval f (snd xa))) ws in let T := total xs in
  (cabs (cval f acc) + T * (1 + d) + n * g <= fval f (fmax f))%R ->
  exists r, returns (fun fuel => fourier_loop (fixed_ops m f) (fixed_sin m f) (fixed_cos m f fuel) acc ws) r /\
  (cabs (csub (cval f r) (cadd (cval f acc) (fourier xs))) <= T * d + n * g)%R.
Proof. exact fourier_fixed. Qed.
Print Assumptions C126_fourier_fixed.
Theorem C126_fourier_f32 : forall (ws : list (Cartesian f32 * f32)) acc, finite acc ->
  (forall x a, In (x, a) ws -> finite x /\ is_finite a = true /\ (Rabs (B2R a) <= PI)%R) ->
  let n := INR (length ws) in let xs := map (fun xa => (cvalf (fst xa), B2R (snd xa))) ws in let T := total xs in let u := bpow radix2 (-24) in
  (n * u <= / 2)%R -> (cabs (cvalf acc) + T <= bpow radix2 63)%R ->
  exists r, returns (fun fuel => fourier_loop float_ops flt_sin (flt_cos fuel) acc ws) r /\ finite r /\
  (cabs (csub (cvalf r) (cadd (cvalf acc) (fourier xs))) <= T * (8 / 1000000 + 3 * n * u) + 2 * n * u * cabs (cvalf acc) + 6 * n * bpow radix2 (-149))%R.
Proof. exact fourier_f32. Qed.
Print Assumptions C126_fourier_f32.
Theorem C126_fourier_f64 : forall (ws : list (Cartesian f64 * f64)) acc, finite acc ->
  (forall x a, In (x, a) ws -> finite x /\ is_finite a = true /\ (Rabs (B2R a) <= PI)%R) ->
  let n := INR (length ws) in let xs := map (fun xa => (cvalf (fst xa), B2R (snd xa))) ws in let T := total xs in let u := bpow radix2 (-53) in
  (n * u <= / 2)%R -> (cabs (cvalf acc) + T <= bpow radix2 511)%R ->
  exists r, returns (fun fuel => fourier_loop float_ops flt_sin (flt_cos fuel) acc ws) r /\ finite r /\
  (cabs (csub (cvalf r) (cadd (cvalf acc) (fourier xs))) <= T * (8 / 1000000 + 3 * n * u) + 2 * n * u * cabs (cvalf acc) + 6 * n * bpow radix2 (-1074))%R.
Proof. exact fourier_f64. Qed.
Print Assumptions C126_fourier_f64.
(** FixedI64<U32>: three samples 2, 1 + i, 3i at the angles 0, -1/2, -1 (exactly 5.88142... + 2.01906...i; the result is 5.88142... + 2.01906...i) *)
Example C126_ex : let f := mkFty true 64 32 in let v z := z * 2 ^ 32 in supported f = true /\ ffrac f <= fwidth f - 20 /\
  fourier_loop (fixed_ops Debug f) (fixed_sin Debug f) (fixed_cos Debug f 5) (mkC 0 0) [(mkC (v 2) 0, 0); (mkC (v 1) (v 1), - 2 ^ 31); (mkC 0 (v 3), v (-1))]
  = Ok (mkC 25260542064 8671813824).
Proof. repeat split; vm_compute; congruence. Qed.

(** C127.  Dividing a complex number by its computed magnitude gives a number of magnitude one in the same direction. *)
Theorem C127_unit_fixed : forall m f, supported f = true -> fsigned f = true -> 2 <= ffrac f <= fwidth f - 4 -> forall z, let N := cabs (cval f z) in
  let t := ((/ 1000 + 5 * ulp f) * N + 3 * ulp f + R_sqrt.sqrt (2 * ulp f))%R in (N * N <= fval f (fmax f))%R -> (2 * t <= N)%R ->
  exists r q, returns (fun fuel => fixed_mag m f fuel z) r /\ ops_div_scalar_cartesian (fixed_ops m f) (fixed_real m f) z r = Ok q /\
  (cabs (csub (cval f q) (cunit (cval f z))) <= 2 * t / N + 142 / 100 * ulp f)%R /\ (Rabs (cabs (cval f q) - 1) <= 2 * t / N + 142 / 100 * ulp f)%R.
Proof. exact unit_fixed. Qed.
Print Assumptions C127_unit_fixed.
Theorem C127_unit_float : forall p e {Hp : Prec_gt_0 p} {He : Prec_lt_emax p e}, 24 <= p -> 40 <= e -> forall m fuel (z : Cartesian (binary_float p e)) libm_sqrt,
  (forall x, libm_sqrt x = Bsqrt mode_NE x) -> forall k, 2 * k + 1 < e -> finite z -> let N := cabs (cvalf z) in
  (bpow radix2 (14 - e) <= N * N)%R -> (N <= bpow radix2 k)%R ->
  exists r q, float_mag m libm_sqrt fuel z = Ok r /\
  cartesian_div_scalar float_ops float_ops (float_conv_float p e) float_zero float_real z r = Ok q /\ finite q /\
  (cabs (csub (cvalf q) (cunit (cvalf z))) <= 4 * bpow radix2 (- p))%R /\ (Rabs (cabs (cvalf q) - 1) <= 4 * bpow radix2 (- p))%R.
Proof. exact @unit_float. Qed.
Print Assumptions C127_unit_float.
(** 3 + 4i in FixedI32<U16> (0.6 and 0.8 are 39321.6 and 52428.8 units) and in f32 *)
Example C127_ex : let f := mkFty true 32 16 in supported f = true /\
  (r <- fixed_mag Debug f 30 (mkC (3 * 2 ^ 16) (4 * 2 ^ 16)) ;; ops_div_scalar_cartesian (fixed_ops Debug f) (fixed_real Debug f) (mkC (3 * 2 ^ 16) (4 * 2 ^ 16)) r) = Ok (mkC 39341 52455) /\
  (let z := mkC (float_of_Z 24 128 3) (float_of_Z 24 128 4) in
   map_res (fun q => (B2SF (re q), B2SF (im q))) (r <- float_mag Debug (Bsqrt mode_NE) 1 z ;; cartesian_div_scalar float_ops float_ops (float_conv_float 24 128) float_zero float_real z r)
   = Ok (SpecFloat.S754_finite false 10066330 (-24), SpecFloat.S754_finite false 13421773 (-24))).
Proof. repeat split; vm_compute; congruence. Qed.

(** C128.  The triangle inequality for computed magnitudes of computed sums, up to the error of the magnitude. *)
Theorem C128_triangle_fixed : forall m f, supported f = true -> fsigned f = true -> 2 <= ffrac f <= fwidth f - 4 -> forall z w,
  let A := cabs (cval f z) in let B := cabs (cval f w) in
  ((A + B) * (A + B) <= fval f (fmax f))%R -> (A + B <= fval f (fmax f))%R ->
  exists s rz rw rs, cartesian_add (fixed_ops m f) z w = Ok s /\ returns (fun fuel => fixed_mag m f fuel z) rz /\ returns (fun fuel => fixed_mag m f fuel w) rw /\
  returns (fun fuel => fixed_mag m f fuel s) rs /\
  (fval f rs <= fval f rz + fval f rw + 2 * (/ 1000 + 5 * ulp f) * (A + B) + 9 * ulp f + 3 * R_sqrt.sqrt (2 * ulp f))%R.
Proof. exact triangle_fixed. Qed.
Print Assumptions C128_triangle_fixed.
Theorem C128_triangle_float : forall p e {Hp : Prec_gt_0 p} {He : Prec_lt_emax p e}, 24 <= p -> 40 <= e -> forall m fuel (z w : Cartesian (binary_float p e)) libm_sqrt,
  (forall x, libm_sqrt x = Bsqrt mode_NE x) -> forall k, 2 * k + 1 < e -> finite z -> finite w ->
  let A := cabs (cvalf z) in let B := cabs (cvalf w) in let C := cabs (cadd (cvalf z) (cvalf w)) in
  (bpow radix2 (14 - e) <= A * A)%R -> (bpow radix2 (14 - e) <= B * B)%R -> (A + B <= / 2 * bpow radix2 k)%R ->
  exists s rz rw, cartesian_add float_ops z w = Ok s /\ finite s /\ float_mag m libm_sqrt fuel z = Ok rz /\ float_mag m libm_sqrt fuel w = Ok rw /\
  ((bpow radix2 (15 - e) <= C * C)%R -> exists rs, float_mag m libm_sqrt fuel s = Ok rs /\ (B2R rs <= B2R rz + B2R rw + 6 * bpow radix2 (- p) * (A + B))%R).
Proof. exact @triangle_float. Qed.
Print Assumptions C128_triangle_float.
(** FixedI32<U16>: the computed magnitudes of 0.75, 0.25 and their sum 1: 49108 + 16396 < 65586, so some slack is needed *)
Example C128_ex : let f := mkFty true 32 16 in supported f = true /\ map (fun v => fixed_mag Debug f 30 (mkC v 0)) [49152; 16384; 65536] = [Ok 49108; Ok 16396; Ok 65586].
Proof. split; vm_compute; reflexivity. Qed.

(** C35 on floats.  What z/w computes: the quotient by c + ci, where c is the real part of w ... *)
Theorem C35_div_float_partial : forall p e {Hp : Prec_gt_0 p} {He : Prec_lt_emax p e}, 24 <= p -> 40 <= e ->
  forall (z w : Cartesian (binary_float p e)) h, 0 <= h -> 2 * h + 3 < e -> finite z -> finite w ->
  let a := B2R (re z) in let b := B2R (im z) in let c := B2R (re w) in
  (Rabs a <= bpow radix2 h)%R -> (Rabs b <= bpow radix2 h)%R -> (bpow radix2 (- h) <= Rabs c <= bpow radix2 h)%R ->
  exists r, cartesian_div float_ops float_powi z w = Ok r /\ finite r /\
  let eta := bpow radix2 (3 - e - p) in
  let t := (3 * bpow radix2 (- p) * ((Rabs a + Rabs b) / Rabs c) + 2 * eta / (c * c) + eta)%R in
  (Rabs (B2R (re r) - (a + b) / (2 * c)) <= t)%R /\ (Rabs (B2R (im r) - (b - a) / (2 * c)) <= t)%R.
Proof. exact @div_float. Qed.
Print Assumptions C35_div_float_partial.
(** ... so that every quotient of two real numbers comes out at half its value, with an imaginary part as large. *)
Theorem C35_div_float_refuted : forall p e {Hp : Prec_gt_0 p} {He : Prec_lt_emax p e}, 24 <= p -> 40 <= e ->
  forall (z w : Cartesian (binary_float p e)) h, 0 <= h -> 2 * h + 3 < e -> finite z -> finite w -> B2R (im z) = 0%R -> B2R (im w) = 0%R ->
  let a := B2R (re z) in let c := B2R (re w) in
  (bpow radix2 (- h) <= Rabs a <= bpow radix2 h)%R -> (bpow radix2 (- h) <= Rabs c <= bpow radix2 h)%R ->
  exists r, cartesian_div float_ops float_powi z w = Ok r /\ finite r /\ (Rabs (B2R (re r) - a / c) >= 49 / 100 * Rabs (a / c))%R /\ (Rabs (B2R (im r)) >= 49 / 100 * Rabs (a / c))%R.
Proof. exact @div_real_half. Qed.
Print Assumptions C35_div_float_refuted.
(** 6/3 in f32 is 1 - i *)
Example C35_float_ex : let v := float_of_Z 24 128 in
  map_res (fun q => (B2SF (re q), B2SF (im q))) (cartesian_div float_ops float_powi (mkC (v 6) (v 0)) (mkC (v 3) (v 0)))
  = Ok (SpecFloat.S754_finite false 8388608 (-23), SpecFloat.S754_finite true 8388608 (-23)).
Proof. vm_compute. reflexivity. Qed.
