(** * Properties C124 and C125: associativity of complex products, and rotation by computed unit numbers. *)

From Coq Require Import ZArith Reals List Bool.
From Flocq Require Import Core.Core IEEE754.BinarySingleNaN.
From Verif Require Import Base FloatBase Traits Trig FixedPrim FixedImpl FloatImpl Complex Spec SpecFilter SpecRotor FloatArith RotorProofs.
Open Scope Z_scope.

Notation fixed_sin m f := (Trig.sin (fixed_ops m f) (fixed_signed m f) (fixed_pi m f) (fixed_powi m f)).
Notation fixed_cos m f := (Trig.cos (fixed_ops m f) (fixed_signed m f) (fixed_pi m f) (fixed_powi m f)).
Notation flt_sin := (Trig.sin float_ops float_signed float_pi float_powi).
Notation flt_cos := (Trig.cos float_ops float_signed float_pi float_powi).
(** cos(x) + i sin(x), as a program of the user: two calls and a constructor *)
Notation rotor_fixed m f fuel x := (s <- fixed_sin m f x ;; c <- fixed_cos m f fuel x ;; Ok (mkC c s)).
Notation rotor fuel x := (s <- flt_sin x ;; c <- flt_cos fuel x ;; Ok (mkC c s)).
Notation finite z := (is_finite (re z) = true /\ is_finite (im z) = true).

(** C124.  (z w) v and z (w v) differ only by rounding: in fixed point by a few units of the last place scaled with the outer
    factors, in floating point by a small multiple of the unit roundoff relative to the product. *)
Theorem C124_assoc_fixed : forall m f, supported f = true -> fsigned f = true -> forall z w v, let g := (224 / 100 * ulp f)%R in
  let A := cabs (cval f z) in let B := cabs (cval f w) in let C := cabs (cval f v) in let M := fval f (fmax f) in
  ((A * B + g) * (C + 1) <= M)%R -> ((B * C + g) * (A + 1) <= M)%R ->
  exists l r, (zw <- cartesian_mul (fixed_ops m f) z w ;; cartesian_mul (fixed_ops m f) zw v) = Ok l /\
  (wv <- cartesian_mul (fixed_ops m f) w v ;; cartesian_mul (fixed_ops m f) z wv) = Ok r /\
  (cabs (csub (cval f l) (cval f r)) <= g * (A + C + 2))%R.
Proof. exact assoc_fixed. Qed.
Print Assumptions C124_assoc_fixed.
Theorem C124_assoc_float : forall p e {Hp : Prec_gt_0 p} {He : Prec_lt_emax p e}, 5 <= p -> forall k, 0 <= k -> 2 * (2 * k + 1) + 1 < e ->
  forall z w v : Cartesian (binary_float p e), finite z -> finite w -> finite v ->
  let A := cabs (cvalf z) in let B := cabs (cvalf w) in let C := cabs (cvalf v) in (A <= bpow radix2 k)%R -> (B <= bpow radix2 k)%R -> (C <= bpow radix2 k)%R ->
  exists l r, (zw <- cartesian_mul float_ops z w ;; cartesian_mul float_ops zw v) = Ok l /\ (wv <- cartesian_mul float_ops w v ;; cartesian_mul float_ops z wv) = Ok r /\
  finite l /\ finite r /\ (cabs (csub (cvalf l) (cvalf r)) <= 13 * bpow radix2 (- p) * (A * B * C) + 4 * bpow radix2 (3 - e - p) * (A + C + 2))%R.
Proof. exact @assoc_float. Qed.
Print Assumptions C124_assoc_float.
(** FixedI32<U16>: about (1.5 + 0.25i)(-2i)(0.5 + 0.76i): the two products differ in the last place. *)
Example C124_ex : let f := mkFty true 32 16 in let D := fixed_ops Debug f in let z := mkC 98304 16385 in let w := mkC 3 (-131072) in let v := mkC 32769 50000 in supported f = true /\
  (zw <- cartesian_mul D z w ;; cartesian_mul D zw v) = Ok (mkC 166387 (-73303)) /\ (wv <- cartesian_mul D w v ;; cartesian_mul D z wv) = Ok (mkC 166386 (-73303)).
Proof. repeat split; vm_compute; reflexivity. Qed.

(** C125.  Multiplying by the computed cos(a) + i sin(a) turns a complex number by the angle a and keeps its length, up to the
    error of sine and cosine; turning by a and then by b is turning by a + b. *)
Theorem C125_rotate_fixed : forall m f, supported f = true -> fsigned f = true -> ffrac f <= fwidth f - 20 -> forall z x, (Rabs (fval f x) <= PI)%R ->
  let d := (14143 / 10000 * (5 / 1000000 + 7 * ulp f))%R in let g := (224 / 100 * ulp f)%R in (cabs (cval f z) * (1 + d) + g <= fval f (fmax f))%R ->
  exists r, returns (fun fuel => w <- rotor_fixed m f fuel x ;; cartesian_mul (fixed_ops m f) z w) r /\
  (cabs (csub (cval f r) (cmul (cval f z) (cis (fval f x)))) <= cabs (cval f z) * d + g)%R /\
  (Rabs (cabs (cval f r) - cabs (cval f z)) <= cabs (cval f z) * d + g)%R.
Proof. exact rotate_fixed. Qed.
Print Assumptions C125_rotate_fixed.
Theorem C125_rotor_sum_fixed : forall m f, supported f = true -> fsigned f = true -> ffrac f <= fwidth f - 20 -> forall a b, (Rabs (fval f a) <= PI)%R -> (Rabs (fval f b) <= PI)%R ->
  let d := (14143 / 10000 * (5 / 1000000 + 7 * ulp f))%R in
  exists r, returns (fun fuel => u <- rotor_fixed m f fuel a ;; v <- rotor_fixed m f fuel b ;; cartesian_mul (fixed_ops m f) u v) r /\
  (cabs (csub (cval f r) (cis (fval f a + fval f b))) <= d * (2 + d) + 224 / 100 * ulp f)%R.
Proof. exact rotor_sum_fixed. Qed.
Print Assumptions C125_rotor_sum_fixed.
Theorem C125_rotate_f32 : forall (z : Cartesian f32) (x : f32), finite z -> is_finite x = true -> (Rabs (B2R x) <= PI)%R -> (cabs (cvalf z) <= bpow radix2 63)%R ->
  exists r, returns (fun fuel => w <- rotor fuel x ;; cartesian_mul float_ops z w) r /\ finite r /\
  let t := (8 / 1000000 * cabs (cvalf z) + 3 * bpow radix2 (-149))%R in
  (cabs (csub (cvalf r) (cmul (cvalf z) (cis (B2R x)))) <= t)%R /\ (Rabs (cabs (cvalf r) - cabs (cvalf z)) <= t)%R.
Proof. exact rotate_f32. Qed.
Print Assumptions C125_rotate_f32.
Theorem C125_rotate_f64 : forall (z : Cartesian f64) (x : f64), finite z -> is_finite x = true -> (Rabs (B2R x) <= PI)%R -> (cabs (cvalf z) <= bpow radix2 511)%R ->
  exists r, returns (fun fuel => w <- rotor fuel x ;; cartesian_mul float_ops z w) r /\ finite r /\
  let t := (8 / 1000000 * cabs (cvalf z) + 3 * bpow radix2 (-1074))%R in
  (cabs (csub (cvalf r) (cmul (cvalf z) (cis (B2R x)))) <= t)%R /\ (Rabs (cabs (cvalf r) - cabs (cvalf z)) <= t)%R.
Proof. exact rotate_f64. Qed.
Print Assumptions C125_rotate_f64.
Theorem C125_rotor_sum_f32 : forall a b : f32, is_finite a = true -> is_finite b = true -> (Rabs (B2R a) <= PI)%R -> (Rabs (B2R b) <= PI)%R ->
  exists r, returns (fun fuel => u <- rotor fuel a ;; v <- rotor fuel b ;; cartesian_mul float_ops u v) r /\ finite r /\
  (cabs (csub (cvalf r) (cis (B2R a + B2R b))) <= 17 / 1000000)%R.
Proof. exact rotor_sum_f32. Qed.
Print Assumptions C125_rotor_sum_f32.
Theorem C125_rotor_sum_f64 : forall a b : f64, is_finite a = true -> is_finite b = true -> (Rabs (B2R a) <= PI)%R -> (Rabs (B2R b) <= PI)%R ->
  exists r, returns (fun fuel => u <- rotor fuel a ;; v <- rotor fuel b ;; cartesian_mul float_ops u v) r /\ finite r /\
  (cabs (csub (cvalf r) (cis (B2R a + B2R b))) <= 17 / 1000000)%R.
Proof. exact rotor_sum_f64. Qed.
Print Assumptions C125_rotor_sum_f64.
(** FixedI32<U10>: 100 + 50i turned by 1 radian (exactly 11.957... + 111.162...i, that is 12243.6 and 113830.1 units). *)
Example C125_ex : let f := mkFty true 32 10 in supported f = true /\ ffrac f <= fwidth f - 20 /\
  (w <- rotor_fixed Debug f 5 1024 ;; cartesian_mul (fixed_ops Debug f) (mkC 102400 51200) w) = Ok (mkC 12200 113850).
Proof. repeat split; vm_compute; congruence. Qed.
