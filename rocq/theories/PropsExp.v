(** * Property C131: the complex exponential on floats. *)

From Coq Require Import ZArith Reals.
From Flocq Require Import Core.Core IEEE754.BinarySingleNaN.
From Verif Require Import Base FloatBase Traits FloatImpl Complex SpecFilter SpecRotor SpecFloatPolar SpecExp FloatArith ExpProofs.
Open Scope Z_scope.

Notation flt p e := (binary_float p e).
Notation finite z := (is_finite (re z) = true /\ is_finite (im z) = true).
(** the value at [z] is an ordinary number: neither subnormal nor within a factor 8 of overflow *)
Notation ordinary e x := (bpow radix2 (3 - e) <= exp (B2R x) <= bpow radix2 (e - 3))%R.

(** C131.  For every float type (f32: p = 24, e = 128; f64: p = 53, e = 1024) and any sine/cosine routine of error at most d for
    angles up to b and any real exponential routine of relative error at most g.  Value and length: *)
Theorem C131_exp : forall p e {Hp : Prec_gt_0 p} {He : Prec_lt_emax p e}, 24 <= p -> 128 <= e ->
  forall (Sn : MixedSin (flt p e)) (E : MixedExp (flt p e)) b d g, accurate_sincos_float b d Sn -> exp_within g E -> (0 <= d <= / 1000)%R -> (0 <= g <= / 1000)%R ->
  forall z, finite z -> (Rabs (B2R (im z)) <= b)%R -> ordinary e (re z) ->
  exists r, cartesian_exp float_ops Sn E z = Ok r /\ finite r /\
  (cabs (csub (cvalf r) (cexp (cvalf z))) <= exp_err p d g * exp (B2R (re z)))%R /\
  (Rabs (cabs (cvalf r) - exp (B2R (re z))) <= exp_err p d g * exp (B2R (re z)))%R.
Proof. exact @exp_and_length. Qed.
Print Assumptions C131_exp.
(** the law of exponents: exp(z) * exp(w) against exp(z + w), all operations computed *)
Theorem C131_law : forall p e {Hp : Prec_gt_0 p} {He : Prec_lt_emax p e}, 24 <= p -> 128 <= e -> e + p <= 1100 ->
  forall (Sn : MixedSin (flt p e)) (E : MixedExp (flt p e)) b d g, accurate_sincos_float b d Sn -> exp_within g E -> (0 <= d <= / 1000)%R -> (0 <= g <= / 1000)%R ->
  forall k z w, 1 <= k -> 2 * k + 1 < e -> finite z -> finite w -> (b <= bpow radix2 (e - 1))%R -> (Rabs (B2R (im z)) + Rabs (B2R (im w)) <= b / 2)%R ->
  let a := (B2R (re z) + B2R (re w))%R in let t := (B2R (im z) + B2R (im w))%R in
  (bpow radix2 (3 - e) <= exp (B2R (re z)) <= bpow radix2 (k - 1))%R -> (bpow radix2 (3 - e) <= exp (B2R (re w)) <= bpow radix2 (k - 1))%R ->
  (bpow radix2 (4 - e) <= exp a <= bpow radix2 (e - 4))%R ->
  exists l r, (x <- cartesian_exp float_ops Sn E z ;; y <- cartesian_exp float_ops Sn E w ;; cartesian_mul float_ops x y) = Ok l /\
  (s <- cartesian_add float_ops z w ;; cartesian_exp float_ops Sn E s) = Ok r /\ finite l /\ finite r /\
  (cabs (csub (cvalf l) (cvalf r)) <= (302 / 100 * exp_err p d g + 7 * bpow radix2 (- p) + 154 / 100 * bpow radix2 (- p) * (Rabs a + Rabs t)) * exp a)%R.
Proof. exact @exp_law. Qed.
Print Assumptions C131_law.
(** exp(z) * exp(0 - z) is 1 *)
Theorem C131_inverse : forall p e {Hp : Prec_gt_0 p} {He : Prec_lt_emax p e}, 24 <= p -> 128 <= e ->
  forall (Sn : MixedSin (flt p e)) (E : MixedExp (flt p e)) b d g, accurate_sincos_float b d Sn -> exp_within g E -> (0 <= d <= / 1000)%R -> (0 <= g <= / 1000)%R ->
  forall k z, 1 <= k -> 2 * k + 1 < e -> finite z -> (Rabs (B2R (im z)) <= b)%R -> (bpow radix2 (1 - k) <= exp (B2R (re z)) <= bpow radix2 (k - 1))%R ->
  exists r, (x <- cartesian_exp float_ops Sn E z ;; n <- cartesian_sub float_ops (mkC (B754_zero false) (B754_zero false)) z ;;
             y <- cartesian_exp float_ops Sn E n ;; cartesian_mul float_ops x y) = Ok r /\ finite r /\
  (cabs (csub (cvalf r) (1, 0)) <= 201 / 100 * exp_err p d g + 7 * bpow radix2 (- p))%R.
Proof. exact @exp_inv_float. Qed.
Print Assumptions C131_inverse.
(** Euler's identity with the type's own pi *)
Theorem C131_euler_f32 : forall (Sn : MixedSin f32) (E : MixedExp f32) b d g, accurate_sincos_float b d Sn -> exp_within g E -> (0 <= d <= / 1000)%R -> (0 <= g <= / 1000)%R -> (4 <= b)%R ->
  exists p r, mixed_pi float_pi = Ok p /\ cartesian_exp float_ops Sn E (mkC (B754_zero false) p) = Ok r /\ finite r /\
  (cabs (csub (cvalf r) (-1, 0)) <= exp_err 24 d g + 3 * bpow radix2 (-24))%R.
Proof. exact euler_f32. Qed.
Print Assumptions C131_euler_f32.
Theorem C131_euler_f64 : forall (Sn : MixedSin f64) (E : MixedExp f64) b d g, accurate_sincos_float b d Sn -> exp_within g E -> (0 <= d <= / 1000)%R -> (0 <= g <= / 1000)%R -> (4 <= b)%R ->
  exists p r, mixed_pi float_pi = Ok p /\ cartesian_exp float_ops Sn E (mkC (B754_zero false) p) = Ok r /\ finite r /\
  (cabs (csub (cvalf r) (-1, 0)) <= exp_err 53 d g + 3 * bpow radix2 (-53))%R.
Proof. exact euler_f64. Qed.
Print Assumptions C131_euler_f64.
(** The hypotheses can be met: correctly rounded routines, at every angle, with d = g = 2^-p. *)
Theorem C131_best_routines : forall p e {Hp : Prec_gt_0 p} {He : Prec_lt_emax p e}, 24 <= p -> 128 <= e ->
  exp_within (bpow radix2 (- p)) (best_exp (p := p) (e := e)) /\ forall b, accurate_sincos_float b (bpow radix2 (- p)) (best_sin (p := p) (e := e)).
Proof. exact @best_routines. Qed.
Print Assumptions C131_best_routines.
(** f32, z = 2 + 3i *)
Example C131_ex : let z := mkC (float_of_Z 24 128 2) (float_of_Z 24 128 3) in finite z /\ (Rabs (B2R (im z)) <= 4)%R /\ ordinary 128 (re z) /\
  (bpow radix2 (1 - 5) <= exp (B2R (re z)) <= bpow radix2 (5 - 1))%R.
Proof. exact exp_example. Qed.
