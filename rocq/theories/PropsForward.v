(** * Property C141: the functions that forward to libm or cordic belong together.

    [hits y v d]: the float [y] is finite and within [d] of the real [v]; [hits_fixed] the same for a fixed-point call that returned.
    Nothing more is known of the library routines than their error at the points where they are called. *)

From Coq Require Import ZArith Reals Lra.
From Flocq Require Import Core.Core IEEE754.BinarySingleNaN.
From Verif Require Import Base FloatBase Traits FixedPrim FixedImpl FloatImpl Spec SpecDb SpecForward Forward ForwardProofs.
Open Scope R_scope.

(** [mixed_sincos] gives, in this order, what [mixed_sin] and [mixed_cos] give. *)
Theorem C141_sincos_float : forall p e (L : libm (binary_float p e)) x d1 d2, hits (lm_sin L x) (sin (B2R x)) d1 -> hits (lm_cos L x) (cos (B2R x)) d1 ->
  hits (fst (lm_sincos L x)) (sin (B2R x)) d2 -> hits (snd (lm_sincos L x)) (cos (B2R x)) d2 ->
  exists s c s' c', mixed_sin (lib_sin L) x = Ok s /\ mixed_cos (lib_cos L) x = Ok c /\ mixed_sincos (lib_sin L) x = Ok (s', c') /\
  Rabs (B2R s - B2R s') <= d1 + d2 /\ Rabs (B2R c - B2R c') <= d1 + d2.
Proof. exact @sincos_same. Qed.
Print Assumptions C141_sincos_float.
Theorem C141_sincos_fixed : forall f (C : cordic) x d1 d2 s' c', hits_fixed f (cd_sin C x) (sin (fval f x)) d1 -> hits_fixed f (cd_cos C x) (cos (fval f x)) d1 ->
  cd_sincos C x = Ok (s', c') -> Rabs (fval f s' - sin (fval f x)) <= d2 -> Rabs (fval f c' - cos (fval f x)) <= d2 ->
  exists s c, mixed_sin (cordic_sin C) x = Ok s /\ mixed_cos (cordic_cos C) x = Ok c /\ mixed_sincos (cordic_sin C) x = Ok (s', c') /\
  Rabs (fval f s - fval f s') <= d1 + d2 /\ Rabs (fval f c - fval f c') <= d1 + d2.
Proof. exact sincos_fixed. Qed.
Print Assumptions C141_sincos_fixed.

(** A function undoes its inverse: sin(asin x), cos(acos x), sinh(asinh x), cosh(acosh x), tanh(atanh x). *)
Theorem C141_sin_asin : forall p e (L : libm (binary_float p e)) x d1 d2, -1 <= B2R x <= 1 ->
  hits (lm_asin L x) (asin (B2R x)) d1 -> hits (lm_sin L (lm_asin L x)) (sin (B2R (lm_asin L x))) d2 ->
  exists r, (a <- mixed_asin (lib_sin L) x ;; mixed_sin (lib_sin L) a) = Ok r /\ is_finite r = true /\ Rabs (B2R r - B2R x) <= d1 + d2.
Proof. exact @sin_asin_f. Qed.
Print Assumptions C141_sin_asin.
Theorem C141_cos_acos : forall p e (L : libm (binary_float p e)) x d1 d2, -1 <= B2R x <= 1 ->
  hits (lm_acos L x) (acos (B2R x)) d1 -> hits (lm_cos L (lm_acos L x)) (cos (B2R (lm_acos L x))) d2 ->
  exists r, (a <- mixed_acos (lib_cos L) x ;; mixed_cos (lib_cos L) a) = Ok r /\ is_finite r = true /\ Rabs (B2R r - B2R x) <= d1 + d2.
Proof. exact @cos_acos_f. Qed.
Print Assumptions C141_cos_acos.
Theorem C141_inverse_fixed : forall f (C : cordic) x d1 d2, -1 <= fval f x <= 1 ->
  (hits_fixed f (cd_asin C x) (asin (fval f x)) d1 -> (forall a, cd_asin C x = Ok a -> hits_fixed f (cd_sin C a) (sin (fval f a)) d2) ->
   exists r, (a <- mixed_asin (cordic_sin C) x ;; mixed_sin (cordic_sin C) a) = Ok r /\ Rabs (fval f r - fval f x) <= d1 + d2) /\
  (hits_fixed f (cd_acos C x) (acos (fval f x)) d1 -> (forall a, cd_acos C x = Ok a -> hits_fixed f (cd_cos C a) (cos (fval f a)) d2) ->
   exists r, (a <- mixed_acos (cordic_cos C) x ;; mixed_cos (cordic_cos C) a) = Ok r /\ Rabs (fval f r - fval f x) <= d1 + d2).
Proof. exact asin_fixed. Qed.
Print Assumptions C141_inverse_fixed.
Theorem C141_sinh_asinh : forall p e (L : libm (binary_float p e)) x d1 d2,
  hits (lm_asinh L x) (arcsinh (B2R x)) d1 -> hits (lm_sinh L (lm_asinh L x)) (sinh (B2R (lm_asinh L x))) d2 ->
  exists r, (a <- mixed_asinh (lib_sinh L) x ;; mixed_sinh (lib_sinh L) a) = Ok r /\ is_finite r = true /\
  Rabs (B2R r - B2R x) <= R_sqrt.sqrt (1 + B2R x * B2R x) * (exp d1 - 1) + d2.
Proof. exact @sinh_asinh_f. Qed.
Print Assumptions C141_sinh_asinh.
Theorem C141_cosh_acosh : forall p e (L : libm (binary_float p e)) x a d1 d2, cosh a = B2R x ->
  hits (lm_acosh L x) a d1 -> hits (lm_cosh L (lm_acosh L x)) (cosh (B2R (lm_acosh L x))) d2 ->
  exists r, (a <- mixed_acosh (lib_cosh L) x ;; mixed_cosh (lib_cosh L) a) = Ok r /\ is_finite r = true /\
  Rabs (B2R r - B2R x) <= B2R x * (exp d1 - 1) + d2.
Proof. exact @cosh_acosh_f. Qed.
Print Assumptions C141_cosh_acosh.
Theorem C141_tanh_atanh : forall p e (L : libm (binary_float p e)) x a d1 d2, tanh a = B2R x ->
  hits (lm_atanh L x) a d1 -> hits (lm_tanh L (lm_atanh L x)) (tanh (B2R (lm_atanh L x))) d2 ->
  exists r, (a <- mixed_atanh (lib_tanh L) x ;; mixed_tanh (lib_tanh L) a) = Ok r /\ is_finite r = true /\
  Rabs (B2R r - B2R x) <= exp d1 - 1 + d2.
Proof. exact @tanh_atanh_f. Qed.
Print Assumptions C141_tanh_atanh.

(** tan x * cos x = sin x and tanh x * cosh x = sinh x, each factor with relative error d. *)
Theorem C141_tan_cos : forall p e (Hp : Prec_gt_0 p) (He : Prec_lt_emax p e) (L : libm (binary_float p e)) x d, (5 <= p)%Z -> (5 <= e)%Z -> 0 <= d <= / 8 -> cos (B2R x) <> 0 ->
  hits (lm_tan L x) (tan (B2R x)) (d * Rabs (tan (B2R x))) -> hits (lm_cos L x) (cos (B2R x)) (d * Rabs (cos (B2R x))) ->
  hits (lm_sin L x) (sin (B2R x)) (d * Rabs (sin (B2R x))) ->
  exists t c s r, mixed_tan (lib_tan L) x = Ok t /\ mixed_cos (lib_cos L) x = Ok c /\ mixed_sin (lib_sin L) x = Ok s /\
  o_mul float_ops t c = Ok r /\ is_finite r = true /\ Rabs (B2R r - B2R s) <= (4 * d + 2 * bpow radix2 (- p)) * Rabs (sin (B2R x)) + / 2 * bpow radix2 (3 - e - p).
Proof. exact @tan_cos_f. Qed.
Print Assumptions C141_tan_cos.
Theorem C141_tanh_cosh : forall p e (Hp : Prec_gt_0 p) (He : Prec_lt_emax p e) (L : libm (binary_float p e)) x d, (5 <= p)%Z -> (5 <= e)%Z -> 0 <= d <= / 8 ->
  Rabs (sinh (B2R x)) <= bpow radix2 (e - 3) ->
  hits (lm_tanh L x) (tanh (B2R x)) (d * Rabs (tanh (B2R x))) -> hits (lm_cosh L x) (cosh (B2R x)) (d * Rabs (cosh (B2R x))) ->
  hits (lm_sinh L x) (sinh (B2R x)) (d * Rabs (sinh (B2R x))) ->
  exists t c s r, mixed_tanh (lib_tanh L) x = Ok t /\ mixed_cosh (lib_cosh L) x = Ok c /\ mixed_sinh (lib_sinh L) x = Ok s /\
  o_mul float_ops t c = Ok r /\ is_finite r = true /\ Rabs (B2R r - B2R s) <= (4 * d + 2 * bpow radix2 (- p)) * Rabs (sinh (B2R x)) + / 2 * bpow radix2 (3 - e - p).
Proof. exact @tanh_cosh_f. Qed.
Print Assumptions C141_tanh_cosh.

(** Exponential after logarithm and logarithm after exponential, bases e, 2 and 10: logarithms with absolute error d1, exponentials with relative error d2. *)
Theorem C141_exp_log : forall p e (L : libm (binary_float p e)) x d1 d2, 0 < B2R x -> 0 <= d2 ->
  (hits (lm_log L x) (ln (B2R x)) d1 -> let y := lm_log L x in hits (lm_exp L y) (exp (B2R y)) (d2 * exp (B2R y)) ->
   exists r, (a <- mixed_log (lib_log L) x ;; mixed_exp (lib_exp L) a) = Ok r /\ is_finite r = true /\ Rabs (B2R r - B2R x) <= B2R x * ((1 + d2) * exp d1 - 1)) /\
  (hits (lm_log2 L x) (ln (B2R x) / ln 2) d1 -> let y := lm_log2 L x in hits (lm_exp2 L y) (Rpower 2 (B2R y)) (d2 * Rpower 2 (B2R y)) ->
   exists r, (a <- mixed_log2 (lib_log2 L) x ;; mixed_exp2 (lib_exp2 L) a) = Ok r /\ is_finite r = true /\ Rabs (B2R r - B2R x) <= B2R x * ((1 + d2) * exp (d1 * ln 2) - 1)) /\
  (hits (lm_log10 L x) (ln (B2R x) / ln 10) d1 -> let y := lm_log10 L x in hits (lm_exp10 L y) (Rpower 10 (B2R y)) (d2 * Rpower 10 (B2R y)) ->
   exists r, (a <- mixed_log10 (lib_log10 L) x ;; mixed_exp10 (lib_exp10 L) a) = Ok r /\ is_finite r = true /\ Rabs (B2R r - B2R x) <= B2R x * ((1 + d2) * exp (d1 * ln 10) - 1)).
Proof. exact @exp_log_f. Qed.
Print Assumptions C141_exp_log.
Theorem C141_log_exp : forall p e (L : libm (binary_float p e)) x d1 d2, 0 <= d2 <= / 2 ->
  (let y := lm_exp L x in hits y (exp (B2R x)) (d2 * exp (B2R x)) -> hits (lm_log L y) (ln (B2R y)) d1 ->
   exists r, (a <- mixed_exp (lib_exp L) x ;; mixed_log (lib_log L) a) = Ok r /\ is_finite r = true /\ Rabs (B2R r - B2R x) <= d1 + 2 * d2) /\
  (let y := lm_exp2 L x in hits y (Rpower 2 (B2R x)) (d2 * Rpower 2 (B2R x)) -> hits (lm_log2 L y) (ln (B2R y) / ln 2) d1 ->
   exists r, (a <- mixed_exp2 (lib_exp2 L) x ;; mixed_log2 (lib_log2 L) a) = Ok r /\ is_finite r = true /\ Rabs (B2R r - B2R x) <= d1 + 2 * d2 / ln 2) /\
  (let y := lm_exp10 L x in hits y (Rpower 10 (B2R x)) (d2 * Rpower 10 (B2R x)) -> hits (lm_log10 L y) (ln (B2R y) / ln 10) d1 ->
   exists r, (a <- mixed_exp10 (lib_exp10 L) x ;; mixed_log10 (lib_log10 L) a) = Ok r /\ is_finite r = true /\ Rabs (B2R r - B2R x) <= d1 + 2 * d2 / ln 10).
Proof. exact @log_exp_f. Qed.
Print Assumptions C141_log_exp.

(** An integer power by [mixed_pow] and by [mixed_powi]. *)
Theorem C141_pow_powi : forall p e (Hp : Prec_gt_0 p) (He : Prec_lt_emax p e) (L : libm (binary_float p e)),
  let u := bpow radix2 (- p) in let inside v := bpow radix2 (3 - e) <= Rabs v <= bpow radix2 (e - 2) in
  (3 <= e)%Z -> forall x n d, is_finite x = true -> (1 <= n < 2 ^ 31)%Z -> inside (B2R x) -> inside (B2R x ^ Z.to_nat n) -> IZR (n - 1) * u <= / 2 ->
  hits (lm_pow L x (float_of_Z p e n)) (B2R x ^ Z.to_nat n) (d * Rabs (B2R x ^ Z.to_nat n)) ->
  exists a b, (y <- mixed_from_num (float_conv_int i32) n ;; mixed_pow (lib_pow L) x y) = Ok a /\ mixed_powi float_powi x n = Ok b /\
  Rabs (B2R a - B2R b) <= (d + 2 * (IZR (n - 1) * u)) * Rabs (B2R x ^ Z.to_nat n).
Proof. exact @pow_powi_f. Qed.
Print Assumptions C141_pow_powi.
(** The cube of the cube root. *)
Theorem C141_cbrt_cube : forall p e (Hp : Prec_gt_0 p) (He : Prec_lt_emax p e) (L : libm (binary_float p e)),
  (5 <= p)%Z -> (8 <= e)%Z -> forall x c d, is_finite x = true -> c * c * c = B2R x ->
  bpow radix2 (5 - e) <= Rabs (B2R x) <= bpow radix2 (e - 3) -> 0 <= d <= / 8 -> hits (lm_cbrt L x) c (d * Rabs c) ->
  exists r, (y <- mixed_cbrt (lib_cbrt L) x ;; mixed_powi float_powi y 3) = Ok r /\ is_finite r = true /\
  Rabs (B2R r - B2R x) <= (4 * d + 6 * bpow radix2 (- p)) * Rabs (B2R x).
Proof. exact @cbrt_cube_f. Qed.
Print Assumptions C141_cbrt_cube.

(** Routines that round correctly do hit, relatively where the value is an ordinary number, absolutely everywhere below overflow. *)
Theorem C141_routines : forall p e (Hp : Prec_gt_0 p) (He : Prec_lt_emax p e) v, (3 <= e)%Z ->
  (bpow radix2 (3 - e) <= Rabs v <= bpow radix2 (e - 1) -> hits (nearest_float v : binary_float p e) v (bpow radix2 (- p) * Rabs v)) /\
  (Rabs v <= bpow radix2 (e - 1) -> hits (nearest_float v : binary_float p e) v (bpow radix2 (- p) * Rabs v + / 2 * bpow radix2 (3 - e - p))).
Proof. exact nearest_hits. Qed.
Print Assumptions C141_routines.

(** At 1: cbrt 1 = 1, ln 1 = 0, exp 0 = 1, and the cube of -2 (all exact). *)
Example C141_ex : let one := float_of_Z 24 128 1 in let zero := float_of_Z 24 128 0 in let k := fun y : f32 => fun _ : f32 => y in
  let L := {| lm_sin := k zero; lm_sincos := fun _ => (zero, one); lm_asin := k zero; lm_sinh := k zero; lm_asinh := k zero;
    lm_cos := k one; lm_acos := k zero; lm_cosh := k one; lm_acosh := k zero; lm_tan := k zero; lm_tanh := k zero; lm_atanh := k zero; lm_cbrt := k (float_of_Z 24 128 (-2));
    lm_exp := k one; lm_exp2 := k one; lm_exp10 := k one; lm_pow := fun _ _ => float_of_Z 24 128 (-8); lm_log := k zero; lm_log2 := k zero; lm_log10 := k zero |} in
  hits (lm_log L one) (ln (B2R one)) 0 /\ hits (lm_exp L zero) (exp (B2R zero)) (0 * exp (B2R zero)) /\
  hits (lm_tan L zero) (tan (B2R zero)) (0 * Rabs (tan (B2R zero))) /\
  hits (lm_cbrt L (float_of_Z 24 128 (-8))) (-2) (0 * Rabs (-2)) /\
  map_res B2SF (y <- mixed_cbrt (lib_cbrt L) (float_of_Z 24 128 (-8)) ;; mixed_powi float_powi y 3) = Ok (SpecFloat.S754_finite true (2 ^ 23) (-20)).
Proof.
  cbv zeta. cbn [lm_log lm_exp lm_tan lm_cbrt].
  assert (O : B2R (float_of_Z 24 128 1) = 1) by (change (8388608 * bpow radix2 (-23) = 1); change (bpow radix2 (-23)) with (/ 8388608); lra).
  assert (T : B2R (float_of_Z 24 128 (-2)) = -2) by (change (-8388608 * bpow radix2 (-22) = -2); change (bpow radix2 (-22)) with (/ 4194304); lra).
  assert (Z0 : B2R (float_of_Z 24 128 0) = 0) by reflexivity.
  unfold hits. rewrite O, T, Z0, ln_1, exp_0, tan_0.
  repeat split; try (vm_compute; reflexivity); rewrite Rabs_pos_eq; lra.
Qed.
