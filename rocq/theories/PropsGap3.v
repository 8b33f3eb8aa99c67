(** * C83, sharper: convergence down to the rounding unit of each type, for every argument; and instances of
    C101, C102, C104 and C121. *)

From Coq Require Import ZArith Reals List Lra.
From Flocq Require Import Core.Core IEEE754.BinarySingleNaN.
From Verif Require Import Base FloatBase Literals Traits Trig IntImpl FixedPrim FixedImpl FloatImpl Complex Spec SpecAngle SpecFilter SpecFloatPolar
  AtanReal FloatPolar NiirfFloat2 NiirfMore2 GapProofs3.
Open Scope Z_scope.

(** C83, fixed point: every representable argument, not only the normalised ones. *)
Theorem C83_convergence_fixed_all : forall m f, supported f = true -> fsigned f = true -> 2 <= ffrac f <= fwidth f - 4 ->
  forall n x, fvalid f x -> 0 <= x -> exists r,
  returns (fun fuel => niirf (fixed_ops m f) (fixed_zero m f) (fixed_abs m f) (fixed_powi m f) m fuel x (N.of_nat (n + 2))) r /\
  (Rabs (fval f r - sqrt (fval f x)) <= (1406 / 1000000 * (/ 4) ^ n + 5 * ulp f) * sqrt (fval f x) + 3 * ulp f)%R.
Proof. exact sqrt_converges_all. Qed.
Print Assumptions C83_convergence_fixed_all.
(** sqrt(1000) in FixedI32<U20>, 2, 4 and 8 iterations; the exact value is 33158884.6 *)
Example C83_fixed_all_ex : let f := mkFty true 32 20 in
  let g := niirf (fixed_ops Debug f) (fixed_zero Debug f) (fixed_abs Debug f) (fixed_powi Debug f) Debug 99 (1000 * 2 ^ 20) in
  g 2%N = Ok 33157408 /\ g 4%N = Ok 33158880 /\ g 8%N = Ok 33158880.
Proof. repeat split; vm_compute; reflexivity. Qed.

(** C83, floats: each iteration divides the error by twelve, down to 4.4 rounding units. *)
Theorem C83_convergence_tight_f32 : forall m (x : f32) n, is_finite x = true -> exists r : f32,
  returns (fun fuel => niirf float_ops float_zero float_abs float_powi m fuel x (N.of_nat (n + 2))) r /\ is_finite r = true /\
  (Rabs (B2R r - sqrt (Rabs (B2R x))) <= (1406 / 1000000 * (/ 12) ^ n + 44 / 10 * bpow radix2 (-24)) * sqrt (Rabs (B2R x)))%R.
Proof. exact niirf_tight_f32. Qed.
Print Assumptions C83_convergence_tight_f32.
Theorem C83_convergence_tight_f64 : forall m (x : f64) n, is_finite x = true -> exists r : f64,
  returns (fun fuel => niirf float_ops float_zero float_abs float_powi m fuel x (N.of_nat (n + 2))) r /\ is_finite r = true /\
  (Rabs (B2R r - sqrt (Rabs (B2R x))) <= (1406 / 1000000 * (/ 12) ^ n + 44 / 10 * bpow radix2 (-53)) * sqrt (Rabs (B2R x)))%R.
Proof. exact niirf_tight_f64. Qed.
Print Assumptions C83_convergence_tight_f64.
(** f64: sqrt(2) with 14 iterations; the nearest double of sqrt 2 is 6369051672525773 * 2^-52 *)
Example C83_tight_ex :
  map_res B2SF (niirf (T := f64) float_ops float_zero float_abs float_powi Debug 99 (float_of_Z 53 1024 2) 14)
    = Ok (SpecFloat.S754_finite false 6369051672525772 (-52)).
Proof. vm_compute. reflexivity. Qed.

(** C101, integers: conjugation commutes with the product wherever a debug build returns. *)
Theorem C101_conj_mul_int : forall t z w cz cw zw p,
  cartesian_conj (int_signed Debug t) z = Ok cz -> cartesian_conj (int_signed Debug t) w = Ok cw ->
  cartesian_mul (int_ops Debug t) z w = Ok zw -> cartesian_mul (int_ops Debug t) cz cw = Ok p -> re p = re zw /\ im p = - im zw.
Proof. exact conj_mul_int. Qed.
Print Assumptions C101_conj_mul_int.
Example C101_conj_ex : cartesian_conj (int_signed Debug i16) (mkC 3 4) = Ok (mkC 3 (-4)) /\ cartesian_conj (int_signed Debug i16) (mkC (-5) 6) = Ok (mkC (-5) (-6)) /\
  cartesian_mul (int_ops Debug i16) (mkC 3 4) (mkC (-5) 6) = Ok (mkC (-39) (-2)) /\ cartesian_mul (int_ops Debug i16) (mkC 3 (-4)) (mkC (-5) (-6)) = Ok (mkC (-39) 2).
Proof. repeat split; vm_compute; reflexivity. Qed.

(** C102, floats: four quarter turns give the number back, up to the sign of zero parts. *)
Theorem C102_rot4_float : forall prec emax {Hp : Prec_gt_0 prec} {He : Prec_lt_emax prec emax}, 24 <= prec ->
  forall (z i : Cartesian (binary_float prec emax)) e o, mixed_zero float_zero = Ok e -> mixed_one float_one = Ok o -> i = mkC e o ->
  is_finite (re z) = true -> is_finite (im z) = true -> let M := fun z => cartesian_mul float_ops z i in
  exists r, (a <- M z ;; b <- M a ;; c <- M b ;; M c) = Ok r /\ same_float (re r) (re z) /\ same_float (im r) (im z).
Proof. exact @rot4_float. Qed.
Print Assumptions C102_rot4_float.
(** 3 - 0i in f64 *)
Example C102_rot4_ex : let i := mkC (float_of_Z 53 1024 0) (float_of_Z 53 1024 1) in let M := fun z : Cartesian f64 => cartesian_mul float_ops z i in
  map_res (fun r => (B2SF (re r), B2SF (im r))) (a <- M (mkC (float_of_Z 53 1024 3) (B754_zero true)) ;; b <- M a ;; c <- M b ;; M c)
  = Ok (SpecFloat.S754_finite false 6755399441055744 (-51), SpecFloat.S754_zero true).
Proof. vm_compute. reflexivity. Qed.

(** C104, floats: the first guess is within 4.21 percent of the root for every finite argument. *)
Theorem C104_guess_f32 : forall m (x : f32) it, is_finite x = true -> (it <= 1)%N -> exists r : f32,
  returns (fun fuel => niirf float_ops float_zero float_abs float_powi m fuel x it) r /\ is_finite r = true /\
  (Rabs (B2R r - R_sqrt.sqrt (Rabs (B2R x))) <= 421 / 10000 * R_sqrt.sqrt (Rabs (B2R x)))%R /\
  ((/ 4 <= Rabs (B2R x) < 1)%R -> (Rabs (B2R r - R_sqrt.sqrt (Rabs (B2R x))) <= 20835 / 1000000 + 4 / 10000000)%R).
Proof. exact guess_f32. Qed.
Print Assumptions C104_guess_f32.
Theorem C104_guess_f64 : forall m (x : f64) it, is_finite x = true -> (it <= 1)%N -> exists r : f64,
  returns (fun fuel => niirf float_ops float_zero float_abs float_powi m fuel x it) r /\ is_finite r = true /\
  (Rabs (B2R r - R_sqrt.sqrt (Rabs (B2R x))) <= 421 / 10000 * R_sqrt.sqrt (Rabs (B2R x)))%R /\
  ((/ 4 <= Rabs (B2R x) < 1)%R -> (Rabs (B2R r - R_sqrt.sqrt (Rabs (B2R x))) <= 20835 / 1000000 + 4 / 10000000)%R).
Proof. exact guess_f64. Qed.
Print Assumptions C104_guess_f64.
(** f32: the first guess of sqrt(2) is 2 * (1/3 + 0.354167) = 1.375 *)
Example C104_guess_ex : map_res B2SF (niirf (T := f32) float_ops float_zero float_abs float_powi Debug 99 (float_of_Z 24 128 2) 1)
  = Ok (SpecFloat.S754_finite false 11534342 (-23)).
Proof. vm_compute. reflexivity. Qed.

(** C121, floats, with a correctly rounded square root and an arctangent accurate to [d]. *)
Theorem C121_polar_times_cartesian_float : forall prec emax {Hp : Prec_gt_0 prec} {He : Prec_lt_emax prec emax}, 24 <= prec -> 40 <= emax ->
  forall m fuel libm_sqrt A d, (forall x : binary_float prec emax, libm_sqrt x = Bsqrt mode_NE x) -> accurate_atan2_float d A -> (0 <= d <= 1)%R ->
  forall (p : Polar (binary_float prec emax)) z th k, 2 * k + 1 < emax ->
  is_finite (mag p) = true -> is_finite (ang p) = true -> is_finite (re z) = true -> is_finite (im z) = true -> im z <> B754_zero true ->
  is_angle (B2R (im z)) (B2R (re z)) th ->
  let u := bpow radix2 (- prec) in
  let g := B2R (mag p) in let a := B2R (ang p) in let rho := cabs (B2R (re z), B2R (im z)) in
  (bpow radix2 (14 - emax) <= rho * rho)%R -> (rho <= bpow radix2 k)%R ->
  (Rabs g * rho <= bpow radix2 (emax - 2))%R -> (Rabs a <= bpow radix2 (emax - 2))%R ->
  let run := polar_mul_cartesian float_ops (float_sqrt m libm_sqrt fuel) float_powi A p z in
  (g = 0%R -> run = Ok (mkP (B754_zero false) (B754_zero false))) /\
  (g <> 0%R -> exists q, run = Ok q /\ is_finite (mag q) = true /\ is_finite (ang q) = true /\
   (Rabs (B2R (mag q) - g * rho) <= 7 / 2 * u * (Rabs g * rho) + bpow radix2 (3 - emax - prec) /\
    Rabs (B2R (ang q) - (a + th)) <= d + u * (Rabs (a + th) + d))%R).
Proof. exact @pmul_cart_float. Qed.
Print Assumptions C121_polar_times_cartesian_float.
(** 2 at angle 1, times 3i, in f64: the hypotheses hold with an ideal arctangent, rho = 3 *)
Example C121_float_ex : accurate_atan2_float (8 * bpow radix2 (-53)) (ideal_atan_float angle : MixedAtan f64) /\
  is_angle (B2R (float_of_Z 53 1024 3)) (B2R (float_of_Z 53 1024 0)) (PI / 2) /\ cabs (0, 3)%R = 3%R.
Proof.
  split; [exact (@ideal_atan_ok 53 1024 _ _ ltac:(discriminate) ltac:(reflexivity))|]. split.
  - assert (E3 : B2R (float_of_Z 53 1024 3) = 3%R) by (unfold B2R, F2R; cbn; lra). assert (E0 : B2R (float_of_Z 53 1024 0) = 0%R) by reflexivity.
    rewrite E3, E0. clear. split; [pose proof PI_RGT_0; lra|]. exists 3%R. rewrite cos_PI2, sin_PI2. repeat split; lra.
  - unfold cabs. cbn [fst snd]. replace (0 * 0 + 3 * 3)%R with (3 * 3)%R by ring. apply R_sqrt.sqrt_square. lra.
Qed.
