(** * Property C129: angles of products, and phase differences. *)

From Coq Require Import ZArith Reals List Bool Lra.
From Flocq Require Import Core.Core IEEE754.BinarySingleNaN.
From Verif Require Import Base FloatBase Traits Trig FixedPrim FixedImpl FloatImpl Complex Spec SpecFilter SpecRotor SpecUnit SpecPolar SpecFloatPolar FloatArith AngleProofs.
Import ListNotations.
Open Scope Z_scope.

Notation finite z := (is_finite (re z) = true /\ is_finite (im z) = true).
Notation phase_range A e := (bpow radix2 (4 - e / 2) <= A <= bpow radix2 (e / 2 - 4))%R.

(** C129.  The angle atan2 gives points in the direction of z: e^(ia) is near z/|z|. *)
Theorem C129_direction_fixed : forall m f, supported f = true -> fsigned f = true -> forall z, let N := cabs (cval f z) in
  (32 * ulp f <= N * N)%R -> (3 / 2 * (N * N) <= fval f (fmax f))%R ->
  exists a, fixed_atan2_poly m f (im z) (re z) = Ok a /\ (cabs (csub (cis (fval f a)) (cunit (cval f z))) <= 492 / 100000 + (3 + 10 / (N * N)) * ulp f)%R.
Proof. exact dir_fixed. Qed.
Print Assumptions C129_direction_fixed.

(** The angle of a computed product is the sum of the angles of the factors, up to full turns. *)
Theorem C129_product_fixed : forall m f z w, supported f = true -> fsigned f = true -> let A := cabs (cval f z) in let B := cabs (cval f w) in
  (32 * ulp f <= A * A)%R -> (3 / 2 * (A * A) <= fval f (fmax f))%R -> (32 * ulp f <= B * B)%R -> (3 / 2 * (B * B) <= fval f (fmax f))%R ->
  (40 * ulp f <= A * B * (A * B))%R -> (23 * ulp f <= A * B)%R -> (3 / 2 * ((A * B + 224 / 100 * ulp f) * (A * B + 224 / 100 * ulp f)) <= fval f (fmax f))%R ->
  exists p a b c, cartesian_mul (fixed_ops m f) z w = Ok p /\
  fixed_atan2_poly m f (im z) (re z) = Ok a /\ fixed_atan2_poly m f (im w) (re w) = Ok b /\ fixed_atan2_poly m f (im p) (re p) = Ok c /\
  (cabs (csub (cis (fval f c)) (cis (fval f a + fval f b)))
   <= 1476 / 100000 + (9 + 10 / (A * A) + 10 / (B * B) + 13 / (A * B * (A * B)) + 448 / 100 / (A * B)) * ulp f)%R.
Proof. exact product_angle_fixed. Qed.
Print Assumptions C129_product_fixed.

(** The angle of w times the conjugate of z is the difference of the angles: what a phase or frequency discriminator computes. *)
Theorem C129_difference_fixed : forall m f z w, supported f = true -> fsigned f = true -> let A := cabs (cval f z) in let B := cabs (cval f w) in
  (32 * ulp f <= A * A)%R -> (3 / 2 * (A * A) <= fval f (fmax f))%R -> (32 * ulp f <= B * B)%R -> (3 / 2 * (B * B) <= fval f (fmax f))%R ->
  (40 * ulp f <= A * B * (A * B))%R -> (23 * ulp f <= A * B)%R -> (3 / 2 * ((A * B + 224 / 100 * ulp f) * (A * B + 224 / 100 * ulp f)) <= fval f (fmax f))%R ->
  exists q p a b c, cartesian_conj (fixed_signed m f) z = Ok q /\ cartesian_mul (fixed_ops m f) w q = Ok p /\
  fixed_atan2_poly m f (im z) (re z) = Ok a /\ fixed_atan2_poly m f (im w) (re w) = Ok b /\ fixed_atan2_poly m f (im p) (re p) = Ok c /\
  (cabs (csub (cis (fval f c)) (cis (fval f b - fval f a)))
   <= 1476 / 100000 + (9 + 10 / (A * A) + 10 / (B * B) + 13 / (A * B * (A * B)) + 448 / 100 / (A * B)) * ulp f)%R.
Proof. exact phase_diff_fixed. Qed.
Print Assumptions C129_difference_fixed.

(** The same for [arg], whose arctangent comes from another crate: its error [e] three times, and the rounding of the product. *)
Theorem C129_arg_product_fixed : forall m f z w, supported f = true -> fsigned f = true -> forall At e,
  accurate_atan2_at f e At (im z) (re z) -> accurate_atan2_at f e At (im w) (re w) ->
  let A := cabs (cval f z) in let B := cabs (cval f w) in
  (A <= fval f (fmax f))%R -> (B <= fval f (fmax f))%R -> (224 / 100 * ulp f < A * B)%R -> (A * B + 224 / 100 * ulp f <= fval f (fmax f))%R ->
  (forall p, cartesian_mul (fixed_ops m f) z w = Ok p -> accurate_atan2_at f e At (im p) (re p)) ->
  exists p a b c, cartesian_mul (fixed_ops m f) z w = Ok p /\ cartesian_arg At z = Ok a /\ cartesian_arg At w = Ok b /\ cartesian_arg At p = Ok c /\
  (cabs (csub (cis (fval f c)) (cis (fval f a + fval f b))) <= 3 * e + 448 / 100 * ulp f / (A * B))%R.
Proof. exact product_arg_fixed. Qed.
Print Assumptions C129_arg_product_fixed.
Theorem C129_arg_difference_fixed : forall m f z w, supported f = true -> fsigned f = true -> forall At e,
  accurate_atan2_at f e At (im z) (re z) -> accurate_atan2_at f e At (im w) (re w) ->
  let A := cabs (cval f z) in let B := cabs (cval f w) in
  (A <= fval f (fmax f))%R -> (B <= fval f (fmax f))%R -> (224 / 100 * ulp f < A * B)%R -> (A * B + 224 / 100 * ulp f <= fval f (fmax f))%R ->
  (forall q p, cartesian_conj (fixed_signed m f) z = Ok q -> cartesian_mul (fixed_ops m f) w q = Ok p -> accurate_atan2_at f e At (im p) (re p)) ->
  exists q p a b c, cartesian_conj (fixed_signed m f) z = Ok q /\ cartesian_mul (fixed_ops m f) w q = Ok p /\
  cartesian_arg At z = Ok a /\ cartesian_arg At w = Ok b /\ cartesian_arg At p = Ok c /\
  (cabs (csub (cis (fval f c)) (cis (fval f b - fval f a))) <= 3 * e + 448 / 100 * ulp f / (A * B))%R.
Proof. exact phase_diff_arg_fixed. Qed.
Print Assumptions C129_arg_difference_fixed.
(** FixedI32<U20>: z = 3 + 4i, w = 4 - 3i, product 24 + 7i, discriminator w * conj(z) = -25i; the exact angles are 0.9273, -0.6435, 0.2838 and -1.5708.
    The computed angle of the product is 0.28485, the sum of the computed angles 0.27569. *)
Example C129_ex : let f := mkFty true 32 20 in let v n := n * 2 ^ 20 in let z := mkC (v 3) (v 4) in let w := mkC (v 4) (v (-3)) in supported f = true /\
  (cabs (cval f z) = 5)%R /\ (cabs (cval f w) = 5)%R /\ (937 <= fval f (fmax f))%R /\ (ulp f <= / 1000000)%R /\
  map_res (fun p => (re p, im p)) (cartesian_mul (fixed_ops Debug f) z w) = Ok (v 24, v 7) /\
  map_res (fun p => (re p, im p)) (q <- cartesian_conj (fixed_signed Debug f) z ;; cartesian_mul (fixed_ops Debug f) w q) = Ok (0, v (-25)) /\
  fixed_atan2_poly Debug f (v 4) (v 3) = Ok 968089 /\ fixed_atan2_poly Debug f (v (-3)) (v 4) = Ok (-679010) /\ fixed_atan2_poly Debug f (v 7) (v 24) = Ok 298688 /\
  fixed_atan2_poly Debug f (v (-25)) 0 = Ok (-1647099).
Proof.
  cbv zeta. split; [reflexivity|]. unfold cabs, cval, fval, ulp, fmax, imax, fity, ffrac, fwidth, fsigned. cbn [fst snd re im iwidth isigned].
  change (bpow radix2 (- (20))) with (/ 1048576)%R.
  split; [replace (_ + _)%R with (5 * 5)%R; [apply sqrt_square; lra|]; change (3 * 2 ^ 20) with 3145728; change (4 * 2 ^ 20) with 4194304; lra|].
  split; [replace (_ + _)%R with (5 * 5)%R; [apply sqrt_square; lra|]; change (-3 * 2 ^ 20) with (-3145728); change (4 * 2 ^ 20) with 4194304; lra|].
  change (2 ^ (32 - 1) - 1) with 2147483647. split; [lra|]. split; [lra|]. repeat split; vm_compute; reflexivity.
Qed.

Theorem C129_product_f32 : forall z w : Cartesian f32, finite z -> finite w ->
  let A := cabs (cvalf z) in let B := cabs (cvalf w) in phase_range A 128 -> phase_range B 128 -> (bpow radix2 (5 - 128 / 2) <= A * B <= bpow radix2 (128 / 2 - 4))%R ->
  exists p a b c, cartesian_mul float_ops z w = Ok p /\ float_atan2_poly (im z) (re z) = Ok a /\ float_atan2_poly (im w) (re w) = Ok b /\ float_atan2_poly (im p) (re p) = Ok c /\
  (cabs (csub (cis (B2R c)) (cis (B2R a + B2R b))) <= 1477 / 100000)%R.
Proof. exact product_angle_f32. Qed.
Print Assumptions C129_product_f32.
Theorem C129_product_f64 : forall z w : Cartesian f64, finite z -> finite w ->
  let A := cabs (cvalf z) in let B := cabs (cvalf w) in phase_range A 1024 -> phase_range B 1024 -> (bpow radix2 (5 - 1024 / 2) <= A * B <= bpow radix2 (1024 / 2 - 4))%R ->
  exists p a b c, cartesian_mul float_ops z w = Ok p /\ float_atan2_poly (im z) (re z) = Ok a /\ float_atan2_poly (im w) (re w) = Ok b /\ float_atan2_poly (im p) (re p) = Ok c /\
  (cabs (csub (cis (B2R c)) (cis (B2R a + B2R b))) <= 1477 / 100000)%R.
Proof. exact product_angle_f64. Qed.
Print Assumptions C129_product_f64.
Theorem C129_difference_f32 : forall z w : Cartesian f32, finite z -> finite w ->
  let A := cabs (cvalf z) in let B := cabs (cvalf w) in phase_range A 128 -> phase_range B 128 -> (bpow radix2 (5 - 128 / 2) <= A * B <= bpow radix2 (128 / 2 - 4))%R ->
  exists q p a b c, cartesian_conj float_signed z = Ok q /\ cartesian_mul float_ops w q = Ok p /\
  float_atan2_poly (im z) (re z) = Ok a /\ float_atan2_poly (im w) (re w) = Ok b /\ float_atan2_poly (im p) (re p) = Ok c /\
  (cabs (csub (cis (B2R c)) (cis (B2R b - B2R a))) <= 1477 / 100000)%R.
Proof. exact phase_diff_f32. Qed.
Print Assumptions C129_difference_f32.
Theorem C129_difference_f64 : forall z w : Cartesian f64, finite z -> finite w ->
  let A := cabs (cvalf z) in let B := cabs (cvalf w) in phase_range A 1024 -> phase_range B 1024 -> (bpow radix2 (5 - 1024 / 2) <= A * B <= bpow radix2 (1024 / 2 - 4))%R ->
  exists q p a b c, cartesian_conj float_signed z = Ok q /\ cartesian_mul float_ops w q = Ok p /\
  float_atan2_poly (im z) (re z) = Ok a /\ float_atan2_poly (im w) (re w) = Ok b /\ float_atan2_poly (im p) (re p) = Ok c /\
  (cabs (csub (cis (B2R c)) (cis (B2R b - B2R a))) <= 1477 / 100000)%R.
Proof. exact phase_diff_f64. Qed.
Print Assumptions C129_difference_f64.
Theorem C129_arg_float : forall p e {Hp : Prec_gt_0 p} {He : Prec_lt_emax p e}, 24 <= p -> 40 <= e -> forall (At : MixedAtan (binary_float p e)) d, accurate_atan2_float d At ->
  forall z w : Cartesian (binary_float p e), finite z -> finite w ->
  let A := cabs (cvalf z) in let B := cabs (cvalf w) in phase_range A e -> phase_range B e -> (bpow radix2 (5 - e / 2) <= A * B <= bpow radix2 (e / 2 - 4))%R ->
  exists q s r a b c k, cartesian_mul float_ops z w = Ok s /\ cartesian_conj float_signed z = Ok q /\ cartesian_mul float_ops w q = Ok r /\
  cartesian_arg At z = Ok a /\ cartesian_arg At w = Ok b /\ cartesian_arg At s = Ok c /\ cartesian_arg At r = Ok k /\
  (cabs (csub (cis (B2R c)) (cis (B2R a + B2R b))) <= 3 * d + 8 * bpow radix2 (- p))%R /\ (cabs (csub (cis (B2R k)) (cis (B2R b - B2R a))) <= 3 * d + 8 * bpow radix2 (- p))%R.
Proof. exact @phase_arg_float. Qed.
Print Assumptions C129_arg_float.
