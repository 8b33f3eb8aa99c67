(** * Properties C63-C70, C121, and C49 continued: conversions between the forms, angles, powers, scalar
    division, identities.

    The CORDIC routines are outside the model; they enter as [Sn], [A] and [E], of which only the stated
    accuracy is assumed ([accurate_sincos], [accurate_atan2] in SpecPolar). *)

From Coq Require Import ZArith Reals Lia Lra List Bool.
From Flocq Require Import Core.Core IEEE754.BinarySingleNaN.
From Verif Require Import Base FloatBase Traits Trig IntImpl FixedPrim FixedImpl FloatImpl Complex Spec SpecAngle SpecPolar
  AtanReal AtanProofs PolarProofs PolarProofs2 PolarProofs3 IdentProofs PolarCart.
Open Scope Z_scope.

(** the assumptions can be met, to one ulp, in every format *)
Example accurate_ex : forall f, supported f = true -> fsigned f = true ->
  (forall b, accurate_sincos f b (ulp f) (ideal_sin f)) /\ accurate_atan2 f (ulp f) (ideal_atan f AtanReal.angle).
Proof. intros f Hf S. split; [apply ideal_sincos_ok | apply ideal_atan2_ok; auto]. Qed.

(** C63.  [slip f a] = (|a|/6 + 1/2)(ulp + 2e-15) bounds what phase wrapping with a rounded pi adds. *)
Theorem C63_to_cartesian_fixed : forall m f, supported f = true -> fsigned f = true -> ffrac f <= fwidth f - 4 ->
  forall p, mixed_pi (fixed_pi m f) = Ok p -> forall Sn d, accurate_sincos f (fval f p) d Sn ->
  forall q, fvalid f (ang q) -> (Rabs (fval f (mag q)) * (1 + d) <= fval f (fmax f))%R ->
  exists z, returns (fun fuel => polar_to_cartesian (fixed_ops m f) (fixed_wrap_phase m f fuel) Sn q) z /\
  let g := fval f (mag q) in let a := fval f (ang q) in
  (let B := (Rabs g * (d + (Rabs a / 6 + / 2) * (ulp f + 2 / 1000000000000000)) + ulp f)%R in
   Rabs (fval f (re z) - g * Rtrigo_def.cos a) <= B /\ Rabs (fval f (im z) - g * Rtrigo_def.sin a) <= B)%R /\
  (- fval f p <= a < fval f p -> let B := (Rabs g * d + ulp f)%R in
   Rabs (fval f (re z) - g * Rtrigo_def.cos a) <= B /\ Rabs (fval f (im z) - g * Rtrigo_def.sin a) <= B)%R.
Proof. exact to_cartesian_all. Qed.
Print Assumptions C63_to_cartesian_fixed.
(** magnitude 3, angle 20, with an ideal routine: the angle is wrapped and the result off by at most 2e-6 *)
Example C63_ex : let f := mkFty true 32 22 in exists p, mixed_pi (fixed_pi Debug f) = Ok p /\
  accurate_sincos f (fval f p) (ulp f) (ideal_sin f) /\ fvalid f (20 * 2 ^ 22) /\
  (Rabs (fval f (3 * 2 ^ 22)) * (1 + ulp f) <= fval f (fmax f))%R.
Proof.
  eexists. split; [reflexivity|]. split; [apply ideal_sincos_ok|]. split; [split; vm_compute; discriminate|].
  unfold fval, ulp. cbn [ffrac]. change (bpow radix2 (- (22))) with (/ IZR 4194304)%R. change (3 * 2 ^ 22) with 12582912.
  change (fmax (mkFty true 32 22)) with 2147483647. rewrite Rabs_pos_eq; lra.
Qed.

(** C64.  to_polar, then to_cartesian.  [mag_err] is the error of the magnitude (C40). *)
Theorem C64_roundtrip_fixed : forall m f, supported f = true -> fsigned f = true -> 2 <= ffrac f <= fwidth f - 4 ->
  forall p, mixed_pi (fixed_pi m f) = Ok p -> forall Sn d A e, accurate_sincos f (fval f p) d Sn ->
  forall z, accurate_atan2_at f e A (im z) (re z) -> cvalid (fity f) z -> z <> mkC 0 0 ->
  let rho := sqrt (fval f (re z) * fval f (re z) + fval f (im z) * fval f (im z)) in
  let me := ((/ 1000 + 5 * ulp f) * rho + 3 * ulp f + sqrt (2 * ulp f))%R in
  (rho * rho <= fval f (fmax f) -> (rho + me) * (1 + d) <= fval f (fmax f) ->
  exists w, returns (fun fuel => q <- cartesian_to_polar (fixed_ops m f) (fixed_sqrt m f fuel) (fixed_powi m f) A z ;;
     polar_to_cartesian (fixed_ops m f) (fixed_wrap_phase m f fuel) Sn q) w /\
   let B := me + (rho + me) * (d + e + (2 + e) * (ulp f + 2 / 1000000000000000)) + ulp f in
   Rabs (fval f (re w) - fval f (re z)) <= B /\ Rabs (fval f (im w) - fval f (im z)) <= B)%R.
Proof. exact roundtrip_all. Qed.
Print Assumptions C64_roundtrip_fixed.
Theorem C64_roundtrip_zero : forall m f, supported f = true -> fsigned f = true -> ffrac f <= fwidth f - 4 ->
  forall p, mixed_pi (fixed_pi m f) = Ok p -> forall Sn d A a, accurate_sincos f (fval f p) d Sn ->
  mixed_atan2 A 0 0 = Ok a -> fvalid f a ->
  returns (fun fuel => q <- cartesian_to_polar (fixed_ops m f) (fixed_sqrt m f fuel) (fixed_powi m f) A (mkC 0 0) ;;
     polar_to_cartesian (fixed_ops m f) (fixed_wrap_phase m f fuel) Sn q) (mkC 0 0).
Proof. exact roundtrip_zero. Qed.
Print Assumptions C64_roundtrip_zero.
(** 3 - 4i in FixedI32<U22> *)
Example C64_ex : let f := mkFty true 32 22 in let z := mkC (3 * 2 ^ 22) (- 4 * 2 ^ 22) in
  supported f = true /\ cvalid (fity f) z /\ (fval f (re z) * fval f (re z) + fval f (im z) * fval f (im z) = 25)%R /\ (6 < fval f (fmax f))%R.
Proof.
  cbv zeta. split; [reflexivity|]. split; [repeat split; vm_compute; discriminate|].
  unfold fval. cbn [ffrac re im]. change (bpow radix2 (- (22))) with (/ IZR 4194304)%R. change (3 * 2 ^ 22) with 12582912. change (- 4 * 2 ^ 22) with (-16777216).
  change (fmax (mkFty true 32 22)) with 2147483647. split; lra.
Qed.

(** C65.  Conjugation of polar numbers negates the angle; only the most negative angle has no negative. *)
Theorem C65_polar_conj_fixed : forall m f, supported f = true -> fsigned f = true -> forall p, fvalid f (ang p) ->
  (ang p <> fmin f -> polar_conj (fixed_signed m f) p = Ok (mkP (mag p) (- ang p))) /\
  (ang p = fmin f -> polar_conj (fixed_signed m f) p = match m with Debug => Panic POverflow | Release => Ok p end) /\
  (forall c, polar_conj (fixed_signed m f) p = Ok c -> polar_conj (fixed_signed m f) c = Ok p).
Proof. exact polar_conj_word. Qed.
Print Assumptions C65_polar_conj_fixed.
Theorem C65_polar_conj_float : forall prec emax (Hp : FLX.Prec_gt_0 prec) (He : Prec_lt_emax prec emax) (p : Polar (binary_float prec emax)),
  polar_conj float_signed p = Ok (mkP (mag p) (Bopp (ang p))) /\
  (c <- polar_conj float_signed p ;; polar_conj float_signed c) = Ok p.
Proof. exact polar_conj_float. Qed.
Print Assumptions C65_polar_conj_float.
(** conjugating a polar number into Cartesian form *)
Theorem C65_polar_conj_cartesian : forall m f, supported f = true -> fsigned f = true -> ffrac f <= fwidth f - 4 ->
  forall p, mixed_pi (fixed_pi m f) = Ok p -> forall Sn d, accurate_sincos f (fval f p) d Sn ->
  forall q, fvalid f (ang q) -> ang q <> fmin f -> (Rabs (fval f (mag q)) * (1 + d) <= fval f (fmax f))%R ->
  exists z, returns (fun fuel => polar_conj_cartesian (fixed_ops m f) (fixed_signed m f) (fixed_wrap_phase m f fuel) Sn q) z /\
  let g := fval f (mag q) in let a := fval f (ang q) in let B := (Rabs g * (d + slip f a) + ulp f)%R in
  (Rabs (fval f (re z) - g * Rtrigo_def.cos a) <= B /\ Rabs (fval f (im z) - - (g * Rtrigo_def.sin a)) <= B)%R.
Proof. exact polar_conj_cart_acc. Qed.
Print Assumptions C65_polar_conj_cartesian.
(** conjugating a Cartesian number into polar form: same magnitude, opposite angle (off the negative real axis) *)
Theorem C65_cartesian_conj_polar : forall m f A e, supported f = true -> fsigned f = true ->
  forall z th fuel, accurate_atan2_at f e A (im z) (re z) -> accurate_atan2_at f e A (- im z) (re z) -> cvalid (fity f) z -> im z <> fmin f -> is_angle (fval f (im z)) (fval f (re z)) th -> (th <> PI)%R ->
  forall p q, cartesian_to_polar (fixed_ops m f) (fixed_sqrt m f fuel) (fixed_powi m f) A z = Ok p ->
  cartesian_conj_polar (fixed_ops m f) (fixed_signed m f) (fixed_sqrt m f fuel) (fixed_powi m f) A z = Ok q ->
  polar_mag q = polar_mag p /\ (Rabs (fval f (polar_ang q) - - th) <= e /\ Rabs (fval f (polar_ang q) + fval f (polar_ang p)) <= 2 * e)%R.
Proof. exact conj_polar_acc. Qed.
Print Assumptions C65_cartesian_conj_polar.
Example C65_ex : polar_conj (fixed_signed Debug (mkFty true 32 22)) (mkP 5 (-7)) = Ok (mkP 5 7) /\
  is_angle 1 1 (PI / 4) /\ (PI / 4 <> PI)%R.
Proof.
  split; [reflexivity|]. split; [apply angle_diag; lra|]. pose proof PI_RGT_0. lra.
Qed.

(** C66.  Cartesian times polar. *)
Theorem C66_mul_polar_fixed : forall f, supported f = true -> fsigned f = true -> ffrac f <= fwidth f - 4 ->
  forall p, mixed_pi (fixed_pi Debug f) = Ok p -> forall Sn d, accurate_sincos f (fval f p) d Sn ->
  forall z q, cvalid (fity f) z -> fvalid f (ang q) -> (Rabs (fval f (mag q)) * (1 + d) <= fval f (fmax f))%R ->
  exists n0, forall fuel, (n0 <= fuel)%nat -> forall r,
  cartesian_mul_polar (fixed_ops Debug f) (fixed_wrap_phase Debug f fuel) Sn z q = Ok r ->
  let x := fval f (re z) in let y := fval f (im z) in let g := fval f (mag q) in let a := fval f (ang q) in
  let B := ((Rabs x + Rabs y) * (Rabs g * (d + slip f a) + ulp f) + 2 * ulp f)%R in
  (Rabs (fval f (re r) - (x * (g * Rtrigo_def.cos a) - y * (g * Rtrigo_def.sin a))) <= B)%R /\
  (Rabs (fval f (im r) - (x * (g * Rtrigo_def.sin a) + y * (g * Rtrigo_def.cos a))) <= B)%R.
Proof. exact mul_polar_acc. Qed.
Print Assumptions C66_mul_polar_fixed.
Theorem C66_mul_polar_assign : forall T (O : MixedOps T) Wr Sn z q,
  cartesian_mul_assign_polar O Wr Sn z q = cartesian_mul_polar O Wr Sn z q /\
  cartesian_mul_polar O Wr Sn z q = (w <- polar_to_cartesian O Wr Sn q ;; cartesian_mul O z w).
Proof. exact mul_polar_forms. Qed.
Print Assumptions C66_mul_polar_assign.
(** with a routine that returns (sin, cos) = (0, 1): (1 + 2i) * (3, 0) = 3 + 6i *)
Example C66_ex : let f := mkFty true 32 22 in
  cartesian_mul_polar (fixed_ops Debug f) (fixed_wrap_phase Debug f 5) (Build_MixedSin Z (fun x => Ok 0) (fun x => Ok (0, 2 ^ 22)) (fun x => Ok 0))
    (mkC (2 ^ 22) (2 * 2 ^ 22)) (mkP (3 * 2 ^ 22) 0) = Ok (mkC (3 * 2 ^ 22) (6 * 2 ^ 22)).
Proof. vm_compute. reflexivity. Qed.

(** C67.  The power is accurate as long as the unreduced phase n * arg z is representable, and the routine is
    accurate there; b bounds the base.  Missing: large phases, where the property is false. *)
Theorem C67_powi_fixed_partial : forall m f, supported f = true -> fsigned f = true -> 2 <= ffrac f <= fwidth f - 4 ->
  forall Sn A z th a e d n b,
  let rho := sqrt (fval f (re z) * fval f (re z) + fval f (im z) * fval f (im z)) in
  let me := ((/ 1000 + 5 * ulp f) * rho + 3 * ulp f + sqrt (2 * ulp f))%R in
  is_angle (fval f (im z)) (fval f (re z)) th -> mixed_atan2 A (im z) (re z) = Ok a -> (Rabs (fval f a - th) <= e)%R ->
  accurate_sincos f (INR n * Rabs (fval f a)) d Sn ->
  Z.of_nat n < 2 ^ 31 ->
  (rho * rho <= fval f (fmax f) -> 1 <= b -> rho + me <= b ->
   b ^ n * (1 + INR n * ulp f) * (1 + d) <= fval f (fmax f) ->
   INR n * Rmax 1 (Rabs (fval f a)) <= fval f (fmax f) ->
  exists w, returns (fun fuel => ops_powi (fixed_ops m f) (fixed_sqrt m f fuel) (fixed_powi m f) A Sn (fx_of_int m f) z (N.of_nat n)) w /\
   let B := b ^ n * ((1 + INR n * ulp f) * (d + INR n * e) + INR n * (me + ulp f)) + ulp f in
   Rabs (fval f (re w) - fst (cpow (fval f (re z)) (fval f (im z)) n)) <= B /\
   Rabs (fval f (im w) - snd (cpow (fval f (re z)) (fval f (im z)) n)) <= B)%R.
Proof. exact powi_acc. Qed.
Print Assumptions C67_powi_fixed_partial.
Theorem C67_powi_zero : forall m f, supported f = true -> fsigned f = true -> 2 <= ffrac f <= fwidth f - 4 ->
  forall Sn A z a, (fval f (re z) * fval f (re z) + fval f (im z) * fval f (im z) <= fval f (fmax f))%R ->
  mixed_atan2 A (im z) (re z) = Ok a -> mixed_sincos Sn 0 = Ok (0, fone f) ->
  returns (fun fuel => ops_powi (fixed_ops m f) (fixed_sqrt m f fuel) (fixed_powi m f) A Sn (fx_of_int m f) z 0) (mkC (fone f) 0).
Proof. exact powi_zero. Qed.
Print Assumptions C67_powi_zero.
(** C67 is false: the phase is not reduced, so powers of -1 (which are 1 or -1) overflow; three suffices with
    three integer bits. *)
Theorem C67_powi_phase_refuted : forall f, supported f = true -> fsigned f = true -> 2 <= ffrac f <= fwidth f - 4 ->
  forall Sn A a n, mixed_atan2 A 0 (- fone f) = Ok a -> (3 <= fval f a)%R -> (fval f (fmax f) + ulp f < 3 * INR n)%R ->
  cpow (fval f (- fone f)) (fval f 0) n = ((-1) ^ n, 0)%R /\
  panics (fun fuel => ops_powi (fixed_ops Debug f) (fixed_sqrt Debug f fuel) (fixed_powi Debug f) A Sn (fx_of_int Debug f) (mkC (- fone f) 0) (N.of_nat n)) POverflow.
Proof. exact powi_refuted. Qed.
Print Assumptions C67_powi_phase_refuted.
Theorem C67_powi_phase_over : forall f, supported f = true -> fsigned f = true -> 2 <= ffrac f <= fwidth f - 4 ->
  forall Sn A z a n, (fval f (re z) * fval f (re z) + fval f (im z) * fval f (im z) <= fval f (fmax f))%R ->
  mixed_atan2 A (im z) (re z) = Ok a -> (fval f (fmax f) + ulp f < IZR (Z.of_N n) * Rabs (fval f a))%R ->
  panics (fun fuel => ops_powi (fixed_ops Debug f) (fixed_sqrt Debug f fuel) (fixed_powi Debug f) A Sn (fx_of_int Debug f) z n) POverflow.
Proof. exact powi_phase_over. Qed.
Print Assumptions C67_powi_phase_over.
(** (-1)^3 in FixedI32<U28>, with an exact arctangent *)
Example C67_ex : let f := mkFty true 32 28 in exists a, mixed_atan2 (ideal_atan f AtanReal.angle) 0 (- fone f) = Ok a /\ (3 <= fval f a)%R /\
  (fval f (fmax f) + ulp f < 3 * INR 3)%R.
Proof. exact powi_refuted_witness. Qed.

(** C68.  The angle accessors. *)
Theorem C68_arg_fixed : forall f A e z th, accurate_atan2_at f e A (im z) (re z) -> cvalid (fity f) z ->
  is_angle (fval f (im z)) (fval f (re z)) th ->
  exists a, cartesian_arg A z = Ok a /\ cartesian_ang A z = Ok a /\ (Rabs (fval f a - th) <= e)%R /\
  (let rho := sqrt (fval f (re z) * fval f (re z) + fval f (im z) * fval f (im z)) in
   Rabs (rho * Rtrigo_def.cos (fval f a) - fval f (re z)) <= rho * e /\
   Rabs (rho * Rtrigo_def.sin (fval f a) - fval f (im z)) <= rho * e)%R /\
  (forall m fuel p, cartesian_to_polar (fixed_ops m f) (fixed_sqrt m f fuel) (fixed_powi m f) A z = Ok p ->
     polar_arg p = a /\ polar_ang p = a /\
     cartesian_mag (fixed_ops m f) (fixed_sqrt m f fuel) (fixed_powi m f) z = Ok (polar_mag p) /\ polar_abs p = polar_mag p /\
     polar_new_from_cartesian (fixed_ops m f) (fixed_sqrt m f fuel) (fixed_powi m f) A (re z) (im z) = Ok p).
Proof. exact arg_acc. Qed.
Print Assumptions C68_arg_fixed.
Example C68_ex : let f := mkFty true 32 28 in accurate_atan2 f (ulp f) (ideal_atan f AtanReal.angle) /\
  cvalid (fity f) (mkC (- 2 ^ 28) 5) /\ exists th, is_angle (fval f 5) (fval f (- 2 ^ 28)) th.
Proof.
  cbv zeta. split; [apply ideal_atan2_ok; reflexivity|]. split; [repeat split; vm_compute; discriminate|].
  eexists. apply AtanReal.angle_spec. right. unfold fval. apply Rmult_integral_contrapositive_currified; [lra|].
  apply Rgt_not_eq. apply bpow_gt_0.
Qed.

(** C49, accuracy of the exponential. *)
Theorem C49_exp_fixed : forall m f, supported f = true -> fsigned f = true -> forall Sn E d b z g dg,
  accurate_sincos f b d Sn -> fvalid f (im z) -> (Rabs (fval f (im z)) <= b)%R ->
  mixed_exp E (re z) = Ok g -> (Rabs (fval f g - exp (fval f (re z))) <= dg)%R ->
  ((1 + d) * (exp (fval f (re z)) + dg) <= fval f (fmax f))%R ->
  exists r, cartesian_exp (fixed_ops m f) Sn E z = Ok r /\
  let B := (exp (fval f (re z)) * d + (1 + d) * dg + ulp f)%R in
  (Rabs (fval f (re r) - exp (fval f (re z)) * Rtrigo_def.cos (fval f (im z))) <= B /\
   Rabs (fval f (im r) - exp (fval f (re z)) * Rtrigo_def.sin (fval f (im z))) <= B)%R.
Proof. exact exp_acc. Qed.
Print Assumptions C49_exp_fixed.
(** e^(0 + i y), with an exponential that is exact at 0 *)
Example C49_fixed_ex : let f := mkFty true 32 22 in let E := Build_MixedExp Z (fun _ => Ok (2 ^ 22)) in
  mixed_exp E 0 = Ok (2 ^ 22) /\ (Rabs (fval f (2 ^ 22) - exp (fval f 0)) <= 0)%R /\
  ((1 + ulp f) * (exp (fval f 0) + 0) <= fval f (fmax f))%R.
Proof.
  cbv zeta. split; [reflexivity|]. unfold fval, ulp. rewrite Rmult_0_l, exp_0. cbn [ffrac]. change (bpow radix2 (- (22))) with (/ IZR 4194304)%R.
  change (2 ^ 22) with 4194304. change (fmax (mkFty true 32 22)) with 2147483647. split; [|lra].
  replace (4194304 * / 4194304 - 1)%R with 0%R by lra. rewrite Rabs_R0. lra.
Qed.

(** C69.  Division by a scalar that converts exactly: both parts truncate towards zero; [/=] agrees. *)
Theorem C69_div_scalar_int : forall m t t1, In t int_types -> In t1 int_types -> forall z s, cvalid t z -> in_range t1 s -> in_range t s -> s <> 0 ->
  let d := cartesian_div_scalar (int_ops m t1) (int_ops m t) (int_conv_int t t1) (int_zero t1) (int_real m t) z s in
  (s = -1 /\ isigned t = true /\ (re z = imin t \/ im z = imin t) -> d = Panic POverflow) /\
  (~ (s = -1 /\ isigned t = true /\ (re z = imin t \/ im z = imin t)) -> d = Ok (mkC (Z.quot (re z) s) (Z.quot (im z) s))) /\
  cartesian_div_assign_scalar (int_ops m t1) (int_ops m t) (int_conv_int t t1) (int_zero t1) (int_real m t) z s = d.
Proof. exact div_scalar_int. Qed.
Print Assumptions C69_div_scalar_int.
Theorem C69_div_scalar_fixed : forall m f t1, supported f = true -> In t1 int_types -> forall z s, cvalid (fity f) z -> in_range t1 s -> s <> 0 ->
  let d := cartesian_div_scalar (int_ops m t1) (fixed_ops m f) (fixed_conv_int m f t1) (int_zero t1) (fixed_real m f) z s in
  (fvalid f (s * 2 ^ ffrac f) ->
    (s = -1 /\ fsigned f = true /\ (re z = fmin f \/ im z = fmin f) -> m = Debug -> d = Panic POverflow) /\
    (~ (s = -1 /\ fsigned f = true /\ (re z = fmin f \/ im z = fmin f)) -> d = Ok (mkC (Z.quot (re z) s) (Z.quot (im z) s)))) /\
  (~ fvalid f (s * 2 ^ ffrac f) -> m = Debug -> d = Panic POverflow) /\
  cartesian_div_assign_scalar (int_ops m t1) (fixed_ops m f) (fixed_conv_int m f t1) (int_zero t1) (fixed_real m f) z s = d.
Proof. exact div_scalar_fixed. Qed.
Print Assumptions C69_div_scalar_fixed.
(** div_scalar_cartesian, polar / real, polar * real, by a scalar of the same fixed format *)
Theorem C69_div_same_fixed : forall f, supported f = true ->
  (forall z b r, b <> 0 -> ops_div_scalar_cartesian (fixed_ops Debug f) (fixed_real Debug f) z b = Ok r ->
     (Rabs (fval f (re r) - fval f (re z) / fval f b) < ulp f /\ Rabs (fval f (im r) - fval f (im z) / fval f b) < ulp f)%R) /\
  (forall p b r, b <> 0 -> polar_div_real (fixed_ops Debug f) (fixed_real Debug f) (fixed_zero Debug f) p b = Ok r ->
     (Rabs (fval f (mag r) - fval f (mag p) / fval f b) < ulp f)%R /\ ang r = ang p) /\
  (forall m p, polar_div_real (fixed_ops m f) (fixed_real m f) (fixed_zero m f) p 0 = Ok (mkP (fmax f) (ang p))) /\
  (forall p b r, polar_mul_real (fixed_ops Debug f) p b = Ok r ->
     (Rabs (fval f (mag r) - fval f (mag p) * fval f b) < ulp f)%R /\ ang r = ang p).
Proof. exact div_same_fixed. Qed.
Print Assumptions C69_div_same_fixed.
Example C69_ex : let f := mkFty true 32 22 in
  cartesian_div_scalar (int_ops Debug i32) (int_ops Debug i32) (int_conv_int i32 i32) (int_zero i32) (int_real Debug i32) (mkC (-7) 9) 2 = Ok (mkC (-3) 4) /\
  ops_div_scalar_cartesian (fixed_ops Debug f) (fixed_real Debug f) (mkC (- 2 ^ 22) (2 ^ 23)) (3 * 2 ^ 22) = Ok (mkC (-1398101) 2796202) /\
  polar_div_real (fixed_ops Debug f) (fixed_real Debug f) (fixed_zero Debug f) (mkP (2 ^ 22) 7) (2 ^ 23) = Ok (mkP (2 ^ 21) 7).
Proof. repeat split; vm_compute; reflexivity. Qed.

(** C70.  Neutral elements and the embedding of the reals. *)
Theorem C70_ident_int : forall m t, In t int_types -> forall z o i, cvalid t z ->
  cartesian_zero (int_zero t) = Ok o -> cartesian_one (int_zero t) (int_one t) = Ok i ->
  let O := int_ops m t in
  cartesian_add O z o = Ok z /\ cartesian_add O o z = Ok z /\ cartesian_sub O z o = Ok z /\ cartesian_sub O z z = Ok o /\
  cartesian_mul O z i = Ok z /\ cartesian_mul O i z = Ok z /\ cartesian_mul O z o = Ok o /\ cartesian_mul O o z = Ok o.
Proof. exact int_ident. Qed.
Print Assumptions C70_ident_int.
Theorem C70_ident_fixed : forall m f, supported f = true -> forall z o i, cvalid (fity f) z ->
  cartesian_zero (fixed_zero m f) = Ok o -> cartesian_one (fixed_zero m f) (fixed_one m f) = Ok i ->
  let O := fixed_ops m f in
  cartesian_add O z o = Ok z /\ cartesian_add O o z = Ok z /\ cartesian_sub O z o = Ok z /\ cartesian_sub O z z = Ok o /\
  cartesian_mul O z i = Ok z /\ cartesian_mul O i z = Ok z /\ cartesian_mul O z o = Ok o /\ cartesian_mul O o z = Ok o.
Proof. exact fixed_ident. Qed.
Print Assumptions C70_ident_fixed.
(** floats: up to the sign of zero parts; multiplication by one needs finite parts (infinity times zero is NaN) *)
Theorem C70_ident_float : forall prec emax {Hp : Prec_gt_0 prec} {He : Prec_lt_emax prec emax}, 24 <= prec ->
  forall (z o i : Cartesian (binary_float prec emax)), cartesian_zero float_zero = Ok o -> cartesian_one float_zero float_one = Ok i ->
  (exists a b c, cartesian_add float_ops z o = Ok a /\ cartesian_add float_ops o z = Ok b /\ cartesian_sub float_ops z o = Ok c /\
   (same_float (re a) (re z) /\ same_float (im a) (im z)) /\ (same_float (re b) (re z) /\ same_float (im b) (im z)) /\
   (same_float (re c) (re z) /\ same_float (im c) (im z))) /\
  (is_finite (re z) = true -> is_finite (im z) = true ->
   exists a b, cartesian_mul float_ops z i = Ok a /\ cartesian_mul float_ops i z = Ok b /\
   (same_float (re a) (re z) /\ same_float (im a) (im z)) /\ (same_float (re b) (re z) /\ same_float (im b) (im z))).
Proof. exact float_ident. Qed.
Print Assumptions C70_ident_float.
Theorem C70_embed_int : forall m t, In t int_types -> forall x y cx cy,
  cartesian_mixed_to_complex (int_zero t) x = Ok cx -> cartesian_mixed_to_complex (int_zero t) y = Ok cy ->
  let O := int_ops m t in let up := fun r => (v <- r ;; cartesian_mixed_to_complex (int_zero t) v) in
  cartesian_add O cx cy = up (o_add O x y) /\ cartesian_sub O cx cy = up (o_sub O x y) /\ cartesian_mul O cx cy = up (o_mul O x y).
Proof. exact int_embed. Qed.
Print Assumptions C70_embed_int.
Theorem C70_embed_fixed : forall m f, supported f = true -> forall x y cx cy,
  cartesian_mixed_to_complex (fixed_zero m f) x = Ok cx -> cartesian_mixed_to_complex (fixed_zero m f) y = Ok cy ->
  let O := fixed_ops m f in let up := fun r => (v <- r ;; cartesian_mixed_to_complex (fixed_zero m f) v) in
  cartesian_add O cx cy = up (o_add O x y) /\ cartesian_sub O cx cy = up (o_sub O x y) /\ cartesian_mul O cx cy = up (o_mul O x y).
Proof. exact fixed_embed. Qed.
Print Assumptions C70_embed_fixed.
Theorem C70_mixed_abs : forall T (O : MixedOps T) Q W (Z0 : MixedZero T),
  (forall z r, cartesian_mixed_abs O Q W Z0 z = Ok r ->
     cartesian_mag O Q W z = Ok (re r) /\ mixed_zero Z0 = Ok (im r) /\
     (g <- cartesian_mag O Q W z ;; cartesian_mixed_to_complex Z0 g) = Ok r) /\
  (forall p r, polar_mixed_abs Z0 p = Ok r ->
     polar_mag r = polar_abs p /\ mixed_zero Z0 = Ok (polar_arg r) /\ polar_mixed_to_complex Z0 (polar_mag p) = Ok r).
Proof. exact abs_all. Qed.
Print Assumptions C70_mixed_abs.
Example C70_ex : let f := mkFty true 32 22 in
  cartesian_one (fixed_zero Debug f) (fixed_one Debug f) = Ok (mkC (2 ^ 22) 0) /\
  cartesian_mul (fixed_ops Debug f) (mkC 5 (-7)) (mkC (2 ^ 22) 0) = Ok (mkC 5 (-7)).
Proof. split; vm_compute; reflexivity. Qed.

(** C121.  A polar number times a Cartesian one: the magnitudes are multiplied, the angles added; the product
    is zero, with angle zero, if a magnitude is or rounds to zero. *)
Theorem C121_polar_times_cartesian : forall m f, supported f = true -> fsigned f = true -> 2 <= ffrac f <= fwidth f - 4 ->
  forall A e p z th, accurate_atan2_at f e A (im z) (re z) -> cvalid (fity f) z -> is_angle (fval f (im z)) (fval f (re z)) th ->
  let rho := sqrt (fval f (re z) * fval f (re z) + fval f (im z) * fval f (im z)) in
  let me := ((/ 1000 + 5 * ulp f) * rho + 3 * ulp f + sqrt (2 * ulp f))%R in
  (rho * rho <= fval f (fmax f))%R -> (Rabs (fval f (mag p)) * (rho + me) <= fval f (fmax f))%R ->
  (Rabs (fval f (ang p) + th) + e <= fval f (fmax f))%R ->
  exists q, returns (fun fuel => polar_mul_cartesian (fixed_ops m f) (fixed_sqrt m f fuel) (fixed_powi m f) A p z) q /\
  (Rabs (fval f (mag q) - fval f (mag p) * rho) <= Rabs (fval f (mag p)) * me + ulp f)%R /\
  (q = mkP 0 0 \/ (Rabs (fval f (ang q) - (fval f (ang p) + th)) <= e)%R).
Proof. exact pmul_cart. Qed.
Print Assumptions C121_polar_times_cartesian.
(** 2 at angle 1, times 3i: magnitude 6 at angle 1 + pi/2, up to the errors of the square root and of an ideal arctangent *)
Example C121_ex : let f := mkFty true 32 16 in accurate_atan2 f (ulp f) (ideal_atan f AtanReal.angle) /\
  cvalid (fity f) (mkC 0 (3 * 2 ^ 16)) /\ is_angle (fval f (3 * 2 ^ 16)) (fval f 0) (PI / 2) /\
  mixed_sqrt (fixed_sqrt Debug f 30) (9 * 2 ^ 16) = Ok 196432.
Proof.
  cbv zeta. split; [apply ideal_atan2_ok; reflexivity|]. split; [repeat split; vm_compute; discriminate|]. split.
  - split; [pose proof PI_RGT_0; lra|]. exists (fval (mkFty true 32 16) (3 * 2 ^ 16)). rewrite cos_PI2, sin_PI2. unfold fval.
    pose proof (bpow_gt_0 radix2 (- ffrac (mkFty true 32 16))). change (3 * 2 ^ 16) with 196608. repeat split; lra.
  - vm_compute. reflexivity.
Qed.
