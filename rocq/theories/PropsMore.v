(** * Properties C24 (debug), C33, C35, C94-C99: large coordinates, powers, accumulated sums and products, spellings. *)

From Coq Require Import ZArith Reals List.
From Flocq Require Import Core.Core IEEE754.BinarySingleNaN.
From Verif Require Import Base FloatBase Literals Traits Trig IntImpl FixedPrim FixedImpl FloatImpl Complex Spec SpecAngle
  AtanOver PowFixed PowFloat FloatSum ProdProofs DivFixed SpellProofs.
Import ListNotations.
Open Scope Z_scope.

(** C24, every debug result: no assumption that the squares fit, only that the call returned. *)
Theorem C24_atan2_debug : forall f, supported f = true -> fsigned f = true -> forall y x th r, fvalid f y -> fvalid f x ->
  let M := Rmax (Rabs (fval f x)) (Rabs (fval f y)) in
  (16 * ulp f <= M * M -> is_angle (fval f y) (fval f x) th -> fixed_atan2_poly Debug f y x = Ok r ->
   Rabs (fval f r - th) <= 492 / 100000 + (3 + 5 / (M * M)) * ulp f)%R.
Proof. exact c24_debug. Qed.
Print Assumptions C24_atan2_debug.
(** (y, x) = (1, 2.5) in FixedI32<U28>: 6.25 + 0.28 fits below 8 although 3/2 * 6.25 does not *)
Example C24_debug_ex : fixed_atan2_poly Debug (mkFty true 32 28) (2 ^ 28) (5 * 2 ^ 27) = Ok 102750413 /\
  (3 / 2 * (5 / 2 * (5 / 2)) > 8)%R.
Proof. split; [vm_compute; reflexivity|]. Lra.lra. Qed.

(** C94 is false: in every signed format the point (1, 2^(I-1) - 1), I the number of integer bits,
    makes a debug build panic and a release build return an angle more than one radian too large. *)
Theorem C94_large_refuted : forall f, supported f = true -> fsigned f = true ->
  let y := fone f in let x := 2 ^ (fwidth f - 1) - fone f in fvalid f y /\ fvalid f x /\ fval f y = 1%R /\
  fixed_atan2_poly Debug f y x = Panic POverflow /\
  exists r th, is_angle (fval f y) (fval f x) th /\ fixed_atan2_poly Release f y x = Ok r /\ (1 < fval f r - th)%R.
Proof. exact c94_large. Qed.
Print Assumptions C94_large_refuted.
(** Exactly when a debug build returns.  [u] is the coordinate of larger magnitude, [den] the
    denominator u^2 + 0.28125 v^2 in units of the last place.  Missing: the property itself where it is false. *)
Theorem C94_debug_iff_partial : forall f, supported f = true -> fsigned f = true -> exists c, (Rabs (IZR c - 9 / 32 * IZR (fone f)) <= / 2)%R /\
  forall y x, fvalid f y -> fvalid f x ->
  let u := if Z.abs y <? Z.abs x then x else y in let v := if Z.abs y <? Z.abs x then y else x in
  let den := u * u / fone f + c * (v * v / fone f) / fone f in
  (y = fmin f \/ x = fmin f -> fixed_atan2_poly Debug f y x = Panic POverflow) /\
  (y <> fmin f -> x <> fmin f -> y = 0 \/ x = 0 -> exists r, fixed_atan2_poly Debug f y x = Ok r) /\
  (y <> fmin f -> x <> fmin f -> y <> 0 -> x <> 0 ->
    (u * u < fone f -> fixed_atan2_poly Debug f y x = Panic PDivZero) /\
    (fone f <= u * u -> den <= fmax f -> exists r, fixed_atan2_poly Debug f y x = Ok r) /\
    (fmax f < den -> fixed_atan2_poly Debug f y x = Panic POverflow)).
Proof. exact c94_debug. Qed.
Print Assumptions C94_debug_iff_partial.
(** (y, x) = (1, 7), (1, 3) and (1, 2) in FixedI32<U28> *)
Example C94_ex : let f := mkFty true 32 28 in supported f = true /\ fvalid f (7 * 2 ^ 28) /\
  fixed_atan2_poly Debug f (2 ^ 28) (7 * 2 ^ 28) = Panic POverflow /\ fixed_atan2_poly Release f (2 ^ 28) (7 * 2 ^ 28) = Ok 1466574198 /\
  fixed_atan2_poly Debug f (2 ^ 28) (3 * 2 ^ 28) = Panic POverflow /\ fixed_atan2_poly Debug f (2 ^ 28) (2 * 2 ^ 28) = Ok 125400504.
Proof. repeat split; vm_compute; congruence. Qed.

(** C95.  [X] the base, [M] the larger of its magnitude and one. *)
Theorem C95_powi_fixed : forall f, supported f = true -> forall x n, fvalid f x -> 1 <= n < 2 ^ 31 ->
  let X := fval f x in let M := Rmax 1 (Rabs X) in
  let err := (IZR (n - 1) * M ^ Z.to_nat (n - 2) * ulp f)%R in
  (forall r, mixed_powi (fixed_powi Debug f) x n = Ok r -> (Rabs (fval f r - X ^ Z.to_nat n) <= err)%R) /\
  ((M ^ Z.to_nat n + err <= fval f (fmax f))%R -> exists r, fvalid f r /\ forall m, mixed_powi (fixed_powi m f) x n = Ok r) /\
  ((fval f (fmax f) + ulp f + err < Rabs (X ^ Z.to_nat n))%R -> mixed_powi (fixed_powi Debug f) x n = Panic POverflow).
Proof. exact pow_fixed. Qed.
Print Assumptions C95_powi_fixed.
(** 1.5^7 = 17.0859375 in FixedI32<U22>; 1.5^20 = 3325 does not fit *)
Example C95_ex : let f := mkFty true 32 22 in mixed_powi (fixed_powi Debug f) (3 * 2 ^ 21) 7 = Ok (2187 * 2 ^ 15) /\
  mixed_powi (fixed_powi Debug f) (3 * 2 ^ 21) 20 = Panic POverflow /\ mixed_powi (fixed_powi Debug f) 4613735 9 = Ok 9889956.
Proof. repeat split; vm_compute; reflexivity. Qed.

(** C96.  [u] is the unit roundoff; both the base and the power stay inside the normal range. *)
Theorem C96_powi_float : forall p e {Hp : Prec_gt_0 p} {He : Prec_lt_emax p e}, 3 <= e ->
  let u := bpow radix2 (- p) in let inside v := (bpow radix2 (3 - e) <= Rabs v <= bpow radix2 (e - 2))%R in
  forall (x : binary_float p e) n, is_finite x = true -> 1 <= n < 2 ^ 31 -> inside (B2R x) -> inside (B2R x ^ Z.to_nat n)%R ->
  (IZR (n - 1) * u <= / 2)%R -> exists r, mixed_powi float_powi x n = Ok r /\ is_finite r = true /\
  (Rabs (B2R r - B2R x ^ Z.to_nat n) <= 2 * (IZR (n - 1) * u) * Rabs (B2R x ^ Z.to_nat n))%R.
Proof. exact @powi_acc_pos. Qed.
Print Assumptions C96_powi_float.
Theorem C96_powi_neg_float : forall p e {Hp : Prec_gt_0 p} {He : Prec_lt_emax p e}, 3 <= e ->
  let u := bpow radix2 (- p) in let inside v := (bpow radix2 (3 - e) <= Rabs v <= bpow radix2 (e - 2))%R in
  forall (x : binary_float p e) n, is_finite x = true -> 1 <= n <= 2 ^ 31 -> inside (/ B2R x)%R -> inside (/ B2R x ^ Z.to_nat n)%R ->
  (IZR (2 * n - 1) * u <= / 2)%R -> exists r, mixed_powi float_powi x (- n) = Ok r /\ is_finite r = true /\
  (Rabs (B2R r - / B2R x ^ Z.to_nat n) <= 2 * (IZR (2 * n - 1) * u) * Rabs (/ B2R x ^ Z.to_nat n))%R.
Proof. exact @powi_acc_neg. Qed.
Print Assumptions C96_powi_neg_float.
(** 3^17 = 129140163 needs 27 bits, f32 rounds it; 3^-2 in f64 *)
Example C96_ex : match mixed_powi float_powi (float_of_Z 24 128 3) 17 with
  | Ok r => B2SF r = SpecFloat.S754_finite false 16142520 3 | _ => False end /\
  match mixed_powi float_powi (float_of_Z 53 1024 3) (-2) with
  | Ok r => B2SF r = SpecFloat.S754_finite false 8006399337547548 (-56) | _ => False end.
Proof. split; vm_compute; reflexivity. Qed.

(** C97.  [ar], [ai] are the sums of the magnitudes of the real and imaginary parts. *)
Theorem C97_sum_float : forall p e {Hp : Prec_gt_0 p} {He : Prec_lt_emax p e}, 3 <= e -> forall (ws : list (Cartesian (binary_float p e))) z,
  (forall w, In w (z :: ws) -> is_finite (re w) = true /\ is_finite (im w) = true) ->
  let u := bpow radix2 (- p) in let sum := fold_right Rplus 0%R in
  let n := INR (length ws) in
  let ar := sum (map (fun w => Rabs (B2R (re w))) (z :: ws)) in let ai := sum (map (fun w => Rabs (B2R (im w))) (z :: ws)) in
  (n * u <= / 2)%R -> (ar <= bpow radix2 (e - 2))%R -> (ai <= bpow radix2 (e - 2))%R ->
  exists r, run (cartesian_add float_ops) z ws = Ok r /\ is_finite (re r) = true /\ is_finite (im r) = true /\
  (Rabs (B2R (re r) - sum (map (fun w => B2R (re w)) (z :: ws))) <= 2 * (n * u) * ar)%R /\
  (Rabs (B2R (im r) - sum (map (fun w => B2R (im w)) (z :: ws))) <= 2 * (n * u) * ai)%R.
Proof. exact @sum_float. Qed.
Print Assumptions C97_sum_float.
(** 2^24 + 1 + 1 (real parts) in f32: each 1 is lost *)
Example C97_ex : match run (cartesian_add float_ops) (mkC (float_of_Z 24 128 16777216) (float_of_Z 24 128 2))
    [mkC (float_of_Z 24 128 1) (float_of_Z 24 128 3); mkC (float_of_Z 24 128 1) (float_of_Z 24 128 4)] with
  | Ok r => B2SF (re r) = B2SF (float_of_Z 24 128 16777216) /\ B2SF (im r) = B2SF (float_of_Z 24 128 9) | _ => False end.
Proof. split; vm_compute; reflexivity. Qed.

(** C33, exactly when a debug product returns: the four partial products and the two sums must fit. *)
Theorem C33_mul_int_debug : forall t z w,
  let ac := re z * re w in let bd := im z * im w in let ad := re z * im w in let bc := im z * re w in
  cartesian_mul (int_ops Debug t) z w =
    if forallb (in_rangeb t) [ac; bd; ad; bc; ac - bd; ad + bc] then Ok (mkC (ac - bd) (ad + bc)) else Panic POverflow.
Proof. exact mul_int_debug. Qed.
Print Assumptions C33_mul_int_debug.
Theorem C33_mul_fixed_debug : forall f z w,
  let mul a b := a * b / fone f in
  let ac := mul (re z) (re w) in let bd := mul (im z) (im w) in let ad := mul (re z) (im w) in let bc := mul (im z) (re w) in
  cartesian_mul (fixed_ops Debug f) z w =
    if forallb (in_rangeb (fity f)) [ac; bd; ad; bc; ac - bd; ad + bc] then Ok (mkC (ac - bd) (ad + bc)) else Panic POverflow.
Proof. exact mul_fixed_debug. Qed.
Print Assumptions C33_mul_fixed_debug.
(** (10+10i)(10+10i) = 200i in i8 overflows, (8+6i)(8-6i) = 100 does not *)
Example C33_debug_ex : cartesian_mul (int_ops Debug i8) (mkC 10 10) (mkC 10 10) = Panic POverflow /\
  cartesian_mul (int_ops Debug i8) (mkC 8 6) (mkC 8 (-6)) = Ok (mkC 100 0).
Proof. split; vm_compute; reflexivity. Qed.

(** C98.  [acc = acc + z * w] over a list of pairs; [er], [ei] the exact parts, [ar], [ai] sums of magnitudes. *)
Theorem C98_mac_fixed : forall f, supported f = true -> forall ws acc,
  let mac m := run (fun acc zw => p <- cartesian_mul (fixed_ops m f) (fst zw) (snd zw) ;; cartesian_add (fixed_ops m f) acc p) acc ws in
  let n := INR (length ws) in let v := fval f in
  let er := (v (re acc) + fold_right Rplus 0 (map (fun zw => v (re (fst zw)) * v (re (snd zw)) - v (im (fst zw)) * v (im (snd zw))) ws))%R in
  let ei := (v (im acc) + fold_right Rplus 0 (map (fun zw => v (re (fst zw)) * v (im (snd zw)) + v (im (fst zw)) * v (re (snd zw))) ws))%R in
  let ar := (Rabs (v (re acc)) + fold_right Rplus 0 (map (fun zw => Rabs (v (re (fst zw)) * v (re (snd zw))) + Rabs (v (im (fst zw)) * v (im (snd zw)))) ws))%R in
  let ai := (Rabs (v (im acc)) + fold_right Rplus 0 (map (fun zw => Rabs (v (re (fst zw)) * v (im (snd zw))) + Rabs (v (im (fst zw)) * v (re (snd zw)))) ws))%R in
  (forall r, mac Debug = Ok r -> (Rabs (v (re r) - er) <= n * ulp f)%R /\ (- (2 * n) * ulp f <= v (im r) - ei <= 0)%R /\ mac Release = Ok r) /\
  (fsigned f = true -> (ar + n * ulp f <= v (fmax f))%R -> (ai + 2 * n * ulp f <= v (fmax f))%R -> exists r, mac Debug = Ok r).
Proof. exact mac_fixed. Qed.
Print Assumptions C98_mac_fixed.
Example C98_ex : run (fun acc zw => p <- cartesian_mul (fixed_ops Debug (mkFty true 16 8)) (fst zw) (snd zw) ;; cartesian_add (fixed_ops Debug (mkFty true 16 8)) acc p)
  (mkC 0 0) [(mkC 300 (-200), mkC 100 50); (mkC 77 33, mkC (-501) 12)] = Ok (mkC 5 (-83)).
Proof. vm_compute. reflexivity. Qed.

(** C35, fixed point: division by c + di is division by c + ci, with this accuracy. *)
Theorem C35_div_fixed_partial : forall f, supported f = true -> forall z w r, cvalid (fity f) z -> cvalid (fity f) w ->
  let a := fval f (re z) in let b := fval f (im z) in let c := fval f (re w) in
  (2 * ulp f <= c * c)%R -> cartesian_div (fixed_ops Debug f) (fixed_powi Debug f) z w = Ok r ->
  let x := ((a + b) / (2 * c))%R in let y := ((b - a) / (2 * c))%R in
  (Rabs (fval f (re r) - x) <= ulp f + 2 * ulp f * (1 + Rabs x) / (c * c))%R /\
  (Rabs (fval f (im r) - y) <= ulp f + 2 * ulp f * (1 + Rabs y) / (c * c))%R /\
  cartesian_div (fixed_ops Release f) (fixed_powi Release f) z w = Ok r.
Proof. exact div_fixed_value. Qed.
Print Assumptions C35_div_fixed_partial.
(** (6 + 2i)/(3 + 3i) = 4/3 - 2i/3 *)
Example C35_fixed_ex : cartesian_div (fixed_ops Debug (mkFty true 32 22)) (fixed_powi Debug (mkFty true 32 22)) (mkC (6 * 2 ^ 22) (2 * 2 ^ 22)) (mkC (3 * 2 ^ 22) (3 * 2 ^ 22))
  = Ok (mkC 5592405 (-2796202)).
Proof. vm_compute. reflexivity. Qed.

(** C99. *)
Theorem C99_spellings : forall T (O : MixedOps T),
  (forall z w, ops_add O z w = cartesian_add O z w /\ ops_sub O z w = cartesian_sub O z w /\ ops_mul_cartesian O z w = cartesian_mul O z w) /\
  (forall p q, ops_mul_polar O p q = polar_mul O p q) /\
  (forall Wr Sn (m a : T) (p : Polar T), cartesian_new_from_polar O Wr Sn m a = polar_to_cartesian O Wr Sn (polar_new_from_polar m a) /\
     polar_mag (polar_new_from_polar m a) = m /\ polar_abs (polar_new_from_polar m a) = m /\ polar_arg (polar_new_from_polar m a) = a /\ polar_ang (polar_new_from_polar m a) = a /\
     polar_to_polar p = p /\ polar_new_from_polar (polar_mag p) (polar_ang p) = p) /\
  (forall Q W A z, polar_new_from_cartesian O Q W A (re z) (im z) = cartesian_to_polar O Q W A z /\ cartesian_to_cartesian z = z) /\
  (forall S Q W A z, cartesian_conj_polar O S Q W A z = (c <- cartesian_conj S z ;; cartesian_to_polar O Q W A c)) /\
  (forall S Wr Sn p, polar_conj_cartesian O S Wr Sn p = (c <- polar_conj S p ;; polar_to_cartesian O Wr Sn c)) /\
  (forall Wr Sn z p, cartesian_mul_polar O Wr Sn z p = (w <- polar_to_cartesian O Wr Sn p ;; cartesian_mul O z w) /\
     cartesian_mul_assign_polar O Wr Sn z p = cartesian_mul_polar O Wr Sn z p) /\
  (forall Q W A p z, polar_mul_cartesian O Q W A p z = (q <- cartesian_to_polar O Q W A z ;; polar_mul O p q)).
Proof. exact spell_generic. Qed.
Print Assumptions C99_spellings.
Theorem C99_polar_eq : forall m t O, word_arith m t O -> forall p q, polar_eq O p q = true <-> p = q.
Proof. exact spell_eq. Qed.
Print Assumptions C99_polar_eq.
Theorem C99_div_int : forall m t, In t int_types -> forall z b, in_range t b ->
  cartesian_div_scalar (int_ops m t) (int_ops m t) (int_conv_int t t) (int_zero t) (int_real m t) z b = ops_div_scalar_cartesian (int_ops m t) (int_real m t) z b.
Proof. exact spell_div_int. Qed.
Print Assumptions C99_div_int.
Example C99_ex : polar_eq (int_ops Debug i32) (mkP 1 2) (mkP 1 3) = false /\ ops_div_scalar_cartesian (int_ops Debug i8) (int_real Debug i8) (mkC 100 (-7)) 3 = Ok (mkC 33 (-2)) /\
  ops_div_scalar_cartesian (int_ops Debug i8) (int_real Debug i8) (mkC 100 (-7)) 0 = Ok (mkC 127 127).
Proof. repeat split; vm_compute; reflexivity. Qed.
