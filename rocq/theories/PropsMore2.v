(** * Properties C100-C104: cosine of any angle, products with the conjugate and with i, distributivity, the first guess of the root. *)

From Coq Require Import ZArith NArith Reals List Bool.
From Flocq Require Import Core.Core IEEE754.BinarySingleNaN.
From Verif Require Import Base FloatBase Literals Traits Trig IntImpl FixedPrim FixedImpl FloatImpl Complex Spec
  CosLarge CosFar RotProofs NiirfGuess.
Import ListNotations.
Open Scope Z_scope.

(** C100 is false: the documentation says that the argument of [cos] is wrapped inside the
    function, but the wrapping loop never ends for large angles and infinities. *)
Theorem C100_cos_f32_refuted : forall x : f32,
  (exists s, x = B754_infinity s) \/ (is_finite x = true /\ (bpow radix2 28 <= Rabs (B2R x))%R) ->
  diverges (fun fuel => Trig.cos float_ops float_signed float_pi float_powi fuel x).
Proof. exact cos_diverges_f32. Qed.
Print Assumptions C100_cos_f32_refuted.
Theorem C100_cos_f64_refuted : forall x : f64,
  (exists s, x = B754_infinity s) \/ (is_finite x = true /\ (bpow radix2 57 <= Rabs (B2R x))%R) ->
  diverges (fun fuel => Trig.cos float_ops float_signed float_pi float_powi fuel x).
Proof. exact cos_diverges_f64. Qed.
Print Assumptions C100_cos_f64_refuted.
(** The accuracy for moderate angles.  Missing: the angles of the refutation, and those between
    2^22 and 2^28 (2^51 and 2^57), where one unit in the last place is a sizeable part of a turn. *)
Theorem C100_cos_f32_partial : forall x : f32, is_finite x = true -> (Rabs (B2R x) <= bpow radix2 22)%R -> exists r : f32,
  returns (fun fuel => Trig.cos float_ops float_signed float_pi float_powi fuel x) r /\ is_finite r = true /\
  (Rabs (B2R r - Rtrigo_def.cos (B2R x)) <= 5 / 1000000 + ((Rabs (B2R x) + 2) ^ 2 / 3 + 2 * Rabs (B2R x) + 5) * bpow radix2 (-24))%R.
Proof. exact cos_large_f32. Qed.
Print Assumptions C100_cos_f32_partial.
Theorem C100_cos_f64_partial : forall x : f64, is_finite x = true -> (Rabs (B2R x) <= bpow radix2 51)%R -> exists r : f64,
  returns (fun fuel => Trig.cos float_ops float_signed float_pi float_powi fuel x) r /\ is_finite r = true /\
  (Rabs (B2R r - Rtrigo_def.cos (B2R x)) <= 5 / 1000000 + ((Rabs (B2R x) + 2) ^ 2 / 3 + 2 * Rabs (B2R x) + 5) * bpow radix2 (-53))%R.
Proof. exact cos_large_f64. Qed.
Print Assumptions C100_cos_f64_partial.
(** Whenever it returns for a finite angle, the result is finite and at most 1.000005 ... *)
Theorem C100_cos_bounded_f32_partial : forall fuel (x r : f32), is_finite x = true -> Trig.cos float_ops float_signed float_pi float_powi fuel x = Ok r ->
  is_finite r = true /\ (Rabs (B2R r) <= 1 + 5 / 1000000)%R.
Proof. exact cos_bounded_f32. Qed.
Print Assumptions C100_cos_bounded_f32_partial.
Theorem C100_cos_bounded_f64_partial : forall fuel (x r : f64), is_finite x = true -> Trig.cos float_ops float_signed float_pi float_powi fuel x = Ok r ->
  is_finite r = true /\ (Rabs (B2R r) <= 1 + 5 / 1000000)%R.
Proof. exact cos_bounded_f64. Qed.
Print Assumptions C100_cos_bounded_f64_partial.
(** ... but it need not be the cosine: cos(42000.0) in f32 is above 0.94, the cosine of 42000 is below -0.99. *)
Theorem C100_cos_far_f32_refuted : exists (x r : f32), is_finite x = true /\ (Rabs (B2R x) <= bpow radix2 16)%R /\
  returns (fun fuel => Trig.cos float_ops float_signed float_pi float_powi fuel x) r /\ (94 / 100 <= B2R r)%R /\ (Rtrigo_def.cos (B2R x) <= - (99 / 100))%R.
Proof. exact cos_far_off. Qed.
Print Assumptions C100_cos_far_f32_refuted.
(** Exactly when it returns: [y] is the argument shifted by half of pi, as computed. *)
Theorem C100_cos_iff_f32_partial : forall x h : f32, (p <- mixed_pi float_pi ;; two <- o_of_i32 float_ops 2 ;; o_div float_ops p two) = Ok h ->
  let y := Bplus mode_NE x h in let C := fun fuel => Trig.cos float_ops float_signed float_pi float_powi fuel x in
  ((exists r, returns C r) <-> y = B754_nan \/ (is_finite y = true /\ (Rabs (B2R y) <= bpow radix2 27)%R)) /\
  (diverges C <-> (exists s, y = B754_infinity s) \/ (is_finite y = true /\ (bpow radix2 27 < Rabs (B2R y))%R)).
Proof. exact cos_iff_f32. Qed.
Print Assumptions C100_cos_iff_f32_partial.
Theorem C100_cos_iff_f64_partial : forall x h : f64, (p <- mixed_pi float_pi ;; two <- o_of_i32 float_ops 2 ;; o_div float_ops p two) = Ok h ->
  let y := Bplus mode_NE x h in let C := fun fuel => Trig.cos float_ops float_signed float_pi float_powi fuel x in
  ((exists r, returns C r) <-> y = B754_nan \/ (is_finite y = true /\ (Rabs (B2R y) <= bpow radix2 56)%R)) /\
  (diverges C <-> (exists s, y = B754_infinity s) \/ (is_finite y = true /\ (bpow radix2 56 < Rabs (B2R y))%R)).
Proof. exact cos_iff_f64. Qed.
Print Assumptions C100_cos_iff_f64_partial.
(** cos(100.0) in f64: 0.862318... *)
Example C100_ex : exists r, map_res B2SF (Trig.cos float_ops float_signed float_pi float_powi 100 (float_of_Z 53 1024 100)) = Ok (SpecFloat.S754_finite false r (-53)) /\
  (862313 * 2 ^ 53 < Z.pos r * 1000000 < 862325 * 2 ^ 53)%Z.
Proof. eexists. split; [vm_compute; reflexivity | split; vm_compute; reflexivity]. Qed.

(** C101 on integers: the product of z and its conjugate is |z|^2. *)
Theorem C101_norm_int : forall t, In t int_types -> isigned t = true -> forall z, cvalid t z ->
  let N := fun m => (c <- cartesian_conj (int_signed m t) z ;; cartesian_mul (int_ops m t) z c) in
  (forall r, N Debug = Ok r -> re r = re z * re z + im z * im z /\ im r = 0) /\
  N Release = Ok (mkC (wrap t (re z * re z + im z * im z)) 0).
Proof. exact norm_int_all. Qed.
Print Assumptions C101_norm_int.
(** C101 is false on fixed types: the product is not real, in every signed format with a fraction bit. *)
Theorem C101_norm_fixed_refuted : forall m f, supported f = true -> fsigned f = true -> 1 <= ffrac f ->
  (c <- cartesian_conj (fixed_signed m f) (mkC 1 1) ;; cartesian_mul (fixed_ops m f) (mkC 1 1) c) = Ok (mkC 1 (-1)).
Proof. exact norm_fixed_bad. Qed.
Print Assumptions C101_norm_fixed_refuted.
(** The imaginary part is zero or minus one unit in the last place, and exactly when.  Missing: a
    real product for all arguments, which is false. *)
Theorem C101_norm_fixed_partial : forall f, supported f = true -> fsigned f = true -> forall z r,
  (c <- cartesian_conj (fixed_signed Debug f) z ;; cartesian_mul (fixed_ops Debug f) z c) = Ok r ->
  let a := fval f (re z) in let b := fval f (im z) in
  (Rabs (fval f (re r) - (a * a + b * b)) < ulp f)%R /\
  im r = (if re z * im z mod fone f =? 0 then 0 else -1).
Proof. exact norm_fixed_all. Qed.
Print Assumptions C101_norm_fixed_partial.
Theorem C101_norm_float : forall prec emax {Hp : Prec_gt_0 prec} {He : Prec_lt_emax prec emax} (z : Cartesian (binary_float prec emax)), exists r,
  (c <- cartesian_conj float_signed z ;; cartesian_mul float_ops z c) = Ok r /\
  re r = Bplus mode_NE (Bmult mode_NE (re z) (re z)) (Bmult mode_NE (im z) (im z)) /\
  (is_finite (Bmult mode_NE (re z) (im z)) = true -> im r = B754_zero false).
Proof. exact @norm_float_all. Qed.
Print Assumptions C101_norm_float.
Theorem C101_conj_mul_fixed : forall f, supported f = true -> fsigned f = true -> forall z w cz cw zw p,
  cartesian_conj (fixed_signed Debug f) z = Ok cz -> cartesian_conj (fixed_signed Debug f) w = Ok cw ->
  cartesian_mul (fixed_ops Debug f) z w = Ok zw -> cartesian_mul (fixed_ops Debug f) cz cw = Ok p ->
  re p = re zw /\ - im zw - 2 <= im p <= - im zw.
Proof. exact conj_mul_fixed. Qed.
Print Assumptions C101_conj_mul_fixed.
(** 1.5 + 0.3i in FixedI16<U8>; both bounds of the last theorem are attained *)
Example C101_ex : let f := mkFty true 16 8 in
  (c <- cartesian_conj (fixed_signed Debug f) (mkC 384 77) ;; cartesian_mul (fixed_ops Debug f) (mkC 384 77) c) = Ok (mkC 600 (-1)) /\
  (c <- cartesian_conj (fixed_signed Debug f) (mkC 384 76) ;; cartesian_mul (fixed_ops Debug f) (mkC 384 76) c) = Ok (mkC 599 0) /\
  cartesian_mul (fixed_ops Debug f) (mkC 1 1) (mkC 1 1) = Ok (mkC 0 0) /\
  cartesian_mul (fixed_ops Debug f) (mkC 1 (-1)) (mkC 1 (-1)) = Ok (mkC 0 (-2)) /\
  (c <- cartesian_conj (int_signed Debug i16) (mkC 3 4) ;; cartesian_mul (int_ops Debug i16) (mkC 3 4) c) = Ok (mkC 25 0).
Proof. repeat split; vm_compute; reflexivity. Qed.

(** C102.  Multiplication by i is a quarter turn. *)
Theorem C102_rot_int : forall m t, In t int_types -> isigned t = true -> forall z e o, cvalid t z ->
  mixed_zero (int_zero t) = Ok e -> mixed_one (int_one t) = Ok o ->
  cartesian_mul (int_ops m t) z (mkC e o) =
    if im z =? imin t then match m with Debug => Panic POverflow | Release => Ok (mkC (imin t) (re z)) end else Ok (mkC (- im z) (re z)).
Proof. exact rot_int. Qed.
Print Assumptions C102_rot_int.
Theorem C102_rot_fixed : forall m f, supported f = true -> fsigned f = true -> forall z e o, cvalid (fity f) z ->
  mixed_zero (fixed_zero m f) = Ok e -> mixed_one (fixed_one m f) = Ok o -> let t := fity f in
  cartesian_mul (fixed_ops m f) z (mkC e o) =
    if im z =? imin t then match m with Debug => Panic POverflow | Release => Ok (mkC (imin t) (re z)) end else Ok (mkC (- im z) (re z)).
Proof. exact rot_fixed. Qed.
Print Assumptions C102_rot_fixed.
Theorem C102_rot_float : forall prec emax {Hp : Prec_gt_0 prec} {He : Prec_lt_emax prec emax}, 24 <= prec ->
  forall (z i : Cartesian (binary_float prec emax)) e o, mixed_zero float_zero = Ok e -> mixed_one float_one = Ok o -> i = mkC e o ->
  is_finite (re z) = true -> is_finite (im z) = true -> exists r, cartesian_mul float_ops z i = Ok r /\
  same_float (re r) (Bopp (im z)) /\ same_float (im r) (re z).
Proof. exact @rot_float. Qed.
Print Assumptions C102_rot_float.
(** four quarter turns *)
Theorem C102_rot4_int : forall m t, In t int_types -> isigned t = true -> forall z e o, cvalid t z ->
  mixed_zero (int_zero t) = Ok e -> mixed_one (int_one t) = Ok o ->
  let i := mkC e o in let M := fun z => cartesian_mul (int_ops m t) z i in
  (a <- M z ;; b <- M a ;; c <- M b ;; M c) =
    if (re z =? imin t) || (im z =? imin t) then match m with Debug => Panic POverflow | Release => Ok z end else Ok z.
Proof. exact rot4_int. Qed.
Print Assumptions C102_rot4_int.
Theorem C102_rot4_fixed : forall m f, supported f = true -> fsigned f = true -> forall z e o, cvalid (fity f) z ->
  mixed_zero (fixed_zero m f) = Ok e -> mixed_one (fixed_one m f) = Ok o ->
  let i := mkC e o in let M := fun z => cartesian_mul (fixed_ops m f) z i in let t := fity f in
  (a <- M z ;; b <- M a ;; c <- M b ;; M c) =
    if (re z =? imin t) || (im z =? imin t) then match m with Debug => Panic POverflow | Release => Ok z end else Ok z.
Proof. exact rot4_fixed. Qed.
Print Assumptions C102_rot4_fixed.
Example C102_ex : let f := mkFty true 16 8 in
  (e <- mixed_zero (fixed_zero Debug f) ;; o <- mixed_one (fixed_one Debug f) ;; cartesian_mul (fixed_ops Debug f) (mkC 384 77) (mkC e o)) = Ok (mkC (-77) 384) /\
  (e <- mixed_zero (fixed_zero Debug f) ;; o <- mixed_one (fixed_one Debug f) ;; cartesian_mul (fixed_ops Debug f) (mkC 1 (-32768)) (mkC e o)) = Panic POverflow.
Proof. split; vm_compute; reflexivity. Qed.

(** C103.  Distributivity on fixed types, up to units in the last place. *)
Theorem C103_distr_fixed : forall f, supported f = true -> forall x y z s l p q r,
  cartesian_add (fixed_ops Debug f) y z = Ok s -> cartesian_mul (fixed_ops Debug f) x s = Ok l ->
  cartesian_mul (fixed_ops Debug f) x y = Ok p -> cartesian_mul (fixed_ops Debug f) x z = Ok q -> cartesian_add (fixed_ops Debug f) p q = Ok r ->
  Z.abs (re l - re r) <= 1 /\ 0 <= im l - im r <= 2.
Proof. exact distr_fixed. Qed.
Print Assumptions C103_distr_fixed.
(** two units are attained: x = (1 + i)/16, y = z = (1 + i)/32 *)
Example C103_ex : let f := mkFty true 16 8 in let x := mkC 16 16 in let y := mkC 8 8 in
  (s <- cartesian_add (fixed_ops Debug f) y y ;; cartesian_mul (fixed_ops Debug f) x s) = Ok (mkC 0 2) /\
  (p <- cartesian_mul (fixed_ops Debug f) x y ;; cartesian_add (fixed_ops Debug f) p p) = Ok (mkC 0 0).
Proof. split; vm_compute; reflexivity. Qed.

(** C104.  With zero or one iterations the square root is the first guess. *)
Theorem C104_guess : forall m f, supported f = true -> fsigned f = true -> 2 <= ffrac f ->
  forall it, (it <= 1)%N -> forall x, (/ 4 <= fval f x < 1)%R -> exists r,
  returns (fun fuel => niirf (fixed_ops m f) (fixed_zero m f) (fixed_abs m f) (fixed_powi m f) m fuel x it) r /\
  (Rabs (fval f r - R_sqrt.sqrt (fval f x)) <= 20835 / 1000000 + 3 / 2 * ulp f)%R.
Proof. exact sqrt_guess. Qed.
Print Assumptions C104_guess.
Theorem C104_guess_sharp : forall m f, supported f = true -> fsigned f = true -> 11 <= ffrac f ->
  forall it, (it <= 1)%N -> exists x r, fval f x = (1 / 4)%R /\
  returns (fun fuel => niirf (fixed_ops m f) (fixed_zero m f) (fixed_abs m f) (fixed_powi m f) m fuel x it) r /\
  (2 / 100 < fval f r - R_sqrt.sqrt (fval f x))%R.
Proof. exact sqrt_guess_bad. Qed.
Print Assumptions C104_guess_sharp.
(** the guess at 1/2 in FixedI32<U28>: 0.6875 instead of 0.7071 *)
Example C104_ex : let f := mkFty true 32 28 in
  niirf (fixed_ops Debug f) (fixed_zero Debug f) (fixed_abs Debug f) (fixed_powi Debug f) Debug 9 (2 ^ 27) 1 = Ok 184549465 /\
  niirf (fixed_ops Debug f) (fixed_zero Debug f) (fixed_abs Debug f) (fixed_powi Debug f) Debug 9 (2 ^ 27) 0 = Ok 184549465.
Proof. split; vm_compute; reflexivity. Qed.
