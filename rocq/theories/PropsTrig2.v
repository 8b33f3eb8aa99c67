(** * Properties C73 (the remaining formats), C88-C91: identities of the polynomial sine and cosine, polar products. *)

From Coq Require Import ZArith Reals.
From Flocq Require Import Core.Core IEEE754.BinarySingleNaN.
From Verif Require Import Base FloatBase Literals Traits Trig FixedPrim FixedImpl FloatImpl Complex Spec SpecAngle SpecPolar SpecFloatPolar
  SinRelease SinRelease8 CosRelease TrigMore PolarMul SinRel.
Open Scope Z_scope.

Notation fixed_sin m f := (Trig.sin (fixed_ops m f) (fixed_signed m f) (fixed_pi m f) (fixed_powi m f)).
Notation fixed_cos m f := (Trig.cos (fixed_ops m f) (fixed_signed m f) (fixed_pi m f) (fixed_powi m f)).
Notation flt_sin := (Trig.sin float_ops float_signed float_pi float_powi).
Notation flt_cos := (Trig.cos float_ops float_signed float_pi float_powi).

(** C73 is false with 16 to 19 integer bits too, by a smaller margin: 9! wraps to -30336, 100736 or -161408. *)
Theorem C73_release_sin_16_refuted : forall f, fsigned f = true -> fwidth f = 64 -> 16 <= fwidth f - ffrac f <= 19 ->
  exists p x r, mixed_pi (fixed_pi Release f) = Ok p /\ fvalid f x /\ (0 <= fval f x <= fval f p)%R /\ fixed_sin Release f x = Ok r /\
  (4 / 10000 < Rabs (fval f r - Rtrigo_def.sin (fval f x)))%R.
Proof. exact sin_release_wrong2. Qed.
Print Assumptions C73_release_sin_16_refuted.
(** How wrong the silently returned value can be with 14 to 19 integer bits. *)
Theorem C73_release_sin_partial : forall f, supported f = true -> fsigned f = true -> 14 <= fwidth f - ffrac f <= 19 ->
  exists p, mixed_pi (fixed_pi Release f) = Ok p /\ forall x, (Rabs (fval f x) <= fval f p)%R -> exists r, fixed_sin Release f x = Ok r /\
  (Rabs (fval f r - Rtrigo_def.sin (fval f x)) <=
   (if fwidth f - ffrac f <=? 15 then 24 / 1000 else if fwidth f - ffrac f <=? 17 then 21 / 10000 else 53 / 100000) + 72 / 10 * ulp f)%R.
Proof. exact sin_release_near. Qed.
Print Assumptions C73_release_sin_partial.
(** ... and with 8 to 13, where 7! wraps as well. *)
Theorem C73_release_sin_8_partial : forall f, supported f = true -> fsigned f = true -> 8 <= fwidth f - ffrac f <= 13 ->
  exists p, mixed_pi (fixed_pi Release f) = Ok p /\ forall x, (Rabs (fval f x) <= fval f p)%R -> exists r, fixed_sin Release f x = Ok r /\
  let i := fwidth f - ffrac f in
  (Rabs (fval f r - Rtrigo_def.sin (fval f x)) <=
   (if i <=? 9 then 158 / 1000 else if i =? 10 then 453 / 1000 else if i =? 11 then 132 / 1000 else if i =? 12 then 56 / 1000 else 37 / 1000) + 10 * ulp f)%R.
Proof. exact sin_release_near8. Qed.
Print Assumptions C73_release_sin_8_partial.
(** These bounds are nearly attained in every 32- and 64-bit format. *)
Theorem C73_release_sin_8_refuted : forall f, fsigned f = true -> fwidth f = 32 \/ fwidth f = 64 -> 8 <= fwidth f - ffrac f <= 13 ->
  exists p x r, mixed_pi (fixed_pi Release f) = Ok p /\ fvalid f x /\ (0 <= fval f x <= fval f p)%R /\ fixed_sin Release f x = Ok r /\
  let i := fwidth f - ffrac f in
  (IZR (if i <=? 9 then 155 else if i =? 10 then 450 else if i =? 11 then 130 else if i =? 12 then 54 else 35) / 1000 - / 10000
   <= Rabs (fval f r - Rtrigo_def.sin (fval f x)))%R.
Proof. exact sin_release_wrong8. Qed.
Print Assumptions C73_release_sin_8_refuted.
(** The cosine inherits the deviation ... *)
Theorem C73_release_cos_partial : forall f, supported f = true -> fsigned f = true -> 8 <= fwidth f - ffrac f <= 19 ->
  exists p, mixed_pi (fixed_pi Release f) = Ok p /\ forall x, fvalid f x -> (fval f x + fval f p / 2 <= fval f (fmax f))%R ->
  exists r, returns (fun fuel => fixed_cos Release f fuel x) r /\ let i := fwidth f - ffrac f in
  (Rabs (fval f r - Rtrigo_def.cos (fval f x)) <=
   (if i <=? 13
    then (if i <=? 9 then 158 / 1000 else if i =? 10 then 453 / 1000 else if i =? 11 then 132 / 1000 else if i =? 12 then 56 / 1000 else 37 / 1000)
    else (if i <=? 15 then 24 / 1000 else if i <=? 17 then 21 / 10000 else 53 / 100000)) +
   (12 + Rabs (fval f x) / 5) * ulp f + (3 + Rabs (fval f x) / 2) / 1000000000000000)%R.
Proof. exact cos_release_near. Qed.
Print Assumptions C73_release_cos_partial.
(** ... and attains it at zero: a release build says cos(0) = 1.451 in FixedI32<U22> and FixedI64<U54>. *)
Theorem C73_release_cos_zero_refuted : forall f, fsigned f = true -> fwidth f = 32 \/ fwidth f = 64 -> 8 <= fwidth f - ffrac f <= 17 ->
  exists r, returns (fun fuel => fixed_cos Release f fuel 0) r /\ let i := fwidth f - ffrac f in
  let c := if i <=? 9 then 844 else if i =? 10 then 1451 else if i =? 11 then 1131 else if i =? 12 then 944 else if i =? 13 then 1035 else if i <=? 15 then 1023 else 997 in
  (IZR c / 1000 <= fval f r <= (IZR c + 1) / 1000)%R.
Proof. exact cos_zero_wrong. Qed.
Print Assumptions C73_release_cos_zero_refuted.
Example C73_ex2 : supported (mkFty true 64 48) = true /\ exists r, fixed_sin Release (mkFty true 64 48) 442139859501777 = Ok r.
Proof. split; [reflexivity|]. eexists. vm_compute. reflexivity. Qed.

(** C88.  sin^2 + cos^2 = 1. *)
Theorem C88_pythagoras_fixed : forall m f, supported f = true -> fsigned f = true -> ffrac f <= fwidth f - 20 ->
  exists p, mixed_pi (fixed_pi m f) = Ok p /\ forall x, (Rabs (fval f x) <= fval f p)%R -> exists s c,
  fixed_sin m f x = Ok s /\ returns (fun fuel => fixed_cos m f fuel x) c /\
  let e := (5 / 1000000 + 7 * ulp f)%R in
  (Rabs (fval f s * fval f s + fval f c * fval f c - 1) <= 4 * e + 2 * e * e)%R.
Proof. exact pyth_fixed. Qed.
Print Assumptions C88_pythagoras_fixed.
Theorem C88_pythagoras_f32 : exists p : f32, mixed_pi float_pi = Ok p /\ forall x : f32, is_finite x = true -> (Rabs (B2R x) <= B2R p)%R -> exists s c : f32,
  flt_sin x = Ok s /\ (forall fuel, (2 <= fuel)%nat -> flt_cos fuel x = Ok c) /\ (Rabs (B2R s * B2R s + B2R c * B2R c - 1) <= 21 / 1000000)%R.
Proof. exact pyth_f32. Qed.
Print Assumptions C88_pythagoras_f32.
Theorem C88_pythagoras_f64 : exists p : f64, mixed_pi float_pi = Ok p /\ forall x : f64, is_finite x = true -> (Rabs (B2R x) <= B2R p)%R -> exists s c : f64,
  flt_sin x = Ok s /\ (forall fuel, (2 <= fuel)%nat -> flt_cos fuel x = Ok c) /\ (Rabs (B2R s * B2R s + B2R c * B2R c - 1) <= 21 / 1000000)%R.
Proof. exact pyth_f64. Qed.
Print Assumptions C88_pythagoras_f64.
(** FixedI64<U32>, the angle one: s^2 + c^2 differs from 1 by less than 3e-6 *)
Example C88_ex : let f := mkFty true 64 32 in supported f = true /\ exists s c,
  fixed_sin Debug f (2 ^ 32) = Ok s /\ fixed_cos Debug f 3 (2 ^ 32) = Ok c /\ Z.abs (s * s + c * c - 2 ^ 64) * 300000 < 2 ^ 64.
Proof. cbv zeta. split; [reflexivity|]. eexists. eexists. split; [vm_compute; reflexivity|]. split; [vm_compute; reflexivity|]. vm_compute. reflexivity. Qed.

(** C89.  The product of two numbers in polar form, converted, is the product of the two complex numbers. *)
Theorem C89_polar_product_fixed : forall m f, supported f = true -> fsigned f = true -> ffrac f <= fwidth f - 4 ->
  forall p, mixed_pi (fixed_pi m f) = Ok p -> forall Sn d, accurate_sincos f (fval f p) d Sn ->
  forall q1 q2, let g := fval f (mag q1) in let h := fval f (mag q2) in let a := fval f (ang q1) in let b := fval f (ang q2) in
  ((Rabs (g * h) + ulp f) * (1 + d) <= fval f (fmax f))%R -> (Rabs (a + b) <= fval f (fmax f))%R ->
  exists z, returns (fun fuel => q <- polar_mul (fixed_ops m f) q1 q2 ;; polar_to_cartesian (fixed_ops m f) (fixed_wrap_phase m f fuel) Sn q) z /\
  let B := ((Rabs (g * h) + ulp f) * (d + (Rabs (a + b) / 6 + / 2) * (ulp f + 2 / 1000000000000000)) + 2 * ulp f)%R in
  (Rabs (fval f (re z) - (g * Rtrigo_def.cos a * (h * Rtrigo_def.cos b) - g * Rtrigo_def.sin a * (h * Rtrigo_def.sin b))) <= B)%R /\
  (Rabs (fval f (im z) - (g * Rtrigo_def.cos a * (h * Rtrigo_def.sin b) + g * Rtrigo_def.sin a * (h * Rtrigo_def.cos b))) <= B)%R.
Proof. exact polar_mul_fixed. Qed.
Print Assumptions C89_polar_product_fixed.
Theorem C89_polar_product_f32 : forall Sn d, accurate_sincos_float 4 d Sn -> (0 <= d <= 1)%R -> forall q1 q2 : Polar f32,
  is_finite (mag q1) = true -> is_finite (ang q1) = true -> is_finite (mag q2) = true -> is_finite (ang q2) = true ->
  let g := B2R (mag q1) in let h := B2R (mag q2) in let a := B2R (ang q1) in let b := B2R (ang q2) in
  (Rabs (g * h) <= bpow radix2 125)%R -> (Rabs (a + b) <= 119 / 10)%R ->
  exists z, returns (fun fuel => q <- polar_mul float_ops q1 q2 ;; polar_to_cartesian float_ops (float_wrap_phase fuel) Sn q) z /\ is_finite (re z) = true /\ is_finite (im z) = true /\
  let B := (Rabs (g * h) * (d + 31 * bpow radix2 (-24)) + 4 * bpow radix2 (-149))%R in
  (Rabs (B2R (re z) - (g * Rtrigo_def.cos a * (h * Rtrigo_def.cos b) - g * Rtrigo_def.sin a * (h * Rtrigo_def.sin b))) <= B)%R /\
  (Rabs (B2R (im z) - (g * Rtrigo_def.cos a * (h * Rtrigo_def.sin b) + g * Rtrigo_def.sin a * (h * Rtrigo_def.cos b))) <= B)%R.
Proof. exact polar_mul_f32. Qed.
Print Assumptions C89_polar_product_f32.
Theorem C89_polar_product_f64 : forall Sn d, accurate_sincos_float 4 d Sn -> (0 <= d <= 1)%R -> forall q1 q2 : Polar f64,
  is_finite (mag q1) = true -> is_finite (ang q1) = true -> is_finite (mag q2) = true -> is_finite (ang q2) = true ->
  let g := B2R (mag q1) in let h := B2R (mag q2) in let a := B2R (ang q1) in let b := B2R (ang q2) in
  (Rabs (g * h) <= bpow radix2 1021)%R -> (Rabs (a + b) <= 119 / 10)%R ->
  exists z, returns (fun fuel => q <- polar_mul float_ops q1 q2 ;; polar_to_cartesian float_ops (float_wrap_phase fuel) Sn q) z /\ is_finite (re z) = true /\ is_finite (im z) = true /\
  let B := (Rabs (g * h) * (d + 31 * bpow radix2 (-53)) + 4 * bpow radix2 (-1074))%R in
  (Rabs (B2R (re z) - (g * Rtrigo_def.cos a * (h * Rtrigo_def.cos b) - g * Rtrigo_def.sin a * (h * Rtrigo_def.sin b))) <= B)%R /\
  (Rabs (B2R (im z) - (g * Rtrigo_def.cos a * (h * Rtrigo_def.sin b) + g * Rtrigo_def.sin a * (h * Rtrigo_def.cos b))) <= B)%R.
Proof. exact polar_mul_f64. Qed.
Print Assumptions C89_polar_product_f64.
(** the product of 3 at angle 2 and 5 at angle -1/2 is 15 at angle 3/2; a routine meeting the hypothesis exists (C63_ex_routines, C86_ex32) *)
Example C89_ex : polar_mul (fixed_ops Debug (mkFty true 32 22)) (mkP (3 * 2 ^ 22) (2 * 2 ^ 22)) (mkP (5 * 2 ^ 22) (- 2 ^ 21)) = Ok (mkP (15 * 2 ^ 22) (3 * 2 ^ 21)).
Proof. vm_compute. reflexivity. Qed.

(** C90.  sin (pi - x) = sin x exactly, on all signed fixed formats, in both profiles, also when the result is a panic;
    pi/2 is the type's constant halved, rounded down. *)
Theorem C90_reflect_fixed : forall m f, supported f = true -> fsigned f = true -> forall p, mixed_pi (fixed_pi m f) = Ok p -> forall x y,
  0 <= y <= x /\ x + y = 2 * (p / 2) \/ x <= y <= 0 /\ x + y = - (2 * (p / 2)) -> fixed_sin m f x = fixed_sin m f y.
Proof. exact reflect_fixed_all. Qed.
Print Assumptions C90_reflect_fixed.
Theorem C90_cos_even_fixed : forall m f, supported f = true -> fsigned f = true -> m = Release \/ ffrac f <= fwidth f - 4 ->
  forall p, mixed_pi (fixed_pi m f) = Ok p -> forall x, Z.abs x <= p / 2 -> exists n0, forall n, (n0 <= n)%nat ->
  fixed_cos m f n (- x) = fixed_cos m f n x.
Proof. exact cos_even_all. Qed.
Print Assumptions C90_cos_even_fixed.
Theorem C90_reflect_f32 : forall x y p : f32, mixed_pi float_pi = Ok p -> is_finite x = true -> is_finite y = true ->
  (0 < B2R y <= B2R x)%R -> (B2R x + B2R y = B2R p)%R -> flt_sin x = flt_sin y.
Proof. exact reflect_f32. Qed.
Print Assumptions C90_reflect_f32.
Theorem C90_reflect_f64 : forall x y p : f64, mixed_pi float_pi = Ok p -> is_finite x = true -> is_finite y = true ->
  (0 < B2R y <= B2R x)%R -> (B2R x + B2R y = B2R p)%R -> flt_sin x = flt_sin y.
Proof. exact reflect_f64. Qed.
Print Assumptions C90_reflect_f64.
(** FixedI64<U32>: pi is 13493037705, twice its half 13493037704; y = 2^32, x + y = 13493037704 *)
Example C90_ex : let f := mkFty true 64 32 in mixed_pi (fixed_pi Debug f) = Ok 13493037705 /\
  fixed_sin Debug f (13493037704 - 2 ^ 32) = Ok 3614090467 /\ fixed_sin Debug f (2 ^ 32) = Ok 3614090467 /\
  fixed_cos Debug f 3 (- 2 ^ 32) = fixed_cos Debug f 3 (2 ^ 32).
Proof. repeat split; vm_compute; reflexivity. Qed.

(** C91.  The sign of the sine is right everywhere on [-pi, pi], it is zero exactly at 0 and +-2(pi/2), and it is odd up to 5 ulps. *)
Theorem C91_sin_sign : forall m f, supported f = true -> fsigned f = true -> ffrac f <= fwidth f - 20 ->
  forall p, mixed_pi (fixed_pi m f) = Ok p -> let h := p / 2 in forall x, Z.abs x <= 2 * h -> exists r, fixed_sin m f x = Ok r /\
  (0 < x < 2 * h -> 0 < r) /\ (- (2 * h) < x < 0 -> r < 0) /\ (x = 0 \/ Z.abs x = 2 * h -> r = 0).
Proof. exact sin_sign_all. Qed.
Print Assumptions C91_sin_sign.
Theorem C91_sin_odd : forall m f, supported f = true -> fsigned f = true -> ffrac f <= fwidth f - 20 ->
  forall p, mixed_pi (fixed_pi m f) = Ok p -> forall x, Z.abs x <= p -> exists r r',
  fixed_sin m f x = Ok r /\ fixed_sin m f (- x) = Ok r' /\ Z.abs (r + r') <= 5.
Proof. exact sin_odd_all. Qed.
Print Assumptions C91_sin_odd.
(** the smallest positive value has a positive sine *)
Example C91_ex : let f := mkFty true 64 32 in fixed_sin Debug f 1 = Ok 1 /\ fixed_sin Debug f (- 1) = Ok (- 1) /\
  fixed_sin Debug f 3000000000 = Ok 2761936792 /\ fixed_sin Debug f (- 3000000000) = Ok (- 2761936792).
Proof. repeat split; vm_compute; reflexivity. Qed.

(** C93.  [d] is the distance to the nearest zero of the sine, 0 or +-p, where p is the type's pi. *)
Theorem C93_sin_rel_f32 : exists p : f32, mixed_pi float_pi = Ok p /\ forall x : f32, is_finite x = true -> (Rabs (B2R x) <= B2R p)%R ->
  let d := Rmin (Rabs (B2R x)) (B2R p - Rabs (B2R x)) in exists r, flt_sin x = Ok r /\ is_finite r = true /\
  (Rabs (Rabs (B2R r) - Rtrigo_def.sin d) <= d ^ 11 / 39916800 + 6 * (bpow radix2 (-24) * d))%R /\
  (0 < B2R x < B2R p -> 0 < B2R r)%R /\ (- B2R p < B2R x < 0 -> B2R r < 0)%R /\
  (B2R x = 0 \/ Rabs (B2R x) = B2R p -> B2R r = 0)%R /\
  ((Rabs (B2R x) < bpow radix2 (-60))%R -> B2R r = B2R x).
Proof. exact sin_rel_f32. Qed.
Print Assumptions C93_sin_rel_f32.
Theorem C93_sin_rel_f64 : exists p : f64, mixed_pi float_pi = Ok p /\ forall x : f64, is_finite x = true -> (Rabs (B2R x) <= B2R p)%R ->
  let d := Rmin (Rabs (B2R x)) (B2R p - Rabs (B2R x)) in exists r, flt_sin x = Ok r /\ is_finite r = true /\
  (Rabs (Rabs (B2R r) - Rtrigo_def.sin d) <= d ^ 11 / 39916800 + 6 * (bpow radix2 (-53) * d))%R /\
  (0 < B2R x < B2R p -> 0 < B2R r)%R /\ (- B2R p < B2R x < 0 -> B2R r < 0)%R /\
  (B2R x = 0 \/ Rabs (B2R x) = B2R p -> B2R r = 0)%R /\
  ((Rabs (B2R x) < bpow radix2 (-60))%R -> B2R r = B2R x).
Proof. exact sin_rel_f64. Qed.
Print Assumptions C93_sin_rel_f64.
(** one ulp below pi the sine is exactly that ulp, 2^-22; at 2^-100 it is the argument *)
Example C93_ex : map_res B2SF (flt_sin (float_of_scaled 24 128 13176794 (-22))) = Ok (SpecFloat.S754_finite false 8388608 (-45)) /\
  map_res B2SF (flt_sin (float_of_scaled 24 128 (-1) (-100))) = Ok (SpecFloat.S754_finite true 8388608 (-123)).
Proof. split; vm_compute; reflexivity. Qed.
