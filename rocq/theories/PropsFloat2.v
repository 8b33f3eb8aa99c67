(** * Properties C109-C114: loops of float complex arithmetic, rotation by a polar number, far-away angles, order of angles and sines. *)

From Coq Require Import ZArith Reals Lra List.
From Flocq Require Import Core.Core IEEE754.BinarySingleNaN.
From Verif Require Import Base FloatBase Literals Traits Trig IntImpl FixedPrim FixedImpl FloatImpl Complex Spec SpecAngle SpecFloatPolar SpecFilter
  AtanReal FloatPolar FloatFilter FloatMix WrapFar OrderTrig.
Import ListNotations.
Open Scope Z_scope.

Notation finite z := (is_finite (re z) = true /\ is_finite (im z) = true).
(** The loop [for (a, b) in ws { acc = acc + a * b }] *)
Notation mac_loop := (run (fun acc zw => p <- cartesian_mul float_ops (fst zw) (snd zw) ;; cartesian_add float_ops acc p)).
(** The loop [for x in xs { z = z * w + x }] *)
Notation filter_loop w := (run (fun z x => p <- cartesian_mul float_ops z w ;; cartesian_add float_ops p x)).

(** C109.  A sum of products: each part is off by at most (2n+5)u times the sum of the
    magnitudes of its terms, plus an underflow term ([u] half an ulp of one, [n] terms). *)
Theorem C109_mac_float : forall p e {Hp : Prec_gt_0 p} {He : Prec_lt_emax p e}, 4 <= p ->
  forall k, 3 - e <= 2 * k -> 2 * k + 1 < e -> forall (ws : list (Cartesian (binary_float p e) * Cartesian (binary_float p e))) acc,
  Forall (fun zw => finite (fst zw) /\ finite (snd zw) /\
    (Rabs (B2R (re (fst zw))) <= bpow radix2 k /\ Rabs (B2R (im (fst zw))) <= bpow radix2 k /\
     Rabs (B2R (re (snd zw))) <= bpow radix2 k /\ Rabs (B2R (im (snd zw))) <= bpow radix2 k)%R) ws -> finite acc ->
  let u := bpow radix2 (- p) in let eta := bpow radix2 (3 - e - p) in
  let n := INR (length ws) in let sum := fold_right Rplus 0%R in
  let a := fun zw : Cartesian (binary_float p e) * Cartesian (binary_float p e) => B2R (re (fst zw)) in
  let b := fun zw : Cartesian (binary_float p e) * Cartesian (binary_float p e) => B2R (im (fst zw)) in
  let c := fun zw : Cartesian (binary_float p e) * Cartesian (binary_float p e) => B2R (re (snd zw)) in
  let d := fun zw : Cartesian (binary_float p e) * Cartesian (binary_float p e) => B2R (im (snd zw)) in
  let Ar := (Rabs (B2R (re acc)) + sum (map (fun zw => Rabs (a zw * c zw) + Rabs (b zw * d zw)) ws))%R in
  let Ai := (Rabs (B2R (im acc)) + sum (map (fun zw => Rabs (a zw * d zw) + Rabs (b zw * c zw)) ws))%R in
  (n * u <= / 2)%R -> (Ar <= bpow radix2 (e - 4))%R -> (Ai <= bpow radix2 (e - 4))%R ->
  exists r, mac_loop acc ws = Ok r /\ finite r /\
  (Rabs (B2R (re r) - (B2R (re acc) + sum (map (fun zw => a zw * c zw - b zw * d zw) ws))) <= (2 * n + 5) * u * Ar + 4 * n * eta)%R /\
  (Rabs (B2R (im r) - (B2R (im acc) + sum (map (fun zw => a zw * d zw + b zw * c zw) ws))) <= (2 * n + 5) * u * Ai + 4 * n * eta)%R.
Proof. exact @mac_float. Qed.
Print Assumptions C109_mac_float.
(** (1+i)(1-i) + i*i = 1 *)
Example C109_ex : let o := float_of_Z 24 128 1 in let m := float_of_Z 24 128 (-1) in let z := float_of_Z 24 128 0 in
  match mac_loop (mkC z z) [(mkC o o, mkC o m); (mkC z o, mkC z o)] with
  | Ok r => (B2SF (re r), B2SF (im r)) | _ => (SpecFloat.S754_nan, SpecFloat.S754_nan) end = (SpecFloat.S754_finite false 8388608 (-23), SpecFloat.S754_zero false).
Proof. vm_compute. reflexivity. Qed.

(** C110.  A complex one-pole filter z <- z*w + x on floats.  With |w| <= 1 the error grows at
    most linearly; with |w| <= rho < 1 it stays below a bound that does not depend on the
    number of steps, and so does the output. *)
Theorem C110_error_float : forall p e {Hp : Prec_gt_0 p} {He : Prec_lt_emax p e}, 5 <= p ->
  forall k B, 0 <= k -> 2 * k + 1 < e -> (0 <= B <= bpow radix2 k)%R ->
  forall w : Cartesian (binary_float p e), finite w -> (cabs (cvalf w) <= 1)%R -> forall z xs, finite z -> Forall (fun x => finite x) xs ->
  let d := (4 * bpow radix2 (- p) * B + 3 * bpow radix2 (3 - e - p))%R in
  (cabs (cvalf z) + fold_right Rplus 0 (map (fun x => cabs (cvalf x)) xs) + INR (length xs) * d <= B)%R ->
  exists r, filter_loop w z xs = Ok r /\ finite r /\
  (cabs (csub (cvalf r) (fold_left (iir (cvalf w)) (map cvalf xs) (cvalf z))) <= INR (length xs) * d)%R.
Proof. exact @filter_bounded_float. Qed.
Print Assumptions C110_error_float.
Theorem C110_stable_float : forall p e {Hp : Prec_gt_0 p} {He : Prec_lt_emax p e}, 5 <= p ->
  forall k B X rho, 0 <= k -> 2 * k + 1 < e -> (0 <= X)%R -> (B <= bpow radix2 k)%R ->
  forall w : Cartesian (binary_float p e), finite w -> (cabs (cvalf w) <= rho < 1)%R ->
  let d := (4 * bpow radix2 (- p) * (rho * B + X) + 3 * bpow radix2 (3 - e - p))%R in (rho * B + X + d <= B)%R ->
  forall z xs, finite z -> (cabs (cvalf z) <= B)%R -> Forall (fun x => finite x /\ (cabs (cvalf x) <= X)%R) xs ->
  exists r, filter_loop w z xs = Ok r /\ finite r /\ (cabs (cvalf r) <= B)%R /\
  (cabs (csub (cvalf r) (fold_left (iir (cvalf w)) (map cvalf xs) (cvalf z))) <= d / (1 - rho))%R.
Proof. exact @filter_stable_float. Qed.
Print Assumptions C110_stable_float.
(** w = i, eight steps without input: back at the start; the head room condition of the
    second theorem for f32, |w| <= 1/2, |x| <= 1, B = 3 *)
Example C110_ex : let o := float_of_Z 24 128 1 in let z := float_of_Z 24 128 0 in
  match filter_loop (mkC z o) (mkC o z) (repeat (mkC z z) 8) with
  | Ok r => (B2SF (re r), B2SF (im r)) | _ => (SpecFloat.S754_nan, SpecFloat.S754_nan) end = (SpecFloat.S754_finite false 8388608 (-23), SpecFloat.S754_zero false).
Proof. vm_compute. reflexivity. Qed.
Example C110_stable_ex : (/ 2 * 3 + 1 + (4 * bpow radix2 (- 24) * (/ 2 * 3 + 1) + 3 * bpow radix2 (3 - 128 - 24)) <= 3)%R.
Proof.
  assert (bpow radix2 (3 - 128 - 24) <= bpow radix2 (-24))%R by (apply bpow_le; discriminate).
  change (bpow radix2 (- (24))) with (/ 16777216)%R in *. change (bpow radix2 (-24)) with (/ 16777216)%R in *. lra.
Qed.

(** C111.  Cartesian times polar rotates by the angle and scales by the magnitude; [Sn] is the
    sine/cosine routine, accurate to [d]. *)
Theorem C111_cartesian_mul_polar_f32 : forall Sn d, accurate_sincos_float 4 d Sn -> (0 <= d <= 1)%R -> forall (z : Cartesian f32) (q : Polar f32),
  is_finite (re z) = true -> is_finite (im z) = true -> is_finite (mag q) = true -> is_finite (ang q) = true ->
  let g := B2R (mag q) in let a := B2R (ang q) in let x := B2R (re z) in let y := B2R (im z) in
  let u := bpow radix2 (-24) in let eta := bpow radix2 (-149) in
  let B := (Rabs g * (d + (a * a / 3 + Rabs a + 1 + d) * u) + eta)%R in
  (Rabs a < bpow radix2 24)%R -> (Rabs x <= bpow radix2 62)%R -> (Rabs y <= bpow radix2 62)%R -> (Rabs g + B <= bpow radix2 62)%R ->
  exists r, returns (fun fuel => cartesian_mul_polar float_ops (float_wrap_phase fuel) Sn z q) r /\ is_finite (re r) = true /\ is_finite (im r) = true /\
  let E := ((Rabs x + Rabs y) * (B + 9 / 4 * u * (Rabs g + B)) + 2 * eta)%R in
  (Rabs (B2R (re r) - (x * (g * Rtrigo_def.cos a) - y * (g * Rtrigo_def.sin a))) <= E)%R /\
  (Rabs (B2R (im r) - (x * (g * Rtrigo_def.sin a) + y * (g * Rtrigo_def.cos a))) <= E)%R.
Proof. exact cp_f32. Qed.
Print Assumptions C111_cartesian_mul_polar_f32.
Theorem C111_cartesian_mul_polar_f64 : forall Sn d, accurate_sincos_float 4 d Sn -> (0 <= d <= 1)%R -> forall (z : Cartesian f64) (q : Polar f64),
  is_finite (re z) = true -> is_finite (im z) = true -> is_finite (mag q) = true -> is_finite (ang q) = true ->
  let g := B2R (mag q) in let a := B2R (ang q) in let x := B2R (re z) in let y := B2R (im z) in
  let u := bpow radix2 (-53) in let eta := bpow radix2 (-1074) in
  let B := (Rabs g * (d + (a * a / 3 + Rabs a + 1 + d) * u) + eta)%R in
  (Rabs a < bpow radix2 53)%R -> (Rabs x <= bpow radix2 510)%R -> (Rabs y <= bpow radix2 510)%R -> (Rabs g + B <= bpow radix2 510)%R ->
  exists r, returns (fun fuel => cartesian_mul_polar float_ops (float_wrap_phase fuel) Sn z q) r /\ is_finite (re r) = true /\ is_finite (im r) = true /\
  let E := ((Rabs x + Rabs y) * (B + 9 / 4 * u * (Rabs g + B)) + 2 * eta)%R in
  (Rabs (B2R (re r) - (x * (g * Rtrigo_def.cos a) - y * (g * Rtrigo_def.sin a))) <= E)%R /\
  (Rabs (B2R (im r) - (x * (g * Rtrigo_def.sin a) + y * (g * Rtrigo_def.cos a))) <= E)%R.
Proof. exact cp_f64. Qed.
Print Assumptions C111_cartesian_mul_polar_f64.
(** Such a routine exists; and with exact values at angle 0, (1 + 2i) * 3 = 3 + 6i. *)
Example C111_ex : accurate_sincos_float 4 (8 * bpow radix2 (-24)) (ideal_sin_float : MixedSin f32) /\
  let n := float_of_Z 24 128 in
  match cartesian_mul_polar float_ops (float_wrap_phase 3)
    {| mixed_sin := fun _ => Ok (n 0); mixed_asin := fun _ => Ok (n 0); mixed_sincos := fun _ => Ok (n 0, n 1) |}
    (mkC (n 1) (n 2)) (mkP (n 3) (n 0)) with
  | Ok r => (B2SF (re r), B2SF (im r)) | _ => (SpecFloat.S754_nan, SpecFloat.S754_nan) end = (B2SF (n 3), B2SF (n 6)).
Proof. split; [exact (@ideal_sin_ok 24 128 _ _ ltac:(discriminate) ltac:(reflexivity) 4) | vm_compute; reflexivity]. Qed.

(** C112.  "Wrapping a float angle keeps its direction, to 0.01 rad": false for f32 angles up to
    2^16, where the rounding of each subtracted turn adds up to more than 2.4 rad ... *)
Theorem C112_far_f32_refuted : exists (phi r : f32), is_finite phi = true /\ (Rabs (B2R phi) <= bpow radix2 16)%R /\
  returns (fun fuel => mixed_wrap_phase (float_wrap_phase fuel) phi) r /\ forall k, (24 / 10 <= Rabs (B2R r - (B2R phi - IZR k * (2 * PI))))%R.
Proof. exact far32_off. Qed.
Print Assumptions C112_far_f32_refuted.
(** ... true up to 700 (f32) and 16 million (f64). *)
Theorem C112_near_f32_partial : forall phi : f32, is_finite phi = true -> (Rabs (B2R phi) <= 700)%R -> exists (r : f32) k,
  returns (fun fuel => mixed_wrap_phase (float_wrap_phase fuel) phi) r /\ (Rabs (B2R r - (B2R phi - IZR k * (2 * PI))) <= / 100)%R.
Proof. exact near_f32. Qed.
Print Assumptions C112_near_f32_partial.
Theorem C112_near_f64_partial : forall phi : f64, is_finite phi = true -> (Rabs (B2R phi) <= 16000000)%R -> exists (r : f64) k,
  returns (fun fuel => mixed_wrap_phase (float_wrap_phase fuel) phi) r /\ (Rabs (B2R r - (B2R phi - IZR k * (2 * PI))) <= / 100)%R.
Proof. exact near_f64. Qed.
Print Assumptions C112_near_f64_partial.
(** 699 rad wraps to 1.56636... (exactly 699 - 222 pi = 1.56643...) *)
Example C112_ex : map_res B2SF (mixed_wrap_phase (float_wrap_phase 200) (float_of_Z 24 128 699)) = Ok (SpecFloat.S754_finite false 13139576 (-23)).
Proof. vm_compute. reflexivity. Qed.

(** C113.  The polynomial arctangent keeps the order of angles up to rounding. *)
Theorem C113_atan2_order_fixed : forall m f, supported f = true -> fsigned f = true -> forall y1 x1 y2 x2 a b,
  let M1 := Rmax (Rabs (fval f x1)) (Rabs (fval f y1)) in let M2 := Rmax (Rabs (fval f x2)) (Rabs (fval f y2)) in
  (16 * ulp f <= M1 * M1 -> 3 / 2 * (M1 * M1) <= fval f (fmax f) -> 16 * ulp f <= M2 * M2 -> 3 / 2 * (M2 * M2) <= fval f (fmax f) ->
  is_angle (fval f y1) (fval f x1) a -> is_angle (fval f y2) (fval f x2) b -> a <= b ->
  exists r s, fixed_atan2_poly m f y1 x1 = Ok r /\ fixed_atan2_poly m f y2 x2 = Ok s /\
  fval f r <= fval f s + (6 + 5 / (M1 * M1) + 5 / (M2 * M2)) * ulp f + 2 / 1000000000000000)%R.
Proof. exact atan_order_fixed. Qed.
Print Assumptions C113_atan2_order_fixed.
Theorem C113_atan2_order_float :
  ((forall (y1 x1 y2 x2 : f32) a b, let M1 := Rmax (Rabs (B2R x1)) (Rabs (B2R y1)) in let M2 := Rmax (Rabs (B2R x2)) (Rabs (B2R y2)) in
   is_finite y1 = true -> is_finite x1 = true -> is_finite y2 = true -> is_finite x2 = true ->
   bpow radix2 (-61) <= M1 <= bpow radix2 61 -> bpow radix2 (-61) <= M2 <= bpow radix2 61 ->
   is_angle (B2R y1) (B2R x1) a -> is_angle (B2R y2) (B2R x2) b -> a <= b ->
   exists r s, float_atan2_poly y1 x1 = Ok r /\ float_atan2_poly y2 x2 = Ok s /\ is_finite r = true /\ is_finite s = true /\ B2R r <= B2R s + 36 * bpow radix2 (-24)) /\
  (forall (y1 x1 y2 x2 : f64) a b, let M1 := Rmax (Rabs (B2R x1)) (Rabs (B2R y1)) in let M2 := Rmax (Rabs (B2R x2)) (Rabs (B2R y2)) in
   is_finite y1 = true -> is_finite x1 = true -> is_finite y2 = true -> is_finite x2 = true ->
   bpow radix2 (-509) <= M1 <= bpow radix2 509 -> bpow radix2 (-509) <= M2 <= bpow radix2 509 ->
   is_angle (B2R y1) (B2R x1) a -> is_angle (B2R y2) (B2R x2) b -> a <= b ->
   exists r s, float_atan2_poly y1 x1 = Ok r /\ float_atan2_poly y2 x2 = Ok s /\ is_finite r = true /\ is_finite s = true /\ B2R r <= B2R s + 36 * bpow radix2 (-53)))%R.
Proof. exact atan_order_float. Qed.
Print Assumptions C113_atan2_order_float.
(** just below the diagonal, on it, just above it: the angles of (y, x) = (255, 256), (256, 256),
    (257, 256) in 16 fractional bits; the polynomial jumps by 0.0098 over the diagonal *)
Example C113_ex : let f := mkFty true 64 16 in let s := 65536 in
  fixed_atan2_poly Debug f (255 * s) (256 * s) = Ok 51037 /\ fixed_atan2_poly Debug f (256 * s) (256 * s) = Ok 51793 /\ fixed_atan2_poly Debug f (257 * s) (256 * s) = Ok 51905.
Proof. repeat split; vm_compute; reflexivity. Qed.

(** C114.  The sine rises between -pi/2 and pi/2 and falls elsewhere, up to rounding. *)
Theorem C114_sin_order_fixed : forall m f, supported f = true -> fsigned f = true -> ffrac f <= fwidth f - 20 -> forall x y,
  (- PI <= fval f x -> fval f x <= fval f y -> fval f y <= PI -> exists r s,
  sin (fixed_ops m f) (fixed_signed m f) (fixed_pi m f) (fixed_powi m f) x = Ok r /\
  sin (fixed_ops m f) (fixed_signed m f) (fixed_pi m f) (fixed_powi m f) y = Ok s /\
  (- (PI / 2) <= fval f x -> fval f y <= PI / 2 -> fval f r <= fval f s + 81 / 10 * ulp f) /\
  (PI / 2 <= fval f x \/ fval f y <= - (PI / 2) -> fval f s <= fval f r + 81 / 10 * ulp f))%R.
Proof. exact sin_order_fixed. Qed.
Print Assumptions C114_sin_order_fixed.
Theorem C114_sin_order_float :
  ((forall x y : f32, is_finite x = true -> is_finite y = true -> - PI <= B2R x -> B2R x <= B2R y -> B2R y <= PI -> exists r s,
   sin float_ops float_signed float_pi float_powi x = Ok r /\ sin float_ops float_signed float_pi float_powi y = Ok s /\ is_finite r = true /\ is_finite s = true /\
   (- (PI / 2) <= B2R x -> B2R y <= PI / 2 -> B2R r <= B2R s + 19 * bpow radix2 (-24)) /\
   (PI / 2 <= B2R x \/ B2R y <= - (PI / 2) -> B2R s <= B2R r + 19 * bpow radix2 (-24))) /\
  (forall x y : f64, is_finite x = true -> is_finite y = true -> - PI <= B2R x -> B2R x <= B2R y -> B2R y <= PI -> exists r s,
   sin float_ops float_signed float_pi float_powi x = Ok r /\ sin float_ops float_signed float_pi float_powi y = Ok s /\ is_finite r = true /\ is_finite s = true /\
   (- (PI / 2) <= B2R x -> B2R y <= PI / 2 -> B2R r <= B2R s + 19 * bpow radix2 (-53)) /\
   (PI / 2 <= B2R x \/ B2R y <= - (PI / 2) -> B2R s <= B2R r + 19 * bpow radix2 (-53))))%R.
Proof. exact sin_order_float. Qed.
Print Assumptions C114_sin_order_float.
(** sines of 1, 1.5, 2, 3 in 12 fractional bits *)
Example C114_ex : let f := mkFty true 32 12 in map (sin (fixed_ops Debug f) (fixed_signed Debug f) (fixed_pi Debug f) (fixed_powi Debug f)) [4096; 6144; 8192; 12288]
  = [Ok 3448; Ok 4086; Ok 3725; Ok 579].
Proof. vm_compute. reflexivity. Qed.
