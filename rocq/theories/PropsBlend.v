(** * Properties C132 to C135: averages, interpolation and smoothing, written with the crate's operators. *)

From Coq Require Import ZArith Reals List Lia.
From Flocq Require Import Core.Core IEEE754.BinarySingleNaN.
From Verif Require Import Base FloatBase Traits FixedPrim FixedImpl FloatImpl Spec SpecBlend BlendProofs BlendFloat BlendExamples.
Import ListNotations.
Open Scope Z_scope.

Notation flt p e := (binary_float p e).
Notation u p := (bpow radix2 (- p)).
Notation eta p e := (bpow radix2 (3 - e - p)).

(** C132, fixed point.  The average of samples whose partial sums (and whose number) the type can hold never panics, is the exact
    average cut off towards zero, and lies between the least and the greatest sample. *)
Theorem C132_average_fixed : forall m f, supported f = true -> forall l, l <> [] -> (forall k, fvalid f (sumZ (firstn k l))) -> fvalid f (Z.of_nat (length l) * fone f) ->
  let n := Z.of_nat (length l) in
  exists r, mean (fixed_ops m f) 0 l = Ok r /\ r = Z.quot (sumZ l) n /\ (forall lo hi, (forall x, In x l -> lo <= x <= hi) -> lo <= r <= hi) /\
  (Rabs (fval f r - fval f (sumZ l) / IZR n) < ulp f)%R.
Proof. exact mean_all. Qed.
Print Assumptions C132_average_fixed.
Theorem C132_average_same : forall m f, supported f = true -> forall x n, (0 < n)%nat -> fvalid f x -> fvalid f (Z.of_nat n * x) -> fvalid f (Z.of_nat n * fone f) ->
  mean (fixed_ops m f) 0 (repeat x n) = Ok x.
Proof. exact mean_const. Qed.
Print Assumptions C132_average_same.
Theorem C132_average_float : forall p e {Hp : Prec_gt_0 p} {He : Prec_lt_emax p e}, 24 <= p -> 128 <= e ->
  forall l : list (flt p e), l <> [] -> (forall x, In x l -> is_finite x = true) -> Z.of_nat (length l) < 2 ^ (p - 2) ->
  let n := INR (length l) in let A := sumR (map (fun x => Rabs (B2R x)) l) in (A <= bpow radix2 (e - 2))%R ->
  exists r, mean float_ops (B754_zero false) l = Ok r /\ is_finite r = true /\
  (Rabs (B2R r - sumR (map B2R l) / n) <= 2 * (n + 1) * u p * (A / n) + eta p e)%R.
Proof. exact @mean_float. Qed.
Print Assumptions C132_average_float.
(** FixedI16<U8>: the average of -1.5, 2, 4.25 and -0.5 is 1.0625 *)
Example C132_ex : supported (mkFty true 16 8) = true /\ mean (fixed_ops Debug (mkFty true 16 8)) 0 [-384; 512; 1088; -128] = Ok 272 /\
  forall k, fvalid (mkFty true 16 8) (sumZ (firstn k [-384; 512; 1088; -128])).
Proof. exact mean_example. Qed.

(** C133, fixed point.  a + (b - a) * t for 0 <= t <= 1 never panics, stays between a and b, is a at t = 0, b at t = 1, and is the exact
    value rounded down. *)
Theorem C133_lerp_fixed : forall m f, supported f = true -> forall a b t, fvalid f a -> fvalid f b -> fvalid f (b - a) -> 0 <= t <= fone f ->
  exists r, lerp (fixed_ops m f) a b t = Ok r /\ Z.min a b <= r <= Z.max a b /\ (t = 0 -> r = a) /\ (t = fone f -> r = b) /\ (a = b -> r = a) /\
  (fval f r <= fval f a + (fval f b - fval f a) * fval f t < fval f r + ulp f)%R.
Proof. exact lerp_all. Qed.
Print Assumptions C133_lerp_fixed.
Theorem C133_lerp_order_fixed : forall m f, supported f = true -> forall a b t t' r r', fvalid f a -> fvalid f b -> fvalid f (b - a) -> 0 <= t -> t <= t' -> t' <= fone f ->
  lerp (fixed_ops m f) a b t = Ok r -> lerp (fixed_ops m f) a b t' = Ok r' -> (a <= b -> r <= r') /\ (b <= a -> r' <= r).
Proof. exact lerp_mono. Qed.
Print Assumptions C133_lerp_order_fixed.
(** floats *)
Theorem C133_lerp_float : forall p e {Hp : Prec_gt_0 p} {He : Prec_lt_emax p e}, 24 <= p -> 128 <= e ->
  forall (a b t : flt p e) k, is_finite a = true -> is_finite b = true -> is_finite t = true -> (0 <= B2R t <= 1)%R ->
  (Rabs (B2R a) <= bpow radix2 k)%R -> (Rabs (B2R b) <= bpow radix2 k)%R -> 2 - e <= k -> k + 2 < e ->
  exists r, lerp float_ops a b t = Ok r /\ is_finite r = true /\
  (Rabs (B2R r - (B2R a + (B2R b - B2R a) * B2R t)) <= 4 * u p * (Rabs (B2R a) + Rabs (B2R b)) + eta p e)%R /\
  (B2R t = 0 -> B2R r = B2R a)%R /\ (B2R a = B2R b -> B2R r = B2R a)%R /\
  (B2R t = 1 -> B2R b / 2 <= B2R a <= 2 * B2R b -> B2R r = B2R b)%R.
Proof. exact @lerp_float. Qed.
Print Assumptions C133_lerp_float.
Theorem C133_lerp_order_float : forall p e {Hp : Prec_gt_0 p} {He : Prec_lt_emax p e},
  forall (a b t t' : flt p e) k, is_finite a = true -> is_finite b = true -> is_finite t = true -> is_finite t' = true -> (0 <= B2R t <= B2R t')%R -> (B2R t' <= 1)%R ->
  (Rabs (B2R a) <= bpow radix2 k)%R -> (Rabs (B2R b) <= bpow radix2 k)%R -> 2 - e <= k -> k + 2 < e ->
  exists r r', lerp float_ops a b t = Ok r /\ lerp float_ops a b t' = Ok r' /\ (B2R a <= B2R b -> B2R r <= B2R r')%R /\ (B2R b <= B2R a -> B2R r' <= B2R r)%R.
Proof. exact @lerp_mono_float. Qed.
Print Assumptions C133_lerp_order_float.
(** FixedI16<U8>: a third (85/256) of the way from 10 to -2.5 *)
Example C133_ex : lerp (fixed_ops Release (mkFty true 16 8)) 2560 (-640) 85 = Ok 1497 /\ fvalid (mkFty true 16 8) (-640 - 2560) /\ 0 <= 85 <= fone (mkFty true 16 8).
Proof. exact lerp_example. Qed.

(** C134, fixed point.  y <- y + (x - y) * alpha over any samples between lo and hi: never a panic, always between lo and hi, never above
    the exact recursion and never more than ulp / alpha below it, however many samples. *)
Theorem C134_smooth_fixed : forall m f alpha lo hi, supported f = true -> 0 < alpha <= fone f -> fvalid f lo -> fvalid f hi -> fvalid f (hi - lo) -> fvalid f (lo - hi) ->
  forall l y, lo <= y <= hi -> (forall x, In x l -> lo <= x <= hi) ->
  exists r, smooth (fixed_ops m f) alpha y l = Ok r /\ lo <= r <= hi /\
  (0 <= smoothR (fval f alpha) (fval f y) (map (fval f) l) - fval f r <= ulp f / fval f alpha)%R.
Proof. exact smooth_fixed. Qed.
Print Assumptions C134_smooth_fixed.
(** samples no larger than 2^k: the result is finite and within (16 * 2^-p * 2^k + eta) / alpha of the exact recursion *)
Theorem C134_smooth_float : forall p e {Hp : Prec_gt_0 p} {He : Prec_lt_emax p e}, 24 <= p -> 128 <= e ->
  forall (alpha : flt p e) k, is_finite alpha = true -> (0 < B2R alpha <= 1)%R -> 1 - e <= k -> k + 3 < e ->
  (16 * u p * bpow radix2 k + eta p e <= B2R alpha * bpow radix2 k)%R ->
  forall (l : list (flt p e)) y, is_finite y = true -> (Rabs (B2R y) <= bpow radix2 k)%R -> (forall x, In x l -> is_finite x = true /\ (Rabs (B2R x) <= bpow radix2 k)%R) ->
  exists r, smooth float_ops alpha y l = Ok r /\ is_finite r = true /\ (Rabs (B2R r) <= 2 * bpow radix2 k)%R /\
  (Rabs (B2R r - smoothR (B2R alpha) (B2R y) (map B2R l)) <= (16 * u p * bpow radix2 k + eta p e) / B2R alpha)%R.
Proof. exact @smooth_float. Qed.
Print Assumptions C134_smooth_float.
(** the exact recursion on a constant input *)
Theorem C134_constant : forall n alpha y x, smoothR alpha y (repeat x n) = (x + (1 - alpha) ^ n * (y - x))%R.
Proof. exact smoothR_const. Qed.
Print Assumptions C134_constant.
Example C134_ex : smooth (fixed_ops Debug (mkFty true 16 8)) 64 0 [256; 512; -256; 1024] = Ok 307 /\ fvalid (mkFty true 16 8) (1024 - -256).
Proof. exact smooth_example. Qed.

(** C135.  On floats interpolation does not always end at b, and can pass it; the average of equal samples can be below all of them. *)
Theorem C135_endpoint_refuted : exists a b r : f32, B2R a = 33554432%R /\ B2R b = 1%R /\ lerp float_ops a b Bone = Ok r /\ B2R r = 0%R.
Proof. exact endpoint_missed. Qed.
Print Assumptions C135_endpoint_refuted.
Theorem C135_overshoot_refuted : exists a b r : f32, B2R a = (-16777216)%R /\ B2R b = 3%R /\ lerp float_ops a b Bone = Ok r /\ B2R r = 4%R.
Proof. exact overshoot. Qed.
Print Assumptions C135_overshoot_refuted.
Theorem C135_average_refuted : exists x r : f64, is_finite x = true /\ mean float_ops (B754_zero false) (repeat x 10) = Ok r /\ is_finite r = true /\ (B2R r < B2R x)%R.
Proof. exact low_average. Qed.
Print Assumptions C135_average_refuted.
(** in fixed point smoothing a constant input can stay away from it for ever (FixedI32<U16>, alpha = 0.01, 100 units below) *)
Theorem C135_constant_refuted : forall m n, smooth (fixed_ops m (mkFty true 32 16)) 655 0 (repeat 100 n) = Ok 0.
Proof. exact stuck. Qed.
Print Assumptions C135_constant_refuted.
(** exactly when it arrives, and where it stays otherwise *)
Theorem C135_constant_iff_partial : forall m f, supported f = true -> forall alpha lo hi, 0 <= alpha <= fone f -> fvalid f lo -> fvalid f hi -> fvalid f (hi - lo) -> fvalid f (lo - hi) ->
  0 < alpha -> forall n x y, (0 < n)%nat -> lo <= y <= hi -> lo <= x <= hi -> Z.abs (x - y) <= Z.of_nat n ->
  (smooth (fixed_ops m f) alpha y (repeat x n) = Ok x <-> x <= y \/ alpha = fone f).
Proof. exact smooth_iff. Qed.
Print Assumptions C135_constant_iff_partial.
Theorem C135_constant_rest_partial : forall m f, supported f = true -> forall alpha lo hi, 0 <= alpha <= fone f -> fvalid f lo -> fvalid f hi -> fvalid f (hi - lo) -> fvalid f (lo - hi) ->
  forall n x y, lo <= y -> y <= x -> x <= hi -> x - y <= Z.of_nat n -> exists r, smooth (fixed_ops m f) alpha y (repeat x n) = Ok r /\ y <= r <= x /\ (x - r) * alpha < fone f.
Proof. exact smooth_below. Qed.
Print Assumptions C135_constant_rest_partial.
(** FixedI16<U8>, alpha = 1/4, input 1: from 2 it arrives, from 0 it stops 3 units short *)
Example C135_ex : smooth (fixed_ops Debug (mkFty true 16 8)) 64 512 (repeat 256 30) = Ok 256 /\ smooth (fixed_ops Debug (mkFty true 16 8)) 64 0 (repeat 256 30) = Ok 253.
Proof. split; vm_compute; reflexivity. Qed.
