(** * C136 without subtraction of ranges, in every format; C156 at all four diagonals and on floats. *)

From Coq Require Import ZArith Reals List Lra.
From Flocq Require Import Core.Core IEEE754.BinarySingleNaN.
From Verif Require Import Base FloatBase Literals Traits Trig IntImpl FixedPrim FixedImpl FloatImpl Spec SpecAngle SpecPoly SpecBlend PolyProofs2 StepAtan2.
Import ListNotations.
Open Scope Z_scope.

(** C136, unsigned formats too: with 0 <= x <= 1 and coefficients that are not negative, all that has to fit is
    their sum.  The result is never above the true value and less than one step per coefficient below it. *)
Theorem C136_horner_nonneg : forall m f, supported f = true -> forall x l, 0 <= x <= fone f -> (forall c, In c l -> 0 <= c) -> sumZ l <= fmax f ->
  exists r, horner (fixed_ops m f) 0 x l = Ok r /\ 0 <= r <= sumZ l /\
  (polyR (fval f x) (map (fval f) l) - INR (length l) * ulp f <= fval f r <= polyR (fval f x) (map (fval f) l))%R.
Proof. exact horner_nonneg. Qed.
Print Assumptions C136_horner_nonneg.
(** 100 + 100 x + 55.5 x^2 at x = 0.5 in FixedU16<U8>: the sum of the coefficients nearly fills the type *)
Example C136_nonneg_ex : let f := mkFty false 16 8 in let l := [100 * 256; 100 * 256; 14208] in
  sumZ l <= fmax f /\ horner (fixed_ops Debug f) 0 128 l = Ok 41952 /\ horner (fixed_ops Debug f) 0 256 l = Ok (sumZ l).
Proof. vm_compute. repeat split; try reflexivity; discriminate. Qed.

(** C156: two points of the same quadrant on different sides of its diagonal (on it counts as above) get
    angles at least 0.0098 apart, however close together their directions are. *)
Theorem C156_jump_all_fixed : forall m f, supported f = true -> fsigned f = true -> forall y1 x1 y2 x2,
  (let M1 := Rmax (Rabs (fval f x1)) (Rabs (fval f y1)) in let M2 := Rmax (Rabs (fval f x2)) (Rabs (fval f y2)) in
  16 * ulp f <= M1 * M1 -> 3 / 2 * (M1 * M1) <= fval f (fmax f) -> 16 * ulp f <= M2 * M2 -> 3 / 2 * (M2 * M2) <= fval f (fmax f) ->
  (0 < x1 * x2)%Z -> (0 < y1 * y2)%Z -> (Z.abs y1 < Z.abs x1)%Z -> (Z.abs x2 <= Z.abs y2)%Z ->
  exists r s, fixed_atan2_poly m f y1 x1 = Ok r /\ fixed_atan2_poly m f y2 x2 = Ok s /\
  98 / 10000 - (6 + 5 / (M1 * M1) + 5 / (M2 * M2)) * ulp f <= Rabs (fval f s - fval f r))%R.
Proof. exact jump_all_fixed. Qed.
Print Assumptions C156_jump_all_fixed.
Theorem C156_jump_f32 : forall y1 x1 y2 x2 : f32,
  (let M1 := Rmax (Rabs (B2R x1)) (Rabs (B2R y1)) in let M2 := Rmax (Rabs (B2R x2)) (Rabs (B2R y2)) in
  is_finite y1 = true -> is_finite x1 = true -> is_finite y2 = true -> is_finite x2 = true ->
  bpow radix2 (-61) <= M1 <= bpow radix2 61 -> bpow radix2 (-61) <= M2 <= bpow radix2 61 ->
  0 < B2R x1 * B2R x2 -> 0 < B2R y1 * B2R y2 -> Rabs (B2R y1) < Rabs (B2R x1) -> Rabs (B2R x2) <= Rabs (B2R y2) ->
  exists r s, float_atan2_poly y1 x1 = Ok r /\ float_atan2_poly y2 x2 = Ok s /\ is_finite r = true /\ is_finite s = true /\
  98 / 10000 <= Rabs (B2R s - B2R r))%R.
Proof. exact jump_all_f32. Qed.
Print Assumptions C156_jump_f32.
Theorem C156_jump_f64 : forall y1 x1 y2 x2 : f64,
  (let M1 := Rmax (Rabs (B2R x1)) (Rabs (B2R y1)) in let M2 := Rmax (Rabs (B2R x2)) (Rabs (B2R y2)) in
  is_finite y1 = true -> is_finite x1 = true -> is_finite y2 = true -> is_finite x2 = true ->
  bpow radix2 (-509) <= M1 <= bpow radix2 509 -> bpow radix2 (-509) <= M2 <= bpow radix2 509 ->
  0 < B2R x1 * B2R x2 -> 0 < B2R y1 * B2R y2 -> Rabs (B2R y1) < Rabs (B2R x1) -> Rabs (B2R x2) <= Rabs (B2R y2) ->
  exists r s, float_atan2_poly y1 x1 = Ok r /\ float_atan2_poly y2 x2 = Ok s /\ is_finite r = true /\ is_finite s = true /\
  98 / 10000 <= Rabs (B2R s - B2R r))%R.
Proof. exact jump_all_f64. Qed.
Print Assumptions C156_jump_f64.
(** the four diagonals with 20 fractional bits, one step apart; 0.0098 is 10276 steps *)
Example C156_jump_all_ex : let f := mkFty true 32 20 in let q := 2 ^ 20 in let at2 := fixed_atan2_poly Debug f in
  (at2 (q - 1) q, at2 q q) = (Ok 818400, Ok 828699) /\ (at2 (q - 1) (- q), at2 q (- q)) = (Ok 2475799, Ok 2465499) /\
  (at2 (1 - q) (- q), at2 (- q) (- q)) = (Ok (-2475799), Ok (-2465499)) /\ (at2 (1 - q) q, at2 (- q) q) = (Ok (-818400), Ok (-828699)).
Proof. repeat split; vm_compute; reflexivity. Qed.
