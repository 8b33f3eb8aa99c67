(** * Property C156: the polynomial arctangent follows the angle. *)

From Coq Require Import ZArith Reals Lra Lia List.
From Flocq Require Import Core.Core IEEE754.BinarySingleNaN.
From Verif Require Import Base FloatBase Literals Traits Trig IntImpl FixedPrim FixedImpl FloatImpl Spec SpecAngle StepAtan.
Open Scope R_scope.

(** C156.  When the direction turns by b - a, the computed angle turns by at least 7/8 of it: different
    directions are told apart down to the rounding.  It turns by at most 1.016 times b - a as long as the
    same coordinate stays the larger one, and by at most 0.00983 more when one diagonal is crossed. *)
Theorem C156_fixed : forall m f, supported f = true -> fsigned f = true -> forall y1 x1 y2 x2 a b,
  let M1 := Rmax (Rabs (fval f x1)) (Rabs (fval f y1)) in let M2 := Rmax (Rabs (fval f x2)) (Rabs (fval f y2)) in
  16 * ulp f <= M1 * M1 -> 3 / 2 * (M1 * M1) <= fval f (fmax f) -> 16 * ulp f <= M2 * M2 -> 3 / 2 * (M2 * M2) <= fval f (fmax f) ->
  is_angle (fval f y1) (fval f x1) a -> is_angle (fval f y2) (fval f x2) b -> a <= b ->
  exists r s, fixed_atan2_poly m f y1 x1 = Ok r /\ fixed_atan2_poly m f y2 x2 = Ok s /\
  let d := fval f s - fval f r in let e := (6 + 5 / (M1 * M1) + 5 / (M2 * M2)) * ulp f + 2 / 1000000000000000 in
  7 / 8 * (b - a) - e <= d /\ (b - a < PI / 2 -> d <= 1016 / 1000 * (b - a) + 983 / 100000 + e /\
    ((Z.abs y1 < Z.abs x1 <-> Z.abs y2 < Z.abs x2)%Z -> d <= 1016 / 1000 * (b - a) + e)).
Proof. exact follow_fixed. Qed.
Print Assumptions C156_fixed.

Theorem C156_f32 : forall (y1 x1 y2 x2 : f32) a b,
  let M1 := Rmax (Rabs (B2R x1)) (Rabs (B2R y1)) in let M2 := Rmax (Rabs (B2R x2)) (Rabs (B2R y2)) in
  is_finite y1 = true -> is_finite x1 = true -> is_finite y2 = true -> is_finite x2 = true ->
  bpow radix2 (-61) <= M1 <= bpow radix2 61 -> bpow radix2 (-61) <= M2 <= bpow radix2 61 ->
  is_angle (B2R y1) (B2R x1) a -> is_angle (B2R y2) (B2R x2) b -> a <= b ->
  exists r s, float_atan2_poly y1 x1 = Ok r /\ float_atan2_poly y2 x2 = Ok s /\ is_finite r = true /\ is_finite s = true /\
  let d := B2R s - B2R r in
  7 / 8 * (b - a) - 36 * bpow radix2 (-24) <= d /\ (b - a < PI / 2 -> d <= 1016 / 1000 * (b - a) + 983 / 100000 + 36 * bpow radix2 (-24) /\
    (Rabs (B2R y1) < Rabs (B2R x1) <-> Rabs (B2R y2) < Rabs (B2R x2) -> d <= 1016 / 1000 * (b - a) + 36 * bpow radix2 (-24))).
Proof. exact follow_f32. Qed.
Print Assumptions C156_f32.

Theorem C156_f64 : forall (y1 x1 y2 x2 : f64) a b,
  let M1 := Rmax (Rabs (B2R x1)) (Rabs (B2R y1)) in let M2 := Rmax (Rabs (B2R x2)) (Rabs (B2R y2)) in
  is_finite y1 = true -> is_finite x1 = true -> is_finite y2 = true -> is_finite x2 = true ->
  bpow radix2 (-509) <= M1 <= bpow radix2 509 -> bpow radix2 (-509) <= M2 <= bpow radix2 509 ->
  is_angle (B2R y1) (B2R x1) a -> is_angle (B2R y2) (B2R x2) b -> a <= b ->
  exists r s, float_atan2_poly y1 x1 = Ok r /\ float_atan2_poly y2 x2 = Ok s /\ is_finite r = true /\ is_finite s = true /\
  let d := B2R s - B2R r in
  7 / 8 * (b - a) - 36 * bpow radix2 (-53) <= d /\ (b - a < PI / 2 -> d <= 1016 / 1000 * (b - a) + 983 / 100000 + 36 * bpow radix2 (-53) /\
    (Rabs (B2R y1) < Rabs (B2R x1) <-> Rabs (B2R y2) < Rabs (B2R x2) -> d <= 1016 / 1000 * (b - a) + 36 * bpow radix2 (-53))).
Proof. exact follow_f64. Qed.
Print Assumptions C156_f64.

(** The jump is there: between the diagonal point (1, 1) and its neighbour (1 - ulp, 1) the result moves
    by 0.0098, however fine the type. *)
Theorem C156_jump_fixed : forall m f, supported f = true -> fsigned f = true -> (4 <= ffrac f)%Z ->
  exists r s, fixed_atan2_poly m f (fone f - 1) (fone f) = Ok r /\ fixed_atan2_poly m f (fone f) (fone f) = Ok s /\
  98 / 10000 - 16 * ulp f <= fval f s - fval f r.
Proof. exact jump_fixed. Qed.
Print Assumptions C156_jump_fixed.

(** directions (4, 3) and (8, 7) with 28 fractional bits: both in the first octant *)
Example C156_ex : let f := mkFty true 64 28 in supported f = true /\
  fixed_atan2_poly Debug f (3 * 2 ^ 28) (4 * 2 ^ 28) = Ok 173826669%Z /\ fixed_atan2_poly Debug f (7 * 2 ^ 28) (8 * 2 ^ 28) = Ok 193264900%Z /\
  fixed_atan2_poly Debug f (2 ^ 28 - 1) (2 ^ 28) = Ok 209510599%Z /\ fixed_atan2_poly Debug f (2 ^ 28) (2 ^ 28) = Ok 212146829%Z.
Proof. repeat split; vm_compute; reflexivity. Qed.
