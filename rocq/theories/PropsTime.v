(** * Property C149: running time. *)

From Coq Require Import ZArith Reals List.
From Flocq Require Import Core.Core IEEE754.BinarySingleNaN.
From Verif Require Import Base FloatBase Literals Traits Trig FixedPrim FixedImpl FloatImpl Spec SpecTime TimeProofs.
Open Scope Z_scope.

(** C149.  Phase wrapping goes round once per whole turn, neither more nor less. *)
Theorem C149_wrap_fixed : forall m f, supported f = true -> fsigned f = true -> (m = Release \/ ffrac f <= fwidth f - 4) ->
  exists p, mixed_pi (fixed_pi m f) = Ok p /\ (0 < fval f p)%R /\ forall phi, fvalid f phi -> exists k r,
  (- fval f p <= fval f r < fval f p)%R /\ (fval f phi = fval f r + IZR k * (2 * fval f p))%R /\
  takes (fun fuel => mixed_wrap_phase (fixed_wrap_phase m f fuel) phi) (Z.abs k) r.
Proof. exact wrap_rounds_fixed. Qed.
Print Assumptions C149_wrap_fixed.
(** So the time grows with the angle: the largest [FixedI64<U32>] takes 341 782 638 rounds. *)
Theorem C149_wrap_slow_i64 : forall m, exists r,
  takes (fun fuel => mixed_wrap_phase (fixed_wrap_phase m (mkFty true 64 32) fuel) (2 ^ 63 - 1)) 341782638 r.
Proof. exact slow_i64. Qed.
Print Assumptions C149_wrap_slow_i64.
(** On floats: at least one round per two turns. *)
Theorem C149_wrap_f32 : exists p : f32, mixed_pi float_pi = Ok p /\ forall (phi : f32), is_finite phi = true -> forall k,
  (B2R p + IZR k * (4 * B2R p) < Rabs (B2R phi))%R -> takes_at_least (fun fuel => mixed_wrap_phase (float_wrap_phase fuel) phi) k.
Proof. exact wrap_slow_f32. Qed.
Print Assumptions C149_wrap_f32.
Theorem C149_wrap_f64 : exists p : f64, mixed_pi float_pi = Ok p /\ forall (phi : f64), is_finite phi = true -> forall k,
  (B2R p + IZR k * (4 * B2R p) < Rabs (B2R phi))%R -> takes_at_least (fun fuel => mixed_wrap_phase (float_wrap_phase fuel) phi) k.
Proof. exact wrap_slow_f64. Qed.
Print Assumptions C149_wrap_f64.
(** The square root goes round [|k|] times, [4^(k-1) <= x < 4^k]: at most half the width of the
    type in fixed point, 74 times for [f32], 536 times for [f64]. *)
Theorem C149_sqrt_fixed : forall m f, supported f = true -> fsigned f = true -> 2 <= ffrac f <= fwidth f - 4 ->
  forall x it, fvalid f x -> 0 < x -> exists k r,
  (bpow radix2 (2 * k - 2) <= fval f x < bpow radix2 (2 * k))%R /\ 2 * Z.abs k <= fwidth f /\
  takes (fun fuel => niirf (fixed_ops m f) (fixed_zero m f) (fixed_abs m f) (fixed_powi m f) m fuel x it) (Z.abs k) r.
Proof. exact niirf_fixed_rounds. Qed.
Print Assumptions C149_sqrt_fixed.
Theorem C149_sqrt_f32 : forall m (x : f32) it, is_finite x = true -> B2R x <> 0%R -> (2 <= it)%N -> exists k r,
  (bpow radix2 (2 * k - 2) <= Rabs (B2R x) < bpow radix2 (2 * k))%R /\ Z.abs k <= 74 /\
  takes (fun fuel => niirf float_ops float_zero float_abs float_powi m fuel x it) (Z.abs k) r.
Proof. exact niirf_f32_takes. Qed.
Print Assumptions C149_sqrt_f32.
Theorem C149_sqrt_f64 : forall m (x : f64) it, is_finite x = true -> B2R x <> 0%R -> (2 <= it)%N -> exists k r,
  (bpow radix2 (2 * k - 2) <= Rabs (B2R x) < bpow radix2 (2 * k))%R /\ Z.abs k <= 536 /\
  takes (fun fuel => niirf float_ops float_zero float_abs float_powi m fuel x it) (Z.abs k) r.
Proof. exact niirf_f64_takes. Qed.
Print Assumptions C149_sqrt_f64.
(** 100 radians in [FixedI32<U22>] are 16 turns: 16 tests do not suffice, 17 do.  The root of 100
    is scaled four times. *)
Example C149_ex : supported (mkFty true 32 22) = true /\
  mixed_wrap_phase (fixed_wrap_phase Debug (mkFty true 32 22) 16) (100 * 2 ^ 22) = OutOfFuel /\
  mixed_wrap_phase (fixed_wrap_phase Debug (mkFty true 32 22) 17) (100 * 2 ^ 22) = Ok (-2227040) /\
  mixed_sqrt (fixed_sqrt Debug (mkFty true 32 22) 4) (100 * 2 ^ 22) = OutOfFuel /\
  mixed_sqrt (fixed_sqrt Debug (mkFty true 32 22) 5) (100 * 2 ^ 22) = Ok 41922240.
Proof. repeat split; vm_compute; congruence. Qed.
