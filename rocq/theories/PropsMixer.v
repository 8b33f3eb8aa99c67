(** * Properties C144 and C145: oscillators and mixers.

    The program [mixer] of SpecMixer turns each sample by a running phase; [cis a] is e^(ia). *)

From Coq Require Import ZArith Reals List.
From Flocq Require Import Core.Core IEEE754.BinarySingleNaN.
From Verif Require Import Base FloatBase Traits Trig FixedPrim FixedImpl FloatImpl Complex Spec SpecFilter SpecRotor SpecMixer FloatArith MixerProofs.
Import ListNotations.
Open Scope Z_scope.

Notation fixed_sin m f := (Trig.sin (fixed_ops m f) (fixed_signed m f) (fixed_pi m f) (fixed_powi m f)).
Notation fixed_cos m f := (Trig.cos (fixed_ops m f) (fixed_signed m f) (fixed_pi m f) (fixed_powi m f)).
Notation flt_sin := (Trig.sin float_ops float_signed float_pi float_powi).
Notation flt_cos := (Trig.cos float_ops float_signed float_pi float_powi).
(** cos(x) + i sin(x), as a program of the user: two calls and a constructor *)
Notation rotor_fixed m f fuel x := (s <- fixed_sin m f x ;; c <- fixed_cos m f fuel x ;; Ok (mkC c s)).
Notation rotor fuel x := (s <- flt_sin x ;; c <- flt_cos fuel x ;; Ok (mkC c s)).
Notation mix_fixed m f fuel := (mixer (fixed_ops m f) (fun x => rotor_fixed m f fuel x) (mixed_wrap_phase (fixed_wrap_phase m f fuel))).
Notation unmix_fixed m f fuel := (mixer (fixed_ops m f) (counter (fixed_signed m f) (fun x => rotor_fixed m f fuel x)) (mixed_wrap_phase (fixed_wrap_phase m f fuel))).
Notation mix_float fuel := (mixer float_ops (fun x => rotor fuel x) (mixed_wrap_phase (float_wrap_phase fuel))).
Notation unmix_float fuel := (mixer float_ops (counter float_signed (fun x => rotor fuel x)) (mixed_wrap_phase (float_wrap_phase fuel))).
Notation sumR l := (fold_right Rplus 0%R l).
Notation finite z := (is_finite (re z) = true /\ is_finite (im z) = true).

(** C144.  Sample [i] leaves the mixer as [x e^(i Phi)], where [Phi] is the starting phase plus all steps so far, up to the error [d] of
    sine and cosine, the rounding of one product, and the error of the stored pi times the number [2 k] of half turns made so far.
    What is missing from the claim that the error stays small: the last part grows; see [C144_drift_refuted]. *)
Theorem C144_mixer_fixed_partial : forall m f, supported f = true -> fsigned f = true -> ffrac f <= fwidth f - 20 ->
  exists pb, mixed_pi (fixed_pi m f) = Ok pb /\ let p := fval f pb in let d := (14143 / 10000 * (5 / 1000000 + 7 * ulp f))%R in let g := (224 / 100 * ulp f)%R in
  forall l phi, (- p <= fval f phi < p)%R ->
  Forall (fun sx => (p + Rabs (fval f (fst sx)) <= fval f (fmax f) /\ cabs (cval f (snd sx)) * (1 + d) + g <= fval f (fmax f))%R) l ->
  exists ys, returns (fun fuel => mix_fixed m f fuel phi l) ys /\ length ys = length l /\
  forall i s x, nth_error l i = Some (s, x) -> exists y k, nth_error ys i = Some y /\
  let Phi := (fval f phi + sumR (map (fun sx => fval f (fst sx)) (firstn i l)))%R in
  (Rabs (Phi - IZR k * (2 * p)) <= p)%R /\
  (cabs (csub (cval f y) (cmul (cval f x) (cis Phi))) <= cabs (cval f x) * (d + Rabs (IZR k) * (2 * Rabs (PI - p))) + g)%R.
Proof. exact mix_fixed_all. Qed.
Print Assumptions C144_mixer_fixed_partial.
Theorem C144_mixer_f32_partial : exists p : f32, mixed_pi float_pi = Ok p /\ forall l (phi : f32), is_finite phi = true -> (- B2R p <= B2R phi < B2R p)%R ->
  Forall (fun sx : f32 * Cartesian f32 => (is_finite (fst sx) = true /\ Rabs (B2R (fst sx)) <= B2R p)%R /\ finite (snd sx) /\ (cabs (cvalf (snd sx)) <= bpow radix2 63)%R) l ->
  exists ys, returns (fun fuel => mix_float fuel phi l) ys /\ length ys = length l /\ Forall (fun y => finite y) ys /\
  forall i s x, nth_error l i = Some (s, x) -> exists y k, nth_error ys i = Some y /\
  let Phi := (B2R phi + sumR (map (fun sx : f32 * Cartesian f32 => B2R (fst sx)) (firstn i l)))%R in
  (Rabs (Phi - IZR k * (2 * B2R p)) <= B2R p + INR i * bpow radix2 (-22))%R /\
  (cabs (csub (cvalf y) (cmul (cvalf x) (cis Phi))) <= cabs (cvalf x) * (8 / 1000000 + INR i * bpow radix2 (-22) + Rabs (IZR k) * (2 * Rabs (PI - B2R p))) + 3 * bpow radix2 (-149))%R.
Proof. exact mix_f32. Qed.
Print Assumptions C144_mixer_f32_partial.
Theorem C144_mixer_f64_partial : exists p : f64, mixed_pi float_pi = Ok p /\ forall l (phi : f64), is_finite phi = true -> (- B2R p <= B2R phi < B2R p)%R ->
  Forall (fun sx : f64 * Cartesian f64 => (is_finite (fst sx) = true /\ Rabs (B2R (fst sx)) <= B2R p)%R /\ finite (snd sx) /\ (cabs (cvalf (snd sx)) <= bpow radix2 511)%R) l ->
  exists ys, returns (fun fuel => mix_float fuel phi l) ys /\ length ys = length l /\ Forall (fun y => finite y) ys /\
  forall i s x, nth_error l i = Some (s, x) -> exists y k, nth_error ys i = Some y /\
  let Phi := (B2R phi + sumR (map (fun sx : f64 * Cartesian f64 => B2R (fst sx)) (firstn i l)))%R in
  (Rabs (Phi - IZR k * (2 * B2R p)) <= B2R p + INR i * bpow radix2 (-51))%R /\
  (cabs (csub (cvalf y) (cmul (cvalf x) (cis Phi))) <= cabs (cvalf x) * (8 / 1000000 + INR i * bpow radix2 (-51) + Rabs (IZR k) * (2 * Rabs (PI - B2R p))) + 3 * bpow radix2 (-1074))%R.
Proof. exact mix_f64. Qed.
Print Assumptions C144_mixer_f64_partial.
(** An oscillator (all samples 1) in fixed point ends up on the opposite side: the stored pi is not pi in any format, and after enough
    turns of it the output is near 1 when the angle it stands for has a cosine near -1. *)
Theorem C144_drift_refuted : forall m f, supported f = true -> fsigned f = true -> 8 <= ffrac f <= fwidth f - 20 ->
  exists pb, mixed_pi (fixed_pi m f) = Ok pb /\ exists n ys y,
  returns (fun fuel => mix_fixed m f fuel 0 (repeat (pb, mkC (fone f) 0) (n + 1))) ys /\ nth_error ys n = Some y /\
  (9 / 10 <= fval f (re y))%R /\ (Rtrigo_def.cos (INR n * fval f pb) <= - (9 / 10))%R.
Proof. exact osc_drift. Qed.
Print Assumptions C144_drift_refuted.
(** FixedI32<U10>, 100 + 50i turned by 0, 1, 2, 3, 4 radians *)
Example C144_ex : let f := mkFty true 32 10 in let l := repeat (1024, mkC 102400 51200) 5 in supported f = true /\ 8 <= ffrac f <= fwidth f - 20 /\
  mix_fixed Debug f 5 0 l = Ok [mkC 102500 51250; mkC 12200 113850; mkC (-89050) 71850; mkC (-108600) (-36300); mkC (-28300) (-110900)].
Proof. repeat split; vm_compute; congruence. Qed.

(** C145.  Mixing down and up again with the same steps gives every sample back, however many there are: the error does not depend on the
    position, although both phases drift. *)
Theorem C145_round_trip_fixed : forall m f, supported f = true -> fsigned f = true -> ffrac f <= fwidth f - 20 ->
  exists pb, mixed_pi (fixed_pi m f) = Ok pb /\ let p := fval f pb in let d := (14143 / 10000 * (5 / 1000000 + 7 * ulp f))%R in let g := (224 / 100 * ulp f)%R in
  forall l phi, (- p <= fval f phi < p)%R ->
  Forall (fun sx => (p + Rabs (fval f (fst sx)) <= fval f (fmax f) /\ (cabs (cval f (snd sx)) * (1 + d) + g) * (1 + d) + g <= fval f (fmax f))%R) l ->
  exists ys zs, returns (fun fuel => mix_fixed m f fuel phi l) ys /\ returns (fun fuel => unmix_fixed m f fuel phi (combine (map fst l) ys)) zs /\ length zs = length l /\
  forall i s x, nth_error l i = Some (s, x) -> exists z, nth_error zs i = Some z /\
  (cabs (csub (cval f z) (cval f x)) <= cabs (cval f x) * (d * (2 + d)) + g * (2 + d))%R.
Proof. exact back_fixed_all. Qed.
Print Assumptions C145_round_trip_fixed.
Theorem C145_round_trip_f32 : exists p : f32, mixed_pi float_pi = Ok p /\ forall l (phi : f32), is_finite phi = true -> (- B2R p <= B2R phi < B2R p)%R ->
  Forall (fun sx : f32 * Cartesian f32 => (is_finite (fst sx) = true /\ Rabs (B2R (fst sx)) <= B2R p)%R /\ finite (snd sx) /\ (cabs (cvalf (snd sx)) <= bpow radix2 62)%R) l ->
  exists ys zs, returns (fun fuel => mix_float fuel phi l) ys /\ returns (fun fuel => unmix_float fuel phi (combine (map fst l) ys)) zs /\ length zs = length l /\
  forall i s x, nth_error l i = Some (s, x) -> exists z, nth_error zs i = Some z /\ (cabs (csub (cvalf z) (cvalf x)) <= 15 / 1000000 * cabs (cvalf x) + 7 * bpow radix2 (-149))%R.
Proof. exact back_f32. Qed.
Print Assumptions C145_round_trip_f32.
Theorem C145_round_trip_f64 : exists p : f64, mixed_pi float_pi = Ok p /\ forall l (phi : f64), is_finite phi = true -> (- B2R p <= B2R phi < B2R p)%R ->
  Forall (fun sx : f64 * Cartesian f64 => (is_finite (fst sx) = true /\ Rabs (B2R (fst sx)) <= B2R p)%R /\ finite (snd sx) /\ (cabs (cvalf (snd sx)) <= bpow radix2 510)%R) l ->
  exists ys zs, returns (fun fuel => mix_float fuel phi l) ys /\ returns (fun fuel => unmix_float fuel phi (combine (map fst l) ys)) zs /\ length zs = length l /\
  forall i s x, nth_error l i = Some (s, x) -> exists z, nth_error zs i = Some z /\ (cabs (csub (cvalf z) (cvalf x)) <= 15 / 1000000 * cabs (cvalf x) + 7 * bpow radix2 (-1074))%R.
Proof. exact back_f64. Qed.
Print Assumptions C145_round_trip_f64.
(** FixedI32<U10>: five samples and back *)
Example C145_ex : let f := mkFty true 32 10 in let l := repeat (1024, mkC 102400 51200) 5 in
  (ys <- mix_fixed Debug f 5 0 l ;; unmix_fixed Debug f 5 0 (combine (map fst l) ys)) =
  Ok [mkC 102600 51300; mkC 102427 51213; mkC 102284 51141; mkC 102435 51216; mkC 102341 51170].
Proof. vm_compute. reflexivity. Qed.
