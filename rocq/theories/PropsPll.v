(** * Property C148: phase-locked loops.  The program [pll] and the inputs [turning] are in SpecPll. *)

From Coq Require Import ZArith Reals List Lra.
From Flocq Require Import Core.Core IEEE754.BinarySingleNaN.
From Verif Require Import Base FloatBase Traits FixedPrim FixedImpl FloatImpl Spec SpecPll PllProofs PllFloat.
Import ListNotations.
Open Scope Z_scope.

(** The loop follows an angle that turns by at most [s] per sample, if that is less than the gain times pi: from any start it neither
    panics nor slips a turn, and the error shrinks geometrically down to the lag [(s + ulp) / gain]. *)
Theorem C148_tracks : forall m f, supported f = true -> fsigned f = true -> ffrac f <= fwidth f - 4 -> exists p, mixed_pi (fixed_pi m f) = Ok p /\
  forall gain s phi t l, 0 < gain <= 2 ^ ffrac f -> 0 <= s -> (s + 1) * 2 ^ ffrac f <= gain * p -> - p <= phi < p -> - p <= t < p -> turning p s t l ->
  exists es, returns (fun fuel => pll (fixed_ops m f) (mixed_wrap_phase (fixed_wrap_phase m f fuel)) gain phi (t :: l)) es /\ length es = S (length l) /\
  (exists j, nth 0 es 0 = t - phi + j * (2 * p)) /\
  forall i, (i < length es)%nat -> - p <= nth i es 0 < p /\
  (Rabs (fval f (nth i es 0%Z)) <= (1 - fval f gain) ^ i * Rabs (fval f (nth 0 es 0%Z)) + (fval f s + ulp f) / fval f gain)%R.
Proof. exact pll_tracks. Qed.
Print Assumptions C148_tracks.
(** A fixed angle: the error follows this recurrence exactly; after as many steps as the first error has ulps, at the latest, it is
    constant, not negative, and less than [1 / gain] ulps. *)
Theorem C148_locks : forall m f, supported f = true -> fsigned f = true -> ffrac f <= fwidth f - 4 -> exists p, mixed_pi (fixed_pi m f) = Ok p /\
  forall gain phi t n, 0 < gain <= 2 ^ ffrac f -> - p <= phi < p -> - p <= t < p ->
  exists es, returns (fun fuel => pll (fixed_ops m f) (mixed_wrap_phase (fixed_wrap_phase m f fuel)) gain phi (repeat t (S n))) es /\ length es = S n /\
  (exists j, nth 0 es 0 = t - phi + j * (2 * p)) /\
  (forall i, (i < n)%nat -> nth (S i) es 0 = nth i es 0 - gain * nth i es 0 / 2 ^ ffrac f) /\
  forall i, (i <= n)%nat -> Z.abs (nth 0 es 0) <= Z.of_nat i -> 0 <= nth i es 0 /\ gain * nth i es 0 < 2 ^ ffrac f /\ forall j, (i <= j <= n)%nat -> nth j es 0 = nth i es 0.
Proof. exact pll_locks. Qed.
Print Assumptions C148_locks.
(** FixedI16<U8>, gain 1/4.  A positive error stops at three ulps, a negative one vanishes; across the jump from pi to -pi the short way
    is taken; a target that moves 100 ulps per sample is followed about 400 ulps behind. *)
Example C148_ex : let f := mkFty true 16 8 in let L := pll (fixed_ops Debug f) (mixed_wrap_phase (fixed_wrap_phase Debug f 9)) 64 in
  mixed_pi (fixed_pi Debug f) = Ok 804 /\ turning 804 100 100 [200; 300; 400; 500; 600; 700; 800; -708; -608; -508; -408; -308] /\ (100 + 1) * 256 <= 64 * 804 /\
  map_res (skipn 20) (L 0 (repeat 700 25)) = Ok [4; 3; 3; 3; 3] /\ map_res (skipn 20) (L 0 (repeat (-700) 25)) = Ok [-1; 0; 0; 0; 0] /\
  L (-800) (repeat 800 4) = Ok [-8; -6; -4; -3] /\
  L 0 [100; 200; 300; 400; 500; 600; 700; 800; -708; -608; -508; -408; -308] = Ok [100; 175; 232; 274; 306; 330; 348; 361; 371; 379; 385; 389; 392].
Proof.
  split; [vm_compute; reflexivity|]. split; [|split; [vm_compute; discriminate|repeat split; vm_compute; reflexivity]].
  cbn [turning]. repeat split; try (vm_compute; congruence); try (exists 100, 0; split; vm_compute; congruence); exists 100, (-1); split; vm_compute; congruence.
Qed.

(** Floats: the same, with a lag of [(s + 14 u) / gain]; the first error is the distance from the start, up to whole turns and [4 u]. *)
Theorem C148_tracks_f32 : exists p : f32, mixed_pi float_pi = Ok p /\ forall (gain : f32) s, is_finite gain = true -> (0 < B2R gain <= 1)%R -> (0 <= s)%R -> (s + 14 * bpow radix2 (-24) <= B2R gain * B2R p)%R ->
  forall l (t phi : f32), is_finite phi = true -> (- B2R p <= B2R phi < B2R p)%R -> is_finite t = true -> (- B2R p <= B2R t < B2R p)%R ->
  Forall (fun x => is_finite x = true) l -> turningR (B2R p) s (B2R t) (map B2R l) ->
  exists es e0 k, returns (fun fuel => pll float_ops (mixed_wrap_phase (float_wrap_phase fuel)) gain phi (t :: l)) es /\ length es = S (length l) /\
  nth_error es 0 = Some e0 /\ (Rabs (B2R e0 - (B2R t - B2R phi + IZR k * (2 * B2R p))) <= 4 * bpow radix2 (-24))%R /\
  forall i e, nth_error es i = Some e -> is_finite e = true /\ (- B2R p <= B2R e < B2R p)%R /\
  (Rabs (B2R e) <= (1 - B2R gain) ^ i * Rabs (B2R e0) + (s + 14 * bpow radix2 (-24)) / B2R gain)%R.
Proof. exact pll_f32. Qed.
Print Assumptions C148_tracks_f32.
Theorem C148_tracks_f64 : exists p : f64, mixed_pi float_pi = Ok p /\ forall (gain : f64) s, is_finite gain = true -> (0 < B2R gain <= 1)%R -> (0 <= s)%R -> (s + 14 * bpow radix2 (-53) <= B2R gain * B2R p)%R ->
  forall l (t phi : f64), is_finite phi = true -> (- B2R p <= B2R phi < B2R p)%R -> is_finite t = true -> (- B2R p <= B2R t < B2R p)%R ->
  Forall (fun x => is_finite x = true) l -> turningR (B2R p) s (B2R t) (map B2R l) ->
  exists es e0 k, returns (fun fuel => pll float_ops (mixed_wrap_phase (float_wrap_phase fuel)) gain phi (t :: l)) es /\ length es = S (length l) /\
  nth_error es 0 = Some e0 /\ (Rabs (B2R e0 - (B2R t - B2R phi + IZR k * (2 * B2R p))) <= 4 * bpow radix2 (-53))%R /\
  forall i e, nth_error es i = Some e -> is_finite e = true /\ (- B2R p <= B2R e < B2R p)%R /\
  (Rabs (B2R e) <= (1 - B2R gain) ^ i * Rabs (B2R e0) + (s + 14 * bpow radix2 (-53)) / B2R gain)%R.
Proof. exact pll_f64. Qed.
Print Assumptions C148_tracks_f64.
(** f32, gain 1/2, from 0 to the constant angle 1: the errors are 1, 1/2, 1/4, 1/8 *)
Example C148_float_ex : let one := (@B754_finite 24 128 false 8388608 (-23) eq_refl : f32) in let half := (@B754_finite 24 128 false 8388608 (-24) eq_refl : f32) in
  map_res (map B2SF) (pll float_ops (mixed_wrap_phase (float_wrap_phase 9)) half (B754_zero false) [one; one; one; one]) =
    Ok (map (SpecFloat.S754_finite false 8388608) [-23; -24; -25; -26]) /\
  turningR 3 (/ 2) (B2R one) (map B2R [one; one; one]) /\ (/ 2 + 14 * bpow radix2 (-24) <= B2R half * 3)%R.
Proof.
  split; [vm_compute; reflexivity|]. unfold B2R, F2R, SpecFloat.emin. cbn. split; [|lra].
  repeat split; try lra; exists 0%R, 0; (split; [lra|rewrite Rabs_R0; lra]).
Qed.
