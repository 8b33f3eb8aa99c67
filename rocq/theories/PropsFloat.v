(** * Properties C84-C87: accuracy of complex arithmetic, phase wrapping and polar conversion on floats. *)

From Coq Require Import ZArith Reals Lra.
From Flocq Require Import Core.Core IEEE754.BinarySingleNaN.
From Verif Require Import Base FloatBase Literals Traits Trig FixedPrim FloatImpl Complex Spec SpecAngle SpecFloatPolar
  AtanReal WrapProofs2 FloatArith FloatPolar.
Open Scope Z_scope.

Notation finite z := (is_finite (re z) = true /\ is_finite (im z) = true).
(** round to nearest, ties to even, in the format with precision [p] and largest exponent [e] *)
Notation rnd p e := (round radix2 (SpecFloat.fexp p e) ZnearestE).

(** C84.  Sums and differences: each part is the correctly rounded exact part. *)
Theorem C84_add_sub : forall p e {Hp : Prec_gt_0 p} {He : Prec_lt_emax p e} (z w : Cartesian (binary_float p e)), finite z -> finite w ->
  ((Rabs (rnd p e (B2R (re z) + B2R (re w))) < bpow radix2 e)%R -> (Rabs (rnd p e (B2R (im z) + B2R (im w))) < bpow radix2 e)%R ->
   exists r, cartesian_add float_ops z w = Ok r /\ finite r /\
     B2R (re r) = rnd p e (B2R (re z) + B2R (re w)) /\ B2R (im r) = rnd p e (B2R (im z) + B2R (im w))) /\
  ((Rabs (rnd p e (B2R (re z) - B2R (re w))) < bpow radix2 e)%R -> (Rabs (rnd p e (B2R (im z) - B2R (im w))) < bpow radix2 e)%R ->
   exists r, cartesian_sub float_ops z w = Ok r /\ finite r /\
     B2R (re r) = rnd p e (B2R (re z) - B2R (re w)) /\ B2R (im r) = rnd p e (B2R (im z) - B2R (im w))).
Proof. exact @fl_add_sub. Qed.
Print Assumptions C84_add_sub.
(** Products: within (2u+u^2)(|ac|+|bd|) of ac-bd, plus an underflow term, [u] half an ulp of one. *)
Theorem C84_mul : forall p e {Hp : Prec_gt_0 p} {He : Prec_lt_emax p e} (z w : Cartesian (binary_float p e)),
  2 <= p -> finite z -> finite w -> forall k, 3 - e <= 2 * k -> 2 * k + 1 < e ->
  (Rabs (B2R (re z)) <= bpow radix2 k)%R -> (Rabs (B2R (im z)) <= bpow radix2 k)%R ->
  (Rabs (B2R (re w)) <= bpow radix2 k)%R -> (Rabs (B2R (im w)) <= bpow radix2 k)%R ->
  let u := bpow radix2 (- p) in let eta := bpow radix2 (3 - e - p) in
  let a := B2R (re z) in let b := B2R (im z) in let c := B2R (re w) in let d := B2R (im w) in
  exists r, cartesian_mul float_ops z w = Ok r /\ finite r /\
  (Rabs (B2R (re r) - (a * c - b * d)) <= (2 * u + u * u) * (Rabs (a * c) + Rabs (b * d)) + 2 * eta)%R /\
  (Rabs (B2R (im r) - (a * d + b * c)) <= (2 * u + u * u) * (Rabs (a * d) + Rabs (b * c)) + 2 * eta)%R.
Proof. exact @fl_mul. Qed.
Print Assumptions C84_mul.
(** Scaling by a number of any type that converts to a finite float [s]. *)
Theorem C84_scalar : forall p e {Hp : Prec_gt_0 p} {He : Prec_lt_emax p e} T1 (O1 : MixedOps T1)
  (C : MixedNumConversion T1 (binary_float p e)) (Z1 : MixedZero T1) (z : Cartesian (binary_float p e)) (x : T1) (s : binary_float p e),
  finite z -> is_finite s = true -> mixed_from_num C x = Ok s ->
  ((Rabs (rnd p e (B2R (re z) * B2R s)) < bpow radix2 e)%R -> (Rabs (rnd p e (B2R (im z) * B2R s)) < bpow radix2 e)%R ->
   exists r, cartesian_mul_scalar float_ops C z x = Ok r /\ finite r /\
     B2R (re r) = rnd p e (B2R (re z) * B2R s) /\ B2R (im r) = rnd p e (B2R (im z) * B2R s)) /\
  (B2R s <> 0%R -> (exists x0, mixed_zero Z1 = Ok x0 /\ o_eq O1 x x0 = false) ->
   (Rabs (rnd p e (B2R (re z) / B2R s)) < bpow radix2 e)%R -> (Rabs (rnd p e (B2R (im z) / B2R s)) < bpow radix2 e)%R ->
   exists r, cartesian_div_scalar O1 float_ops C Z1 float_real z x = Ok r /\ cartesian_div_assign_scalar O1 float_ops C Z1 float_real z x = Ok r /\
     finite r /\ B2R (re r) = rnd p e (B2R (re z) / B2R s) /\ B2R (im r) = rnd p e (B2R (im z) / B2R s)).
Proof. exact @fl_scalar. Qed.
Print Assumptions C84_scalar.
Example C84_ex : let z := mkC (float_of_Z 24 128 16777213) (float_of_Z 24 128 3) in let w := mkC (float_of_Z 24 128 5) (float_of_Z 24 128 16777215) in
  map_res (fun r => (B2SF (re r), B2SF (im r))) (cartesian_add float_ops z w) =
    Ok (SpecFloat.S754_finite false 8388609 1, SpecFloat.S754_finite false 8388609 1) /\
  map_res (fun r => (B2SF (re r), B2SF (im r))) (cartesian_mul float_ops z w) =
    Ok (SpecFloat.S754_finite false 16777210 1, SpecFloat.S754_finite false 16777212 24).
Proof. split; vm_compute; reflexivity. Qed.

(** C85.  The result is the angle minus [k] turns: exactly for angles up to 4 pi (a turn being twice the
    type's pi), and within an error of 2^-24 (2^-53) times (phi^2/3 + |phi|) of true turns. *)
Theorem C85_wrap_f32 : forall phi : f32, is_finite phi = true -> (Rabs (B2R phi) < bpow radix2 24)%R -> exists (r : f32) k,
  returns (fun fuel => mixed_wrap_phase (float_wrap_phase fuel) phi) r /\ is_finite r = true /\ (Rabs (IZR k) <= Rabs (B2R phi) / 3)%R /\
  ((Rabs (B2R phi) <= 4 * B2R f32_pi)%R -> B2R r = (B2R phi - IZR k * (2 * B2R f32_pi))%R) /\
  (Rabs (B2R r - (B2R phi - IZR k * (2 * PI))) <= (B2R phi * B2R phi / 3 + Rabs (B2R phi)) * bpow radix2 (-24))%R.
Proof. exact wrap_f32. Qed.
Print Assumptions C85_wrap_f32.
Theorem C85_wrap_f64 : forall phi : f64, is_finite phi = true -> (Rabs (B2R phi) < bpow radix2 53)%R -> exists (r : f64) k,
  returns (fun fuel => mixed_wrap_phase (float_wrap_phase fuel) phi) r /\ is_finite r = true /\ (Rabs (IZR k) <= Rabs (B2R phi) / 3)%R /\
  ((Rabs (B2R phi) <= 4 * B2R f64_pi)%R -> B2R r = (B2R phi - IZR k * (2 * B2R f64_pi))%R) /\
  (Rabs (B2R r - (B2R phi - IZR k * (2 * PI))) <= (B2R phi * B2R phi / 3 + Rabs (B2R phi)) * bpow radix2 (-53))%R.
Proof. exact wrap_f64. Qed.
Print Assumptions C85_wrap_f64.
(** 11 - 4 pi and 1000 - 318 pi *)
Example C85_ex : map_res B2SF (mixed_wrap_phase (float_wrap_phase 9) (float_of_Z 24 128 11)) = Ok (SpecFloat.S754_finite true 13139672 (-23)) /\
  map_res B2SF (mixed_wrap_phase (float_wrap_phase 999) (float_of_Z 24 128 1000)) = Ok (SpecFloat.S754_finite false 16317744 (-24)).
Proof. split; vm_compute; reflexivity. Qed.

(** C86.  [Sn] is the sine/cosine routine, accurate to [d]. *)
Theorem C86_to_cartesian_f32 : forall Sn d, accurate_sincos_float 4 d Sn -> (0 <= d <= 1)%R -> forall q : Polar f32,
  is_finite (mag q) = true -> is_finite (ang q) = true -> (Rabs (B2R (mag q)) <= bpow radix2 126)%R -> (Rabs (B2R (ang q)) < bpow radix2 24)%R ->
  exists z, returns (fun fuel => polar_to_cartesian float_ops (float_wrap_phase fuel) Sn q) z /\ is_finite (re z) = true /\ is_finite (im z) = true /\
  let g := B2R (mag q) in let a := B2R (ang q) in
  let B := (Rabs g * (d + (a * a / 3 + Rabs a + 1 + d) * bpow radix2 (-24)) + bpow radix2 (-149))%R in
  (Rabs (B2R (re z) - g * Rtrigo_def.cos a) <= B /\ Rabs (B2R (im z) - g * Rtrigo_def.sin a) <= B)%R.
Proof. exact tc_f32. Qed.
Print Assumptions C86_to_cartesian_f32.
Theorem C86_to_cartesian_f64 : forall Sn d, accurate_sincos_float 4 d Sn -> (0 <= d <= 1)%R -> forall q : Polar f64,
  is_finite (mag q) = true -> is_finite (ang q) = true -> (Rabs (B2R (mag q)) <= bpow radix2 1022)%R -> (Rabs (B2R (ang q)) < bpow radix2 53)%R ->
  exists z, returns (fun fuel => polar_to_cartesian float_ops (float_wrap_phase fuel) Sn q) z /\ is_finite (re z) = true /\ is_finite (im z) = true /\
  let g := B2R (mag q) in let a := B2R (ang q) in
  let B := (Rabs g * (d + (a * a / 3 + Rabs a + 1 + d) * bpow radix2 (-53)) + bpow radix2 (-1074))%R in
  (Rabs (B2R (re z) - g * Rtrigo_def.cos a) <= B /\ Rabs (B2R (im z) - g * Rtrigo_def.sin a) <= B)%R.
Proof. exact tc_f64. Qed.
Print Assumptions C86_to_cartesian_f64.
(** Routines accurate to four ulps of one exist, for C86 and C87. *)
Example C86_ex32 : accurate_sincos_float 4 (8 * bpow radix2 (-24)) (ideal_sin_float : MixedSin f32) /\
  accurate_atan2_float (8 * bpow radix2 (-24)) (ideal_atan_float angle : MixedAtan f32).
Proof. split; [exact (@ideal_sin_ok 24 128 _ _ ltac:(discriminate) ltac:(reflexivity) 4) | exact (@ideal_atan_ok 24 128 _ _ ltac:(discriminate) ltac:(reflexivity))]. Qed.
Example C86_ex64 : accurate_sincos_float 4 (8 * bpow radix2 (-53)) (ideal_sin_float : MixedSin f64) /\
  accurate_atan2_float (8 * bpow radix2 (-53)) (ideal_atan_float angle : MixedAtan f64).
Proof. split; [exact (@ideal_sin_ok 53 1024 _ _ ltac:(discriminate) ltac:(reflexivity) 4) | exact (@ideal_atan_ok 53 1024 _ _ ltac:(discriminate) ltac:(reflexivity))]. Qed.

(** C87.  [libm_sqrt] correctly rounded, the angle routine [A] accurate to [da]. *)
Theorem C87_round_trip_f32 : forall m Sn ds libm_sqrt A da, accurate_sincos_float 4 ds Sn -> (0 <= ds <= / 4)%R -> (forall x, libm_sqrt x = Bsqrt mode_NE x) ->
  accurate_atan2_float da A -> (da <= / 4)%R ->
  forall z : Cartesian f32, is_finite (re z) = true -> is_finite (im z) = true ->
  let M := Rmax (Rabs (B2R (re z))) (Rabs (B2R (im z))) in
  (bpow radix2 (-57) <= M <= bpow radix2 62)%R ->
  exists w, returns (fun fuel => q <- cartesian_to_polar float_ops (float_sqrt m libm_sqrt fuel) float_powi A z ;; polar_to_cartesian float_ops (float_wrap_phase fuel) Sn q) w /\
  is_finite (re w) = true /\ is_finite (im w) = true /\
  let B := ((da + 101 / 100 * ds + 9 * bpow radix2 (-24)) * sqrt (B2R (re z) * B2R (re z) + B2R (im z) * B2R (im z)))%R in
  (Rabs (B2R (re w) - B2R (re z)) <= B /\ Rabs (B2R (im w) - B2R (im z)) <= B)%R.
Proof. exact roundtrip_f32. Qed.
Print Assumptions C87_round_trip_f32.
Theorem C87_round_trip_f64 : forall m Sn ds libm_sqrt A da, accurate_sincos_float 4 ds Sn -> (0 <= ds <= / 4)%R -> (forall x, libm_sqrt x = Bsqrt mode_NE x) ->
  accurate_atan2_float da A -> (da <= / 4)%R ->
  forall z : Cartesian f64, is_finite (re z) = true -> is_finite (im z) = true ->
  let M := Rmax (Rabs (B2R (re z))) (Rabs (B2R (im z))) in
  (bpow radix2 (-505) <= M <= bpow radix2 510)%R ->
  exists w, returns (fun fuel => q <- cartesian_to_polar float_ops (float_sqrt m libm_sqrt fuel) float_powi A z ;; polar_to_cartesian float_ops (float_wrap_phase fuel) Sn q) w /\
  is_finite (re w) = true /\ is_finite (im w) = true /\
  let B := ((da + 101 / 100 * ds + 9 * bpow radix2 (-53)) * sqrt (B2R (re z) * B2R (re z) + B2R (im z) * B2R (im z)))%R in
  (Rabs (B2R (re w) - B2R (re z)) <= B /\ Rabs (B2R (im w) - B2R (im z)) <= B)%R.
Proof. exact roundtrip_f64. Qed.
Print Assumptions C87_round_trip_f64.
(** The routines exist (C86_ex, C86_ex64); z = 3 - 4i is in range. *)
Example C87_ex : let z := mkC (float_of_Z 24 128 3) (float_of_Z 24 128 (-4)) in is_finite (re z) = true /\ is_finite (im z) = true /\
  let M := Rmax (Rabs (B2R (re z))) (Rabs (B2R (im z))) in (bpow radix2 (-57) <= M <= bpow radix2 62)%R.
Proof.
  intros z. destruct (@FloatLemmas.float_of_Z_exact 24 128 _ _ 3 ltac:(reflexivity)) as (A & FA & _), (@FloatLemmas.float_of_Z_exact 24 128 _ _ (-4) ltac:(reflexivity)) as (B & FB & _).
  split; [exact FA|]. split; [exact FB|]. unfold z. cbn [re im]. rewrite A, B. replace (Rabs 3) with 3%R by (rewrite Rabs_pos_eq; lra). replace (Rabs (-4)) with 4%R by (rewrite Rabs_left; lra).
  rewrite Rmax_right by lra. change 4%R with (bpow radix2 2). cbv zeta. split; apply bpow_le; discriminate.
Qed.
