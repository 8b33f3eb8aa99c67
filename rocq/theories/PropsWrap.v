(** * Properties C08-C12, C39: phase wrapping. *)

From Coq Require Import ZArith Reals List.
From Flocq Require Import Core.Core IEEE754.BinarySingleNaN.
From Verif Require Import Base FloatBase Literals Traits Trig IntImpl FixedPrim FixedImpl FloatImpl Complex Spec
  WrapProofs WrapProofs2.
Open Scope Z_scope.

(** C08.  At least four integer bits (counting the sign), or the release profile with any
    supported format. *)
Theorem C08_wrap_phase_fixed : forall m f, supported f = true -> fsigned f = true ->
  (m = Release \/ ffrac f <= fwidth f - 4) ->
  exists p, mixed_pi (fixed_pi m f) = Ok p /\ (0 < fval f p)%R /\
  forall phi, fvalid f phi -> exists r,
    returns (fun fuel => mixed_wrap_phase (fixed_wrap_phase m f fuel) phi) r /\
    (- fval f p <= fval f r < fval f p)%R /\
    (exists k, fval f phi - fval f r = IZR k * (2 * fval f p))%R /\
    (forall r', (- fval f p <= fval f r' < fval f p)%R ->
       (exists k, fval f phi - fval f r' = IZR k * (2 * fval f p))%R -> r' = r).
Proof. exact fixed_wrap_all. Qed.
Print Assumptions C08_wrap_phase_fixed.
Example C08_ex : supported (mkFty true 32 22) = true /\ fvalid (mkFty true 32 22) (100 * 2 ^ 22) /\
  mixed_wrap_phase (fixed_wrap_phase Debug (mkFty true 32 22) 100) (100 * 2 ^ 22) = Ok (-2227040).
Proof. repeat split; vm_compute; congruence. Qed.

(** C09 is false: with three integer bits every call panics in debug builds. *)
Theorem C09_wrap_phase_refuted : forall f, supported f = true -> fsigned f = true -> ffrac f = fwidth f - 3 ->
  forall fuel phi, mixed_wrap_phase (fixed_wrap_phase Debug f fuel) phi = Panic POverflow.
Proof. exact fixed_wrap_3bits. Qed.
Print Assumptions C09_wrap_phase_refuted.
(** The formats on which it panics are exactly those (debug); by C08 none panics in release.
    Missing: the four formats, where the property is false. *)
Theorem C09_wrap_phase_panic_iff_partial : forall f, supported f = true -> fsigned f = true -> forall phi, fvalid f phi ->
  ((exists p, panics (fun fuel => mixed_wrap_phase (fixed_wrap_phase Debug f fuel) phi) p) <-> ffrac f = fwidth f - 3).
Proof. exact fixed_wrap_panic_iff. Qed.
Print Assumptions C09_wrap_phase_panic_iff_partial.
Example C09_ex : supported (mkFty true 8 5) = true /\ fvalid (mkFty true 8 5) 0 /\
  mixed_wrap_phase (fixed_wrap_phase Release (mkFty true 8 5) 9) (-128) = Ok 74.
Proof. repeat split; vm_compute; congruence. Qed.

(** C10. *)
Theorem C10_wrap_range_f32 :
  exists p : f32, mixed_pi float_pi = Ok p /\ is_finite p = true /\ (3 <= B2R p <= 22 / 7)%R /\
  (forall fuel (phi r : f32), mixed_wrap_phase (float_wrap_phase fuel) phi = Ok r ->
    (phi = B754_nan /\ r = B754_nan) \/
    (is_finite phi = true /\ is_finite r = true /\ (- B2R p <= B2R r < B2R p)%R)).
Proof. exact (c10_of 27 wrap_claims_f32). Qed.
Print Assumptions C10_wrap_range_f32.
Theorem C10_wrap_range_f64 :
  exists p : f64, mixed_pi float_pi = Ok p /\ is_finite p = true /\ (3 <= B2R p <= 22 / 7)%R /\
  (forall fuel (phi r : f64), mixed_wrap_phase (float_wrap_phase fuel) phi = Ok r ->
    (phi = B754_nan /\ r = B754_nan) \/
    (is_finite phi = true /\ is_finite r = true /\ (- B2R p <= B2R r < B2R p)%R)).
Proof. exact (c10_of 56 wrap_claims_f64). Qed.
Print Assumptions C10_wrap_range_f64.
Example C10_ex : map_res B2SF (mixed_wrap_phase (float_wrap_phase 100) (float_of_Z 53 1024 100)) =
  Ok (SpecFloat.S754_finite true 4782506785541440 (-53)).
Proof. vm_compute. reflexivity. Qed.

(** C11 is false: for large angles the subtraction of 2*pi is absorbed by rounding. *)
Theorem C11_wrap_terminates_refuted : 
  diverges (fun fuel => mixed_wrap_phase (float_wrap_phase fuel) (float_of_Z 24 128 (2 ^ 27 + 16))) /\
  diverges (fun fuel => mixed_wrap_phase (float_wrap_phase fuel) (float_of_Z 53 1024 (2 ^ 56 + 16))).
Proof. exact c11_refuted. Qed.
Print Assumptions C11_wrap_terminates_refuted.
(** It returns exactly up to 2^27 (f32) and 2^56 (f64).  Missing: the larger angles, where the
    property is false. *)
Theorem C11_wrap_terminates_f32_partial : forall phi : f32,
  ((exists r, returns (fun fuel => mixed_wrap_phase (float_wrap_phase fuel) phi) r) <->
     phi = B754_nan \/ (is_finite phi = true /\ (Rabs (B2R phi) <= bpow radix2 27)%R)) /\
  (diverges (fun fuel => mixed_wrap_phase (float_wrap_phase fuel) phi) <->
     (exists s, phi = B754_infinity s) \/ (is_finite phi = true /\ (bpow radix2 27 < Rabs (B2R phi))%R)).
Proof. exact (c11_of 27 wrap_claims_f32). Qed.
Print Assumptions C11_wrap_terminates_f32_partial.
Theorem C11_wrap_terminates_f64_partial : forall phi : f64,
  ((exists r, returns (fun fuel => mixed_wrap_phase (float_wrap_phase fuel) phi) r) <->
     phi = B754_nan \/ (is_finite phi = true /\ (Rabs (B2R phi) <= bpow radix2 56)%R)) /\
  (diverges (fun fuel => mixed_wrap_phase (float_wrap_phase fuel) phi) <->
     (exists s, phi = B754_infinity s) \/ (is_finite phi = true /\ (bpow radix2 56 < Rabs (B2R phi))%R)).
Proof. exact (c11_of 56 wrap_claims_f64). Qed.
Print Assumptions C11_wrap_terminates_f64_partial.
(** the f32 angle 100 is in the terminating range *)
Example C11_ex : let x := float_of_Z 24 128 100 in is_finite x = true /\ (Rabs (B2R x) <= bpow radix2 27)%R.
Proof.
  destruct (@FloatLemmas.float_of_Z_exact 24 128 _ _ 100 ltac:(reflexivity)) as (A & F & _). split; [exact F|]. rewrite A, <- abs_IZR. apply (IZR_le 100 134217728). discriminate.
Qed.

(** C12. *)
Theorem C12_wrap_identity_fixed : forall m f, supported f = true -> fsigned f = true ->
  (m = Release \/ ffrac f <= fwidth f - 4) -> forall p, mixed_pi (fixed_pi m f) = Ok p ->
  (forall phi, fvalid f phi -> (- fval f p <= fval f phi < fval f p)%R ->
     returns (fun fuel => mixed_wrap_phase (fixed_wrap_phase m f fuel) phi) phi) /\
  (forall phi r, fvalid f phi -> returns (fun fuel => mixed_wrap_phase (fixed_wrap_phase m f fuel) phi) r ->
     returns (fun fuel => mixed_wrap_phase (fixed_wrap_phase m f fuel) r) r).
Proof. exact fixed_wrap_identity. Qed.
Print Assumptions C12_wrap_identity_fixed.
Theorem C12_wrap_identity_f32 :
  exists p : f32, mixed_pi float_pi = Ok p /\ is_finite p = true /\ 
  (forall phi : f32, phi = B754_nan \/ (is_finite phi = true /\ (- B2R p <= B2R phi < B2R p)%R) ->
     forall fuel, mixed_wrap_phase (float_wrap_phase (S fuel)) phi = Ok phi) /\
  (forall fuel (phi r : f32), mixed_wrap_phase (float_wrap_phase fuel) phi = Ok r ->
     forall fuel', mixed_wrap_phase (float_wrap_phase (S fuel')) r = Ok r).
Proof. exact (c12_of 27 wrap_claims_f32). Qed.
Print Assumptions C12_wrap_identity_f32.
Theorem C12_wrap_identity_f64 :
  exists p : f64, mixed_pi float_pi = Ok p /\ is_finite p = true /\ 
  (forall phi : f64, phi = B754_nan \/ (is_finite phi = true /\ (- B2R p <= B2R phi < B2R p)%R) ->
     forall fuel, mixed_wrap_phase (float_wrap_phase (S fuel)) phi = Ok phi) /\
  (forall fuel (phi r : f64), mixed_wrap_phase (float_wrap_phase fuel) phi = Ok r ->
     forall fuel', mixed_wrap_phase (float_wrap_phase (S fuel')) r = Ok r).
Proof. exact (c12_of 56 wrap_claims_f64). Qed.
Print Assumptions C12_wrap_identity_f64.
Example C12_ex : mixed_wrap_phase (fixed_wrap_phase Debug (mkFty true 16 8) 1) (-804) = Ok (-804) /\
  mixed_pi (fixed_pi Debug (mkFty true 16 8)) = Ok 804.
Proof. split; vm_compute; reflexivity. Qed.

(** C39, for any sine/cosine routine. *)
Theorem C39_to_cartesian_periodic : forall m f, supported f = true -> fsigned f = true ->
  (m = Release \/ ffrac f <= fwidth f - 4) -> forall p, mixed_pi (fixed_pi m f) = Ok p ->
  forall (Sn : MixedSin Z) mg a b, fvalid f a -> fvalid f b ->
  (exists k, fval f a - fval f b = IZR k * (2 * fval f p))%R ->
  exists n0, forall fuel, (n0 <= fuel)%nat ->
    ops_to_cartesian (fixed_ops m f) (fixed_wrap_phase m f fuel) Sn (mkP mg a) =
    ops_to_cartesian (fixed_ops m f) (fixed_wrap_phase m f fuel) Sn (mkP mg b).
Proof. exact to_cartesian_periodic. Qed.
Print Assumptions C39_to_cartesian_periodic.
Example C39_ex : fvalid (mkFty true 16 8) 5000 /\ fvalid (mkFty true 16 8) (5000 - 3 * (2 * 804)) /\
  (exists k, fval (mkFty true 16 8) 5000 - fval (mkFty true 16 8) (5000 - 3 * (2 * 804)) = IZR k * (2 * fval (mkFty true 16 8) 804))%R.
Proof. repeat split; try (vm_compute; congruence). exists 3. unfold fval. rewrite minus_IZR, !mult_IZR. ring. Qed.
