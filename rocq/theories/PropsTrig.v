(** * Properties C19-C22, C54: the polynomial sine and cosine.

    [sin], [cos] of [Rtrigo_def] are the real functions of the standard library. *)

From Coq Require Import ZArith Reals List.
From Flocq Require Import Core.Core IEEE754.BinarySingleNaN.
From Verif Require Import Base FloatBase Literals Traits Trig IntImpl FixedPrim FixedImpl FloatImpl Spec
  TrigProofs.
Open Scope Z_scope.

Notation fixed_sin m f := (Trig.sin (fixed_ops m f) (fixed_signed m f) (fixed_pi m f) (fixed_powi m f)).
Notation fixed_cos m f := (Trig.cos (fixed_ops m f) (fixed_signed m f) (fixed_pi m f) (fixed_powi m f)).
Notation flt_sin := (Trig.sin float_ops float_signed float_pi float_powi).
Notation flt_cos := (Trig.cos float_ops float_signed float_pi float_powi).

(** C19.  At least twenty integer bits, counting the sign. *)
Theorem C19_sin_fixed : forall m f, supported f = true -> fsigned f = true -> ffrac f <= fwidth f - 20 ->
  exists p, mixed_pi (fixed_pi m f) = Ok p /\
  (forall x, (Rabs (fval f x) <= PI)%R -> (Rabs (fval f x) <= fval f p)%R) /\
  forall x, (Rabs (fval f x) <= fval f p)%R -> exists r, fixed_sin m f x = Ok r /\
    (Rabs (fval f r - Rtrigo_def.sin (fval f x)) <= 362 / 100000000 + 405 / 100 * ulp f)%R.
Proof. exact c19. Qed.
Print Assumptions C19_sin_fixed.
Example C19_ex : supported (mkFty true 32 12) = true /\ fixed_sin Debug (mkFty true 32 12) (2 * 2 ^ 12) = Ok 3725 /\
  mixed_pi (fixed_pi Debug (mkFty true 32 12)) = Ok 12868.
Proof. repeat split; vm_compute; reflexivity. Qed.

(** C20 is false: with fewer than twenty integer bits every call panics in debug builds (the constant
    362880 does not fit), and with at most seven every call panics in release builds too (it wraps to
    zero and is divided by). *)
Theorem C20_sin_panics_refuted : forall f, supported f = true -> fsigned f = true ->
  (fwidth f - 20 < ffrac f -> forall x, fixed_sin Debug f x = Panic POverflow) /\
  (fwidth f - ffrac f <= 7 -> forall x, fixed_sin Release f x = Panic PDivZero).
Proof. exact c20. Qed.
Print Assumptions C20_sin_panics_refuted.
(** Missing: the formats just named, where the property is false.  Everywhere else no call in
    [-pi, pi] panics (debug), no call at all panics (release). *)
Theorem C20_sin_total_partial : forall f, supported f = true -> fsigned f = true ->
  (ffrac f <= fwidth f - 20 -> forall p x, mixed_pi (fixed_pi Debug f) = Ok p -> (Rabs (fval f x) <= fval f p)%R ->
     exists r, fixed_sin Debug f x = Ok r) /\
  (8 <= fwidth f - ffrac f -> forall x, exists r, fixed_sin Release f x = Ok r).
Proof. exact c20_total. Qed.
Print Assumptions C20_sin_total_partial.
(** the documentation's own comparison type, FixedI32<U22> (sin 0.5 in release is 0.47953, not 0.47943), and
    FixedI32<U28> *)
Example C20_ex : supported (mkFty true 32 22) = true /\ fixed_sin Debug (mkFty true 32 22) 0 = Panic POverflow /\
  fixed_sin Release (mkFty true 32 22) 2097152 = Ok 2011293 /\
  supported (mkFty true 32 28) = true /\ fixed_sin Release (mkFty true 32 28) 0 = Panic PDivZero.
Proof. repeat split; vm_compute; reflexivity. Qed.

(** C21. *)
Theorem C21_cos_fixed : forall m f, supported f = true -> fsigned f = true -> ffrac f <= fwidth f - 20 ->
  exists p, mixed_pi (fixed_pi m f) = Ok p /\
  forall x, fvalid f x -> (fval f x + fval f p / 2 <= fval f (fmax f))%R -> exists r,
    returns (fun fuel => fixed_cos m f fuel x) r /\
    (Rabs (fval f r - Rtrigo_def.cos (fval f x)) <= 362 / 100000000 + (6 + Rabs (fval f x) / 5) * ulp f)%R.
Proof. exact c21. Qed.
Print Assumptions C21_cos_fixed.
Example C21_ex : supported (mkFty true 32 12) = true /\ fixed_cos Debug (mkFty true 32 12) 10 (2 * 2 ^ 12) = Ok (-1704) /\
  (fval (mkFty true 32 12) 8192 + fval (mkFty true 32 12) 12868 / 2 <= fval (mkFty true 32 12) (fmax (mkFty true 32 12)))%R.
Proof. exact c21_ex. Qed.

(** C22. *)
Theorem C22_sin_f32 :
  (forall x : f32, exists r r', flt_sin x = Ok r /\ flt_sin (Bopp x) = Ok r' /\ same_float r' (Bopp r)) /\
  exists p : f32, mixed_pi float_pi = Ok p /\
  (forall x : f32, is_finite x = true -> (Rabs (B2R x) <= PI)%R -> (Rabs (B2R x) <= B2R p)%R) /\
  (forall x : f32, is_finite x = true -> (Rabs (B2R x) <= B2R p)%R ->
    exists r, flt_sin x = Ok r /\ is_finite r = true /\ (Rabs (B2R r - Rtrigo_def.sin (B2R x)) <= 5 / 1000000)%R).
Proof. exact c22_f32. Qed.
Print Assumptions C22_sin_f32.
Theorem C22_sin_f64 :
  (forall x : f64, exists r r', flt_sin x = Ok r /\ flt_sin (Bopp x) = Ok r' /\ same_float r' (Bopp r)) /\
  exists p : f64, mixed_pi float_pi = Ok p /\
  (forall x : f64, is_finite x = true -> (Rabs (B2R x) <= PI)%R -> (Rabs (B2R x) <= B2R p)%R) /\
  (forall x : f64, is_finite x = true -> (Rabs (B2R x) <= B2R p)%R ->
    exists r, flt_sin x = Ok r /\ is_finite r = true /\ (Rabs (B2R r - Rtrigo_def.sin (B2R x)) <= 5 / 1000000)%R).
Proof. exact c22_f64. Qed.
Print Assumptions C22_sin_f64.
Example C22_ex : map_res B2SF (flt_sin (float_of_Z 24 128 2)) = Ok (SpecFloat.S754_finite false 15255482 (-24)).
Proof. vm_compute. reflexivity. Qed.

(** C54. *)
Theorem C54_cos_f32 : exists p : f32, mixed_pi float_pi = Ok p /\
  (forall x : f32, is_finite x = true -> (Rabs (B2R x) <= B2R p)%R -> exists r : f32, is_finite r = true /\
    (Rabs (B2R r - Rtrigo_def.cos (B2R x)) <= 5 / 1000000)%R /\
    forall fuel, (2 <= fuel)%nat -> flt_cos fuel x = Ok r).
Proof. exact c54_f32. Qed.
Print Assumptions C54_cos_f32.
Theorem C54_cos_f64 : exists p : f64, mixed_pi float_pi = Ok p /\
  (forall x : f64, is_finite x = true -> (Rabs (B2R x) <= B2R p)%R -> exists r : f64, is_finite r = true /\
    (Rabs (B2R r - Rtrigo_def.cos (B2R x)) <= 5 / 1000000)%R /\
    forall fuel, (2 <= fuel)%nat -> flt_cos fuel x = Ok r).
Proof. exact c54_f64. Qed.
Print Assumptions C54_cos_f64.
Example C54_ex : map_res B2SF (flt_cos 2 (float_of_Z 24 128 2)) = Ok (SpecFloat.S754_finite true 13963573 (-25)).
Proof. vm_compute. reflexivity. Qed.
