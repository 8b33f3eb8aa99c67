(** * Property C158: the polynomial sine outside the documented range. *)

From Coq Require Import ZArith Reals List.
From Flocq Require Import Core.Core IEEE754.BinarySingleNaN.
From Verif Require Import Base FloatBase Traits Trig IntImpl FixedPrim FixedImpl FloatImpl Spec SinWide.
Open Scope Z_scope.

Notation fixed_sin m f := (Trig.sin (fixed_ops m f) (fixed_signed m f) (fixed_pi m f) (fixed_powi m f)).
Notation flt_sin := (Trig.sin float_ops float_signed float_pi float_powi).

(** C158: the same accuracy as inside the range, up to three quarters of a turn on either side. *)
Theorem C158_sin_fixed : forall m f, supported f = true -> fsigned f = true -> ffrac f <= fwidth f - 20 ->
  exists p, mixed_pi (fixed_pi m f) = Ok p /\
  forall x, (Rabs (fval f x) <= 3 / 2 * (fval f p - ulp f))%R -> exists r, fixed_sin m f x = Ok r /\
    (Rabs (fval f r - Rtrigo_def.sin (fval f x)) <= 362 / 100000000 + 405 / 100 * ulp f)%R.
Proof. exact wide_fixed. Qed.
Print Assumptions C158_sin_fixed.
Theorem C158_sin_f32 : exists p : f32, mixed_pi float_pi = Ok p /\
  forall x : f32, is_finite x = true -> (Rabs (B2R x) <= 3 / 2 * B2R p)%R ->
    exists r, flt_sin x = Ok r /\ is_finite r = true /\ (Rabs (B2R r - Rtrigo_def.sin (B2R x)) <= 5 / 1000000)%R.
Proof. exact wide_f32. Qed.
Print Assumptions C158_sin_f32.
Theorem C158_sin_f64 : exists p : f64, mixed_pi float_pi = Ok p /\
  forall x : f64, is_finite x = true -> (Rabs (B2R x) <= 3 / 2 * B2R p)%R ->
    exists r, flt_sin x = Ok r /\ is_finite r = true /\ (Rabs (B2R r - Rtrigo_def.sin (B2R x)) <= 5 / 1000000)%R.
Proof. exact wide_f64. Qed.
Print Assumptions C158_sin_f64.
(** Not much further: at 10, whose sine is -0.54, the result is below -30. *)
Theorem C158_no_further : (exists r : f32, flt_sin (float_of_Z 24 128 10) = Ok r /\ B2R (float_of_Z 24 128 10) = 10%R /\ is_finite r = true /\ (B2R r < -30)%R) /\
  (exists r : f64, flt_sin (float_of_Z 53 1024 10) = Ok r /\ B2R (float_of_Z 53 1024 10) = 10%R /\ is_finite r = true /\ (B2R r < -30)%R) /\
  fixed_sin Debug (mkFty true 64 32) (10 * 2 ^ 32) = Ok (- 130762733400) /\ (fval (mkFty true 64 32) (- 130762733400) < -30)%R.
Proof. exact ten. Qed.
Print Assumptions C158_no_further.
(** -4.5, beyond -pi *)
Example C158_ex : supported (mkFty true 32 12) = true /\ mixed_pi (fixed_pi Debug (mkFty true 32 12)) = Ok 12868 /\
  fixed_sin Debug (mkFty true 32 12) (- 4096 * 9 / 2) = Ok 4004.
Proof. repeat split; vm_compute; reflexivity. Qed.
