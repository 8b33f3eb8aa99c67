(** * Property C155: neighbouring angles have neighbouring sines and cosines. *)

From Coq Require Import ZArith Reals Lra Lia List.
From Flocq Require Import Core.Core IEEE754.BinarySingleNaN.
From Verif Require Import Base FloatBase Literals Traits Trig IntImpl FixedPrim FixedImpl FloatImpl Spec SmoothProofs.
Open Scope Z_scope.

(** C155.  Moving the angle by some amount moves the result by at most that amount and a few
    units in the last place.  The bound says nothing of the true sine: it is finer than what
    accuracy gives (there the error of the polynomial would count twice), and it holds where
    the code changes branch and where the phase is wrapped. *)
Theorem C155_sin_fixed : forall m f, supported f = true -> fsigned f = true -> ffrac f <= fwidth f - 20 ->
  forall x y, (Rabs (fval f x) <= PI)%R -> (Rabs (fval f y) <= PI)%R -> exists r s,
  sin (fixed_ops m f) (fixed_signed m f) (fixed_pi m f) (fixed_powi m f) x = Ok r /\
  sin (fixed_ops m f) (fixed_signed m f) (fixed_pi m f) (fixed_powi m f) y = Ok s /\
  (Rabs (fval f r - fval f s) <= Rabs (fval f x - fval f y) + 5 * ulp f)%R.
Proof. exact sin_smooth_fixed. Qed.
Print Assumptions C155_sin_fixed.

Theorem C155_wrap_sin_fixed : forall m f, supported f = true -> fsigned f = true -> ffrac f <= fwidth f - 20 ->
  forall x y, fvalid f x -> fvalid f y -> exists a b r s,
  returns (fun fuel => mixed_wrap_phase (fixed_wrap_phase m f fuel) x) a /\
  returns (fun fuel => mixed_wrap_phase (fixed_wrap_phase m f fuel) y) b /\
  sin (fixed_ops m f) (fixed_signed m f) (fixed_pi m f) (fixed_powi m f) a = Ok r /\
  sin (fixed_ops m f) (fixed_signed m f) (fixed_pi m f) (fixed_powi m f) b = Ok s /\
  (Rabs (fval f r - fval f s) <= Rabs (fval f x - fval f y) + 5 * ulp f)%R.
Proof. exact wrap_sin_fixed. Qed.
Print Assumptions C155_wrap_sin_fixed.

Theorem C155_cos_fixed : forall m f, supported f = true -> fsigned f = true -> ffrac f <= fwidth f - 20 ->
  forall x y, fvalid f x -> fvalid f y -> (fval f x <= fval f (fmax f) - 2)%R -> (fval f y <= fval f (fmax f) - 2)%R -> exists r s,
  returns (fun fuel => cos (fixed_ops m f) (fixed_signed m f) (fixed_pi m f) (fixed_powi m f) fuel x) r /\
  returns (fun fuel => cos (fixed_ops m f) (fixed_signed m f) (fixed_pi m f) (fixed_powi m f) fuel y) s /\
  (Rabs (fval f r - fval f s) <= Rabs (fval f x - fval f y) + 5 * ulp f)%R.
Proof. exact cos_smooth_fixed. Qed.
Print Assumptions C155_cos_fixed.

Theorem C155_f32 : forall x y : f32, is_finite x = true -> is_finite y = true -> (Rabs (B2R x) <= PI)%R -> (Rabs (B2R y) <= PI)%R ->
  (exists r s : f32, sin float_ops float_signed float_pi float_powi x = Ok r /\ sin float_ops float_signed float_pi float_powi y = Ok s /\
    is_finite r = true /\ is_finite s = true /\ (Rabs (B2R r - B2R s) <= Rabs (B2R x - B2R y) + 19 * bpow radix2 (-24))%R) /\
  exists r s : f32, is_finite r = true /\ is_finite s = true /\
    (forall fuel, (2 <= fuel)%nat -> cos float_ops float_signed float_pi float_powi fuel x = Ok r /\ cos float_ops float_signed float_pi float_powi fuel y = Ok s) /\
    (Rabs (B2R r - B2R s) <= Rabs (B2R x - B2R y) + 77 / 2 * bpow radix2 (-24))%R.
Proof. exact smooth_f32. Qed.
Print Assumptions C155_f32.

Theorem C155_f64 : forall x y : f64, is_finite x = true -> is_finite y = true -> (Rabs (B2R x) <= PI)%R -> (Rabs (B2R y) <= PI)%R ->
  (exists r s : f64, sin float_ops float_signed float_pi float_powi x = Ok r /\ sin float_ops float_signed float_pi float_powi y = Ok s /\
    is_finite r = true /\ is_finite s = true /\ (Rabs (B2R r - B2R s) <= Rabs (B2R x - B2R y) + 19 * bpow radix2 (-53))%R) /\
  exists r s : f64, is_finite r = true /\ is_finite s = true /\
    (forall fuel, (2 <= fuel)%nat -> cos float_ops float_signed float_pi float_powi fuel x = Ok r /\ cos float_ops float_signed float_pi float_powi fuel y = Ok s) /\
    (Rabs (B2R r - B2R s) <= Rabs (B2R x - B2R y) + 77 / 2 * bpow radix2 (-53))%R.
Proof. exact smooth_f64. Qed.
Print Assumptions C155_f64.

(** I20F12: the angles 12866 and 12870 units lie on the two sides of the wrap (pi is 12868
    units): the sines after wrapping are 2 and -2 units, the cosines -4095 units both. *)
Example C155_ex : let f := mkFty true 32 12 in supported f = true /\ ffrac f <= fwidth f - 20 /\ fvalid f 12866 /\ fvalid f 12870 /\
  exists a b r s c d, mixed_wrap_phase (fixed_wrap_phase Debug f 5) 12866 = Ok a /\ mixed_wrap_phase (fixed_wrap_phase Debug f 5) 12870 = Ok b /\ b < 0 < a /\
  sin (fixed_ops Debug f) (fixed_signed Debug f) (fixed_pi Debug f) (fixed_powi Debug f) a = Ok r /\
  sin (fixed_ops Debug f) (fixed_signed Debug f) (fixed_pi Debug f) (fixed_powi Debug f) b = Ok s /\ Z.abs (r - s) <= 4 /\
  cos (fixed_ops Debug f) (fixed_signed Debug f) (fixed_pi Debug f) (fixed_powi Debug f) 5 12866 = Ok c /\
  cos (fixed_ops Debug f) (fixed_signed Debug f) (fixed_pi Debug f) (fixed_powi Debug f) 5 12870 = Ok d /\ Z.abs (c - d) <= 1 /\ c < -4080.
Proof.
  cbv zeta. repeat (split; [vm_compute; repeat split; congruence|]).
  do 6 eexists. repeat (split; [vm_compute; reflexivity|]). vm_compute; repeat split; congruence.
Qed.
