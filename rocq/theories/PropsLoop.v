(** * Properties C105-C107: phase accumulators, recursive filters, order of conversions. *)

From Coq Require Import ZArith Reals Lra List.
From Flocq Require Import Core.Core IEEE754.BinarySingleNaN.
From Verif Require Import Base FloatBase Literals Traits Trig IntImpl FixedPrim FixedImpl FloatImpl Complex Spec SpecFilter
  ScalarProofs2 ConvProofs PhaseAcc FilterProofs OrderProofs.
Import ListNotations.
Open Scope Z_scope.

(** The loop [for s in steps { phase = (phase + s).mixed_wrap_phase() }] at a fixed-point type *)
Notation nco_loop m f fuel := (run (fun a s => t <- o_add (fixed_ops m f) a s ;; mixed_wrap_phase (fixed_wrap_phase m f fuel) t)).
(** and at a float type *)
Notation nco_loop_float fuel := (run (fun a s => t <- o_add float_ops a s ;; mixed_wrap_phase (float_wrap_phase fuel) t)).
(** The loop [for x in xs { z = z * w + x }] *)
Notation filter_loop m f w := (run (fun z x => p <- cartesian_mul (fixed_ops m f) z w ;; cartesian_add (fixed_ops m f) p x)).

(** C105.  A phase accumulator stays in [-pi, pi) and drifts by nothing at all in fixed
    point, and by at most half an ulp of 8 per step in floating point. *)
Theorem C105_exact_fixed : forall m f, supported f = true -> fsigned f = true -> (m = Release \/ ffrac f <= fwidth f - 4) ->
  exists p, mixed_pi (fixed_pi m f) = Ok p /\
  forall steps phi, (- fval f p <= fval f phi < fval f p)%R -> Forall (fun s => (fval f p + Rabs (fval f s) <= fval f (fmax f))%R) steps ->
  exists r, returns (fun fuel => nco_loop m f fuel phi steps) r /\ (- fval f p <= fval f r < fval f p)%R /\
    exists k, (fval f phi + fold_right Rplus 0 (map (fval f) steps) = fval f r + IZR k * (2 * fval f p))%R.
Proof. exact nco_fixed. Qed.
Print Assumptions C105_exact_fixed.
Theorem C105_only_total_matters_fixed : forall m f, supported f = true -> fsigned f = true -> (m = Release \/ ffrac f <= fwidth f - 4) ->
  exists p, mixed_pi (fixed_pi m f) = Ok p /\
  forall s1 s2 phi psi, (- fval f p <= fval f phi < fval f p)%R -> (- fval f p <= fval f psi < fval f p)%R ->
  Forall (fun s => (fval f p + Rabs (fval f s) <= fval f (fmax f))%R) s1 -> Forall (fun s => (fval f p + Rabs (fval f s) <= fval f (fmax f))%R) s2 ->
  (exists k, fval f phi + fold_right Rplus 0 (map (fval f) s1) - (fval f psi + fold_right Rplus 0 (map (fval f) s2)) = IZR k * (2 * fval f p))%R ->
  exists r, returns (fun fuel => nco_loop m f fuel phi s1) r /\ returns (fun fuel => nco_loop m f fuel psi s2) r.
Proof. exact nco_fixed_sum. Qed.
Print Assumptions C105_only_total_matters_fixed.
Theorem C105_drift_f32 : exists p : f32, mixed_pi float_pi = Ok p /\ forall steps (phi : f32), is_finite phi = true -> (- B2R p <= B2R phi < B2R p)%R ->
  Forall (fun s => is_finite s = true /\ (Rabs (B2R s) <= B2R p)%R) steps ->
  exists (r : f32) k, returns (fun fuel => nco_loop_float fuel phi steps) r /\ is_finite r = true /\ (- B2R p <= B2R r < B2R p)%R /\
  (Rabs (B2R phi + fold_right Rplus 0 (map B2R steps) - (B2R r + IZR k * (2 * B2R p))) <= INR (length steps) * bpow radix2 (-22))%R.
Proof. exact nco_f32. Qed.
Print Assumptions C105_drift_f32.
Theorem C105_drift_f64 : exists p : f64, mixed_pi float_pi = Ok p /\ forall steps (phi : f64), is_finite phi = true -> (- B2R p <= B2R phi < B2R p)%R ->
  Forall (fun s => is_finite s = true /\ (Rabs (B2R s) <= B2R p)%R) steps ->
  exists (r : f64) k, returns (fun fuel => nco_loop_float fuel phi steps) r /\ is_finite r = true /\ (- B2R p <= B2R r < B2R p)%R /\
  (Rabs (B2R phi + fold_right Rplus 0 (map B2R steps) - (B2R r + IZR k * (2 * B2R p))) <= INR (length steps) * bpow radix2 (-51))%R.
Proof. exact nco_f64. Qed.
Print Assumptions C105_drift_f64.
(** FixedI32<U20>, seven steps of 1.5 and back: 7*1.5 mod 2pi, then 0 again; and one step of 10.5 gives the same *)
Example C105_ex : let f := mkFty true 32 20 in let s := 1572864 in
  nco_loop Debug f 9 0 [s; s; s; s; s; s; s] = Ok (7 * s - 4 * 3294199) /\
  nco_loop Debug f 9 0 [7 * s] = Ok (7 * s - 4 * 3294199) /\
  nco_loop Debug f 9 0 [s; s; s; s; s; s; s; - s; - s; - s; - s; - s; - s; - s] = Ok 0 /\
  mixed_pi (fixed_pi Debug f) = Ok 3294199.
Proof. repeat split; vm_compute; reflexivity. Qed.
Example C105_float_ex : let s := float_of_Z 24 128 3 in
  match nco_loop_float 9 (float_of_Z 24 128 0) [s; s; s] with Ok r => (B2SF r) | _ => SpecFloat.S754_nan end
  = SpecFloat.S754_finite false 11395146 (-22).
Proof. vm_compute. reflexivity. Qed.

(** C106.  A complex one-pole filter z <- z*w + x. *)
Theorem C106_error_fixed : forall f, supported f = true -> forall w z xs r, filter_loop Debug f w z xs = Ok r ->
  let e := fold_left (iir (cval f w)) (map (cval f) xs) (cval f z) in
  filter_loop Release f w z xs = Ok r /\
  ((cabs (cval f w) <= 1)%R -> (cabs (csub (cval f r) e) <= 224 / 100 * INR (length xs) * ulp f)%R) /\
  (forall rho, (cabs (cval f w) <= rho < 1)%R -> (cabs (csub (cval f r) e) <= 224 / 100 * ulp f / (1 - rho))%R).
Proof. exact filter_error. Qed.
Print Assumptions C106_error_fixed.
Theorem C106_returns_fixed : forall f, supported f = true -> fsigned f = true -> forall w, (cabs (cval f w) <= 1)%R -> forall xs z,
  (cabs (cval f z) + fold_right Rplus 0 (map (fun x => cabs (cval f x)) xs) + 224 / 100 * INR (length xs) * ulp f <= fval f (fmax f))%R ->
  exists r, filter_loop Debug f w z xs = Ok r.
Proof. exact filter_total. Qed.
Print Assumptions C106_returns_fixed.
Theorem C106_stable_fixed : forall f, supported f = true -> fsigned f = true -> forall w rho X B, (cabs (cval f w) <= rho)%R ->
  (rho * B + X + 224 / 100 * ulp f <= B <= fval f (fmax f))%R -> forall xs z, (cabs (cval f z) <= B)%R ->
  Forall (fun x => (cabs (cval f x) <= X)%R) xs ->
  exists r, filter_loop Debug f w z xs = Ok r /\ (cabs (cval f r) <= B)%R.
Proof. exact filter_stable. Qed.
Print Assumptions C106_stable_fixed.
(** FixedI16<U8>: w = i/2, x = 1; the outputs 1, 1+i/2, 3/4+i/2, 3/4+3i/8 ... are exact *)
Example C106_ex : let f := mkFty true 16 8 in let x := mkC 256 0 in
  filter_loop Debug f (mkC 0 128) (mkC 0 0) [x; x; x; x] = Ok (mkC 192 96) /\
  filter_loop Debug f (mkC 181 181) (mkC 256 0) (repeat (mkC 0 0) 8) = Ok (mkC 254 0).
Proof. split; vm_compute; reflexivity. Qed.
(** the head room condition is met: |w| <= 1/2, |x| <= 1, B = 3 *)
Example C106_stable_ex : let f := mkFty true 16 8 in (/ 2 * 3 + 1 + 224 / 100 * ulp f <= 3 <= fval f (fmax f))%R.
Proof.
  cbv zeta. unfold ulp, fval, fmax. change (bpow radix2 (- ffrac _)) with (/ 256)%R. change (imax _) with 32767. lra.
Qed.

(** C107.  Conversions keep order: a larger input never gives a smaller output. *)
Theorem C107_float_to_fixed : forall f p e (x y : binary_float p e) a b, supported f = true -> fx_of_float Debug f x = Ok a -> fx_of_float Debug f y = Ok b ->
  Bleb x y = true -> (fval f a <= fval f b)%R.
Proof. exact float_to_fixed_mono. Qed.
Print Assumptions C107_float_to_fixed.
Theorem C107_fixed_to_float : forall m f a b, supported f = true -> (fval f a <= fval f b)%R ->
  (exists x y, mixed_to_num (fixed_conv_f32 m f) a = Ok x /\ mixed_to_num (fixed_conv_f32 m f) b = Ok y /\ Bleb x y = true) /\
  (exists x y, mixed_to_num (fixed_conv_f64 m f) a = Ok x /\ mixed_to_num (fixed_conv_f64 m f) b = Ok y /\ Bleb x y = true).
Proof. exact fixed_to_float_mono. Qed.
Print Assumptions C107_fixed_to_float.
Theorem C107_fixed_int : forall f t, supported f = true ->
  (forall a b r s, mixed_to_num (fixed_conv_int Debug f t) a = Ok r -> mixed_to_num (fixed_conv_int Debug f t) b = Ok s ->
     (fval f a <= fval f b)%R -> r <= s) /\
  (forall z w a b, mixed_from_num (fixed_conv_int Debug f t) z = Ok a -> mixed_from_num (fixed_conv_int Debug f t) w = Ok b ->
     z <= w -> (fval f a <= fval f b)%R).
Proof. exact fixed_int_mono. Qed.
Print Assumptions C107_fixed_int.
Theorem C107_float_int : forall t, In t int_types ->
  (forall x y : f32, Bleb x y = true -> exists r s, mixed_to_num (float_conv_int t) x = Ok r /\ mixed_to_num (float_conv_int t) y = Ok s /\ r <= s) /\
  (forall x y : f64, Bleb x y = true -> exists r s, mixed_to_num (float_conv_int t) x = Ok r /\ mixed_to_num (float_conv_int t) y = Ok s /\ r <= s) /\
  (forall z w, z <= w -> exists x y : f32, mixed_from_num (float_conv_int t) z = Ok x /\ mixed_from_num (float_conv_int t) w = Ok y /\ Bleb x y = true) /\
  (forall z w, z <= w -> exists x y : f64, mixed_from_num (float_conv_int t) z = Ok x /\ mixed_from_num (float_conv_int t) w = Ok y /\ Bleb x y = true).
Proof. exact float_int_mono. Qed.
Print Assumptions C107_float_int.
Theorem C107_float_float :
  (forall x y : f64, Bleb x y = true -> exists u v : f32, mixed_from_num (float_conv_float 53 1024) x = Ok u /\ mixed_from_num (float_conv_float 53 1024) y = Ok v /\ Bleb u v = true) /\
  (forall x y : f32, Bleb x y = true -> exists u v : f64, mixed_from_num (float_conv_float 24 128) x = Ok u /\ mixed_from_num (float_conv_float 24 128) y = Ok v /\ Bleb u v = true).
Proof. exact float_float_mono2. Qed.
Print Assumptions C107_float_float.
(** Integer casts wrap and do not keep order. *)
Theorem C107_int_int_wraps : exists t t2 x y r s, In t int_types /\ In t2 int_types /\ in_range t x /\ in_range t y /\ x <= y /\
  mixed_to_num (int_conv_int t t2) x = Ok r /\ mixed_to_num (int_conv_int t t2) y = Ok s /\ s < r.
Proof. exact int_int_not_mono. Qed.
Print Assumptions C107_int_int_wraps.
Theorem C107_int_int_fit : forall t t2 x y, In t2 int_types -> in_range t2 x -> in_range t2 y -> x <= y ->
  exists r s, mixed_to_num (int_conv_int t t2) x = Ok r /\ mixed_to_num (int_conv_int t t2) y = Ok s /\ r <= s.
Proof. exact int_int_mono. Qed.
Print Assumptions C107_int_int_fit.
Example C107_ex : let f := mkFty true 16 8 in
  fx_of_float Debug f (float_of_scaled 24 128 1001 (-9)) = Ok 500 /\ fx_of_float Debug f (float_of_scaled 24 128 1003 (-9)) = Ok 502 /\
  mixed_to_num (fixed_conv_int Debug f (mkIty true 32)) (-1) = Ok (-1) /\ mixed_to_num (fixed_conv_int Debug f (mkIty true 32)) 255 = Ok 0 /\
  mixed_to_num (float_conv_int (mkIty true 8)) (float_of_Z 24 128 200) = Ok 127.
Proof. repeat split; vm_compute; reflexivity. Qed.
