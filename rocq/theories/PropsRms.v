(** * Property C162: the standard deviation and the root mean square, written with the crate's operations. *)

From Coq Require Import ZArith Reals List Lia Lra.
From Flocq Require Import Core.Core IEEE754.BinarySingleNaN.
From Verif Require Import Base FloatBase Traits FixedPrim FixedImpl FloatImpl Spec SpecBlend SpecVar SpecRms RmsProofs.
Import ListNotations.
Open Scope Z_scope.

Notation flt p e := (binary_float p e).
Notation u p := (bpow radix2 (- p)).
Notation eta p e := (bpow radix2 (3 - e - p)).

(** C162.  When the type holds the sums, the user's standard deviation and root mean square of any list of samples return, to within
    0.1% and a term of the size of the square root of the step on signed fixed point. *)
Theorem C162_deviation_fixed : forall m f, supported f = true -> fsigned f = true -> 2 <= ffrac f <= fwidth f - 4 ->
  forall l lo hi, l <> [] -> (forall x, In x l -> lo <= x <= hi) ->
  let n := Z.of_nat (length l) in
  fvalid f (n * lo) -> fvalid f (n * hi) -> fvalid f (lo - hi) -> fvalid f (hi - lo) -> fvalid f (n * fone f) -> fvalid f (n * ((hi - lo) * (hi - lo) / fone f)) ->
  let s := sqrt (varR (map (fval f) l)) in
  exists r, returns (fun fuel => deviation (fixed_ops m f) (fixed_sqrt m f fuel) 0 l) r /\
  (Rabs (fval f r - s) <= (/ 1000 + 5 * ulp f) * (s + sqrt (2 * ulp f)) + 3 * ulp f + sqrt (2 * ulp f))%R.
Proof. exact deviation_fixed. Qed.
Print Assumptions C162_deviation_fixed.
Theorem C162_rms_fixed : forall m f, supported f = true -> fsigned f = true -> 2 <= ffrac f <= fwidth f - 4 ->
  forall l M, l <> [] -> (forall x, In x l -> Z.abs x <= M) ->
  let n := Z.of_nat (length l) in fvalid f (n * fone f) -> fvalid f (n * (M * M / fone f)) ->
  let s := sqrt (msqR (map (fval f) l)) in
  exists r, returns (fun fuel => rms (fixed_ops m f) (fixed_sqrt m f fuel) 0 l) r /\
  (Rabs (fval f r - s) <= (/ 1000 + 5 * ulp f) * (s + sqrt (2 * ulp f)) + 3 * ulp f + sqrt (2 * ulp f))%R.
Proof. exact rms_fixed. Qed.
Print Assumptions C162_rms_fixed.
(** Floats: the deviation is as close as the square root of the variance's error allows; the root mean square has a small relative error. *)
Theorem C162_deviation_float : forall p e {Hp : Prec_gt_0 p} {He : Prec_lt_emax p e}, 24 <= p -> 128 <= e ->
  forall m fuel sq, (forall x, sq x = Bsqrt mode_NE x) ->
  forall (l : list (flt p e)) B, l <> [] -> (forall x, In x l -> is_finite x = true /\ (Rabs (B2R x) <= B)%R) -> (1 <= B)%R -> Z.of_nat (length l) < 2 ^ (p - 2) ->
  let n := INR (length l) in (32 * n * B ^ 2 <= bpow radix2 (e - 2))%R ->
  let V := varR (map B2R l) in let D := (2 * (n + 1) * u p * B + eta p e)%R in let E := (D ^ 2 + (2 * n + 9) * u p * (V + D ^ 2) + 2 * eta p e)%R in
  exists r, deviation float_ops (float_sqrt m sq fuel) (B754_zero false) l = Ok r /\ is_finite r = true /\ (Rabs (B2R r - sqrt V) <= sqrt E + u p * (sqrt V + sqrt E))%R.
Proof. exact @deviation_float. Qed.
Print Assumptions C162_deviation_float.
Theorem C162_rms_float : forall p e {Hp : Prec_gt_0 p} {He : Prec_lt_emax p e}, 24 <= p -> 128 <= e ->
  forall m fuel sq, (forall x, sq x = Bsqrt mode_NE x) ->
  forall (l : list (flt p e)) B, l <> [] -> (forall x, In x l -> is_finite x = true /\ (Rabs (B2R x) <= B)%R) -> (1 <= B)%R -> Z.of_nat (length l) < 2 ^ (p - 2) ->
  let n := INR (length l) in (4 * n * B ^ 2 <= bpow radix2 (e - 2))%R ->
  let M2 := msqR (map B2R l) in (bpow radix2 (5 - e) <= M2)%R ->
  exists r, rms float_ops (float_sqrt m sq fuel) (B754_zero false) l = Ok r /\ is_finite r = true /\ (Rabs (B2R r - sqrt M2) <= (2 * n + 8) * u p * sqrt M2)%R.
Proof. exact @rms_float. Qed.
Print Assumptions C162_rms_float.

(** FixedI32<U16>, samples 1, 2, 3, 4: the deviation is 1.1180 and the root mean square 2.7386; the program says 1.1184 and 2.7381. *)
Example C162_ex_fixed : let f := mkFty true 32 16 in let l := [65536; 131072; 196608; 262144] in
  supported f = true /\ (forall x, In x l -> 65536 <= x <= 262144) /\ (forall x, In x l -> Z.abs x <= 262144) /\
  fvalid f (4 * 65536) /\ fvalid f (4 * 262144) /\ fvalid f (65536 - 262144) /\ fvalid f (262144 - 65536) /\ fvalid f (4 * fone f) /\
  fvalid f (4 * ((262144 - 65536) * (262144 - 65536) / fone f)) /\ fvalid f (4 * (262144 * 262144 / fone f)) /\
  deviation (fixed_ops Debug f) (fixed_sqrt Debug f 64) 0 l = Ok 73296 /\ rms (fixed_ops Debug f) (fixed_sqrt Debug f 64) 0 l = Ok 179444.
Proof.
  cbv zeta. assert (I : forall x, In x [65536; 131072; 196608; 262144] -> 65536 <= x <= 262144) by (cbn; lia).
  split; [reflexivity|]. split; [exact I|]. split; [intros x H; specialize (I x H); lia|]. repeat (split; [split; vm_compute; discriminate|]). split; vm_compute; reflexivity.
Qed.
(** f32: the same samples; the exact values rounded to the nearest f32 *)
Example C162_ex_f32 : let l := map (float_of_Z 24 128) [1; 2; 3; 4] in
  map_res B2SF (deviation float_ops (float_sqrt Debug (Bsqrt mode_NE) 64) (B754_zero false) l) = Ok (SpecFloat.S754_finite false 9378749 (-23)) /\
  map_res B2SF (rms float_ops (float_sqrt Debug (Bsqrt mode_NE) 64) (B754_zero false) l) = Ok (SpecFloat.S754_finite false 11486575 (-22)).
Proof. split; vm_compute; reflexivity. Qed.
