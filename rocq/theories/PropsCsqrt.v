(** * Property C161: a complex square root. *)

From Coq Require Import ZArith Reals Lra List Bool.
From Flocq Require Import Core.Core IEEE754.BinarySingleNaN.
From Verif Require Import Base FloatBase Traits Trig FixedPrim FixedImpl FloatImpl Complex Spec SpecFilter SpecRotor SpecCsqrt CsqrtProofs.
Import ListNotations.
Open Scope Z_scope.

Notation cabs_z f z := (cabs (cval f z)).

(** C161.  The user's complex square root -- magnitude, half sum with the real part's absolute value, sqrt, one division -- returns a
    number with non-negative real part whose square is the argument: on signed fixed point to within 0.66% of the magnitude and a few
    steps plus 1.75 times the square root of the step (the error of the crate's mag and sqrt), on floats to within 20 half-ulps of
    the magnitude. *)
Theorem C161_fixed : forall m f z, supported f = true -> fsigned f = true -> 10 <= ffrac f <= fwidth f - 4 ->
  (16 * sqrt (ulp f) <= cabs_z f z)%R -> (cabs_z f z * cabs_z f z <= fval f (fmax f))%R ->
  exists w, returns (fun fuel => complex_sqrt (fixed_ops m f) (fixed_signed m f) (fixed_sqrt m f fuel) (fixed_powi m f) (fixed_abs m f) (fixed_zero m f) z) w /\
  (cabs (csub (cmul (cval f w) (cval f w)) (cval f z)) <= (66 / 10000 + 45 * ulp f) * cabs_z f z + 17 * ulp f + 7 / 4 * sqrt (ulp f))%R /\
  (0 <= fst (cval f w))%R.
Proof. exact csqrt_fixed. Qed.
Print Assumptions C161_fixed.

Theorem C161_float : forall p e {Hp : Prec_gt_0 p} {He : Prec_lt_emax p e}, 24 <= p -> 40 <= e -> forall m fuel sq (z : Cartesian (binary_float p e)),
  (forall x, sq x = Bsqrt mode_NE x) -> is_finite (re z) = true -> is_finite (im z) = true ->
  (bpow radix2 (8 - e / 2) <= cabs (cvalf z) <= bpow radix2 (e / 2 - 4))%R ->
  exists w, complex_sqrt float_ops float_signed (float_sqrt m sq fuel) float_powi float_abs float_zero z = Ok w /\ is_finite (re w) = true /\ is_finite (im w) = true /\
  (cabs (csub (cmul (cvalf w) (cvalf w)) (cvalf z)) <= 20 * bpow radix2 (- p) * cabs (cvalf z))%R /\ (0 <= fst (cvalf w))%R.
Proof. exact @csqrt_float. Qed.
Print Assumptions C161_float.

(** The lower bound on the magnitude is needed: on the imaginary axis below the square root of one step the same program panics. *)
Theorem C161_near_zero_fixed : forall m f fuel y, supported f = true -> fsigned f = true -> y * y < 2 ^ ffrac f ->
  complex_sqrt (fixed_ops m f) (fixed_signed m f) (fixed_sqrt m f fuel) (fixed_powi m f) (fixed_abs m f) (fixed_zero m f) (mkC 0 y) = Panic PDivZero.
Proof. exact csqrt_fixed_zero. Qed.
Print Assumptions C161_near_zero_fixed.

(** The roots of 3 + 4 i and of -3 - 4 i on 32-bit numbers with 16 fractional bits: 1.9990 + 1.0005 i and 1.0005 - 1.9990 i. *)
Definition csqrt16 (z : Cartesian Z) := let f := mkFty true 32 16 in
  complex_sqrt (fixed_ops Release f) (fixed_signed Release f) (fixed_sqrt Release f 64) (fixed_powi Release f) (fixed_abs Release f) (fixed_zero Release f) z.
Example C161_three_four : let f := mkFty true 32 16 in let z := mkC (3 * fone f) (4 * fone f) in
  (16 * sqrt (ulp f) <= cabs_z f z)%R /\ (cabs_z f z * cabs_z f z <= fval f (fmax f))%R /\ csqrt16 z = Ok (mkC 131006 65569) /\ csqrt16 (mkC (- (3 * fone f)) (- (4 * fone f))) = Ok (mkC 65569 (-131006)).
Proof.
  cbv zeta. assert (V : cval (mkFty true 32 16) (mkC (3 * fone (mkFty true 32 16)) (4 * fone (mkFty true 32 16))) = (3, 4)%R).
  { unfold cval. cbn [re im]. change (fone _) with 65536. unfold fval. change (bpow radix2 _) with (/ 65536)%R. f_equal; simpl Z.mul; field. }
  assert (C : cabs (3, 4)%R = 5%R). { unfold cabs. cbn [fst snd]. replace (3 * 3 + 4 * 4)%R with (5 * 5)%R by ring. apply sqrt_square. lra. }
  assert (U : sqrt (ulp (mkFty true 32 16)) = (/ 256)%R). { change (ulp _) with (/ 65536)%R. replace (/ 65536)%R with (/ 256 * / 256)%R by field. apply sqrt_square. lra. }
  rewrite V, C, U. split; [lra|]. split; [unfold fval; change (fmax _) with 2147483647; change (bpow radix2 _) with (/ 65536)%R; lra|]. split; vm_compute; reflexivity.
Qed.
(** On f64 the root of 3 + 4 i is 2 + i exactly; at zero the division 0 / 0 leaves a NaN in the imaginary part. *)
Example C161_f64_ex : let n k := float_of_Z 53 1024 k in
  let run z := complex_sqrt float_ops float_signed (float_sqrt Release (Bsqrt mode_NE) 10) float_powi float_abs float_zero z in
  match run (mkC (n 3) (n 4)) with Ok w => B2SF (re w) = B2SF (n 2) /\ B2SF (im w) = B2SF (n 1) | _ => False end /\
  match run (mkC (n 0) (n 0)) with Ok w => B2SF (re w) = B2SF (n 0) /\ B2SF (im w) = SpecFloat.S754_nan | _ => False end.
Proof. vm_compute. repeat split. Qed.
