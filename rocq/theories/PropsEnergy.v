(** * Property C154: correlation, energy and Parseval's identity.

    [correlate] of SpecEnergy is the loop a user writes: acc = acc + x * y.conj().  [inner xs ys] is the exact sum of x times the
    conjugate of y over the reals, [power xs] the exact sum of squared magnitudes; [fft], [dft], [tables] are those of C150. *)

From Coq Require Import ZArith Reals List Lra Lia.
From Flocq Require Import Core.Core IEEE754.BinarySingleNaN.
From Verif Require Import Base FloatBase Traits Trig IntImpl FixedPrim FixedImpl FloatImpl Complex Spec SpecFilter SpecRotor SpecFourier SpecFft SpecEnergy EnergyProofs.
Import ListNotations.
Open Scope Z_scope.

Notation finite z := (is_finite (re z) = true /\ is_finite (im z) = true).
Notation zval := (fun z : Cartesian Z => (IZR (re z), IZR (im z))).

(** Signed integers: the correlation is exact and never exceeds the geometric mean of the energies. *)
Theorem C154_correlate_int : forall m t, isigned t = true -> forall xs ys, (forall y, In y ys -> (cabs (zval y) <= IZR (imax t))%R) -> (sqrt (power (map zval xs) * power (map zval ys)) <= IZR (imax t))%R ->
  exists r, correlate (int_ops m t) (int_signed m t) 0 xs ys = Ok r /\ zval r = inner (map zval xs) (map zval ys) /\ (cabs (zval r) <= sqrt (power (map zval xs) * power (map zval ys)))%R.
Proof. exact correlate_int. Qed.
Print Assumptions C154_correlate_int.
Theorem C154_energy_int : forall m t, isigned t = true -> forall xs, (power (map zval xs) <= IZR (imax t))%R ->
  exists r, correlate (int_ops m t) (int_signed m t) 0 xs xs = Ok (mkC r 0) /\ IZR r = power (map zval xs).
Proof. exact energy_int. Qed.
Print Assumptions C154_energy_int.
Example C154_int_case : correlate (int_ops Debug i16) (int_signed Debug i16) 0 [mkC 3 4; mkC (-5) 2] [mkC 1 (-2); mkC 6 1] = Ok (mkC (-33) 27) /\
  correlate (int_ops Debug i16) (int_signed Debug i16) 0 [mkC 3 4; mkC (-5) 2] [mkC 3 4; mkC (-5) 2] = Ok (mkC 54 0) /\ (power (map zval [mkC 3 4; mkC (-5) 2]%Z) <= IZR (imax i16))%R.
Proof. split; [reflexivity|]. split; [reflexivity|]. cbn. lra. Qed.

(** Fixed point: no overflow, the error, and the inequality of Cauchy and Schwarz up to that error. *)
Theorem C154_correlate_fixed : forall m f, supported f = true -> fsigned f = true -> forall xs ys, (forall y, In y ys -> (cabs (cval f y) <= fval f (fmax f))%R) -> let n := INR (length (combine xs ys)) in
  (sqrt (power (map (cval f) xs) * power (map (cval f) ys)) + n * (224 / 100 * ulp f) <= fval f (fmax f))%R ->
  exists r, correlate (fixed_ops m f) (fixed_signed m f) 0 xs ys = Ok r /\ (cabs (csub (cval f r) (inner (map (cval f) xs) (map (cval f) ys))) <= n * (224 / 100 * ulp f))%R /\
  (cabs (cval f r) <= sqrt (power (map (cval f) xs) * power (map (cval f) ys)) + n * (224 / 100 * ulp f))%R.
Proof. exact correlate_fixed. Qed.
Print Assumptions C154_correlate_fixed.
(** The energy is never negative, is zero only for samples too small to show, and its imaginary part is at most n ulps below zero. *)
Theorem C154_energy_fixed : forall m f, supported f = true -> fsigned f = true -> forall xs, let n := length xs in (power (map (cval f) xs) + INR n * (224 / 100 * ulp f) <= fval f (fmax f))%R ->
  exists r, correlate (fixed_ops m f) (fixed_signed m f) 0 xs xs = Ok r /\ 0 <= re r /\ - Z.of_nat n <= im r <= 0 /\
  (Rabs (fval f (re r) - power (map (cval f) xs)) <= INR n * ulp f)%R /\ (re r = 0 <-> forall x, In x xs -> im x = 0 /\ (fval f (re x) * fval f (re x) < ulp f)%R).
Proof. exact energy_fixed. Qed.
Print Assumptions C154_energy_fixed.
(** I8F8: the energy of 0.5 + 0.0234i, then of -0.0586, whose square is below one ulp *)
Example C154_fixed_case : let f := mkFty true 16 8 in supported f = true /\ correlate (fixed_ops Debug f) (fixed_signed Debug f) 0 [mkC 128 6] [mkC 128 6] = Ok (mkC 65 0) /\
  correlate (fixed_ops Debug f) (fixed_signed Debug f) 0 [mkC 7 5] [mkC 7 5] = Ok (mkC 1 (-1)) /\ correlate (fixed_ops Debug f) (fixed_signed Debug f) 0 [mkC (-15) 0] [mkC (-15) 0] = Ok (mkC 0 0) /\
  (power (map (cval f) [mkC 128 6]%Z) + INR 1 * (224 / 100 * ulp f) <= fval f (fmax f))%R.
Proof. split; [reflexivity|]. split; [reflexivity|]. split; [reflexivity|]. split; [reflexivity|]. unfold ulp, cval, fval, power. cbn. lra. Qed.

Theorem C154_correlate_f32 : forall xs ys : list (Cartesian f32), (forall z, In z xs \/ In z ys -> finite z /\ (cabs (cvalf z) <= bpow radix2 62)%R) ->
  let n := INR (length (combine xs ys)) in let N := sqrt (power (map cvalf xs) * power (map cvalf ys)) in (n * bpow radix2 (-24) <= / 2)%R -> (N <= bpow radix2 124)%R ->
  exists r, correlate float_ops float_signed (B754_zero false) xs ys = Ok r /\ finite r /\ (cabs (csub (cvalf r) (inner (map cvalf xs) (map cvalf ys))) <= (2 * n + 6) * bpow radix2 (-24) * N + 6 * n * bpow radix2 (-149))%R.
Proof. exact correlate_f32. Qed.
Print Assumptions C154_correlate_f32.
Theorem C154_correlate_f64 : forall xs ys : list (Cartesian f64), (forall z, In z xs \/ In z ys -> finite z /\ (cabs (cvalf z) <= bpow radix2 510)%R) ->
  let n := INR (length (combine xs ys)) in let N := sqrt (power (map cvalf xs) * power (map cvalf ys)) in (n * bpow radix2 (-53) <= / 2)%R -> (N <= bpow radix2 1020)%R ->
  exists r, correlate float_ops float_signed (B754_zero false) xs ys = Ok r /\ finite r /\ (cabs (csub (cvalf r) (inner (map cvalf xs) (map cvalf ys))) <= (2 * n + 6) * bpow radix2 (-53) * N + 6 * n * bpow radix2 (-1074))%R.
Proof. exact correlate_f64. Qed.
Print Assumptions C154_correlate_f64.
(** Float energy: never negative, exactly no imaginary part. *)
Theorem C154_energy_f32 : forall xs : list (Cartesian f32), (forall z, In z xs -> finite z) -> let n := INR (length xs) in let E := power (map cvalf xs) in (n * bpow radix2 (-24) <= / 2)%R -> (E <= bpow radix2 123)%R ->
  exists r, correlate float_ops float_signed (B754_zero false) xs xs = Ok r /\ finite r /\ (0 <= B2R (re r))%R /\ B2R (im r) = 0%R /\ (Rabs (B2R (re r) - E) <= (2 * n + 6) * bpow radix2 (-24) * E + 6 * n * bpow radix2 (-149))%R.
Proof. exact energy_f32. Qed.
Print Assumptions C154_energy_f32.
Theorem C154_energy_f64 : forall xs : list (Cartesian f64), (forall z, In z xs -> finite z) -> let n := INR (length xs) in let E := power (map cvalf xs) in (n * bpow radix2 (-53) <= / 2)%R -> (E <= bpow radix2 1019)%R ->
  exists r, correlate float_ops float_signed (B754_zero false) xs xs = Ok r /\ finite r /\ (0 <= B2R (re r))%R /\ B2R (im r) = 0%R /\ (Rabs (B2R (re r) - E) <= (2 * n + 6) * bpow radix2 (-53) * E + 6 * n * bpow radix2 (-1074))%R.
Proof. exact energy_f64. Qed.
Print Assumptions C154_energy_f64.
Example C154_float_case : let x := mkC (binary_normalize 24 128 eq_refl eq_refl mode_NE 3 0 false : f32) (binary_normalize 24 128 eq_refl eq_refl mode_NE (-5) (-1) false) in
  (forall z, In z [x] -> finite z) /\ (power (map cvalf [x]) <= bpow radix2 123)%R /\ (INR 1 * bpow radix2 (-24) <= / 2)%R.
Proof.
  cbv zeta. split; [intros z [<-|[]]; split; reflexivity|]. split; [|cbn; lra].
  assert (X : cvalf (mkC (binary_normalize 24 128 eq_refl eq_refl mode_NE 3 0 false : f32) (binary_normalize 24 128 eq_refl eq_refl mode_NE (-5) (-1) false)) = (3, -5 / 2)%R).
  { unfold cvalf. cbn [re im]. f_equal; unfold B2R, F2R; cbn; lra. }
  cbn [map]. rewrite X. cbn. lra.
Qed.

(** Parseval: the transform multiplies the energy by the number of samples. *)
Theorem C154_parseval_int : forall m t, isigned t = true -> forall s, s = 1 \/ s = -1 -> forall (xs : list (Cartesian Z)) M, length xs = 4%nat ->
  (forall x, In x xs -> (cabs (zval x) <= M)%R) -> (4 * M <= IZR (imax t))%R ->
  exists ys, fft (int_ops m t) (fun j => match j with O => [mkC 1 0] | _ => [mkC 1 0; mkC 0 s] end) 2 xs = Ok ys /\ power (map zval ys) = (4 * power (map zval xs))%R.
Proof. exact parseval_int. Qed.
Print Assumptions C154_parseval_int.
Theorem C154_parseval_fixed : forall m f, supported f = true -> fsigned f = true -> forall s d M k tw, (s = 1 \/ s = -1 -> 0 <= d <= 1 -> 0 <= M ->
  let g := 224 / 100 * ulp f in let q := 1 + d / 2 in 2 ^ k * (M + g) * q ^ k <= fval f (fmax f) ->
  tables (cval f) (fun _ => True) s d k tw -> forall xs, length xs = (2 ^ k)%nat -> (forall x, In x xs -> cabs (cval f x) <= M) ->
  exists ys, fft (fixed_ops m f) tw k xs = Ok ys /\
  Rabs (sqrt (power (map (cval f) ys)) - sqrt (2 ^ k * power (map (cval f) xs))) <= sqrt (2 ^ k) * (2 ^ k * ((M + g) * q ^ k - M)))%R.
Proof. exact parseval_fixed. Qed.
Print Assumptions C154_parseval_fixed.
Theorem C154_parseval_f32 : forall s d M k (tw : nat -> list (Cartesian f32)), (s = 1 \/ s = -1 -> 0 <= d <= / 8 -> 0 <= M ->
  let g := 4 * bpow radix2 (-149) in let q := 1 + (d + 6 * bpow radix2 (-24)) / 2 in 2 ^ k * (M + g) * q ^ k <= bpow radix2 64 ->
  tables cvalf (fun w => finite w) s d k tw -> forall xs, length xs = (2 ^ k)%nat -> (forall x, In x xs -> finite x /\ cabs (cvalf x) <= M) ->
  exists ys, fft float_ops tw k xs = Ok ys /\ Rabs (sqrt (power (map cvalf ys)) - sqrt (2 ^ k * power (map cvalf xs))) <= sqrt (2 ^ k) * (2 ^ k * ((M + g) * q ^ k - M)))%R.
Proof. exact parseval_f32. Qed.
Print Assumptions C154_parseval_f32.
Theorem C154_parseval_f64 : forall s d M k (tw : nat -> list (Cartesian f64)), (s = 1 \/ s = -1 -> 0 <= d <= / 8 -> 0 <= M ->
  let g := 4 * bpow radix2 (-1074) in let q := 1 + (d + 6 * bpow radix2 (-53)) / 2 in 2 ^ k * (M + g) * q ^ k <= bpow radix2 512 ->
  tables cvalf (fun w => finite w) s d k tw -> forall xs, length xs = (2 ^ k)%nat -> (forall x, In x xs -> finite x /\ cabs (cvalf x) <= M) ->
  exists ys, fft float_ops tw k xs = Ok ys /\ Rabs (sqrt (power (map cvalf ys)) - sqrt (2 ^ k * power (map cvalf xs))) <= sqrt (2 ^ k) * (2 ^ k * ((M + g) * q ^ k - M)))%R.
Proof. exact parseval_f64. Qed.
Print Assumptions C154_parseval_f64.
(** the four samples of C150: energies 105 and 420 *)
Example C154_parseval_case : fft (int_ops Debug i16) (fun j => match j with O => [mkC 1 0] | _ => [mkC 1 0; mkC 0 (-1)] end) 2
  [mkC 1 2; mkC 3 (-1); mkC (-4) 5; mkC 0 7] = Ok [mkC 0 13; mkC (-3) (-6); mkC (-6) 1; mkC 13 0] /\
  (power (map zval [mkC 1 2; mkC 3 (-1); mkC (-4) 5; mkC 0 7]%Z) = 105 /\ power (map zval [mkC 0 13; mkC (-3) (-6); mkC (-6) 1; mkC 13 0]%Z) = 420)%R.
Proof. split; [reflexivity|]. cbn. split; lra. Qed.
