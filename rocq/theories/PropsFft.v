(** * Property C150: the fast Fourier transform.

    [fft] of SpecFft is the recursive program a user writes with the complex product, sum and difference; [dft s n xs j] is the exact
    sum of x_i e^(s 2 pi i j / n) over the reals; [near val e n ys F]: [n] results, the [j]th within [e] of [F j];
    [tables val ok s d k tw]: the stored unit numbers are within [d] of the true ones. *)

From Coq Require Import ZArith Reals List Lra Lia.
From Flocq Require Import Core.Core IEEE754.BinarySingleNaN.
From Verif Require Import Base FloatBase Traits Trig IntImpl FixedPrim FixedImpl FloatImpl Complex Spec SpecFilter SpecRotor SpecFourier SpecFft FftProofs.
Import ListNotations.
Open Scope Z_scope.

Notation fixed_sin m f := (Trig.sin (fixed_ops m f) (fixed_signed m f) (fixed_pi m f) (fixed_powi m f)).
Notation fixed_cos m f := (Trig.cos (fixed_ops m f) (fixed_signed m f) (fixed_pi m f) (fixed_powi m f)).
Notation flt_sin := (Trig.sin float_ops float_signed float_pi float_powi).
Notation flt_cos := (Trig.cos float_ops float_signed float_pi float_powi).
Notation rotor_fixed m f fuel x := (s <- fixed_sin m f x ;; c <- fixed_cos m f fuel x ;; Ok (mkC c s)).
Notation rotor fuel x := (s <- flt_sin x ;; c <- flt_cos fuel x ;; Ok (mkC c s)).
Notation finite z := (is_finite (re z) = true /\ is_finite (im z) = true).
Notation zval := (fun z : Cartesian Z => (IZR (re z), IZR (im z))).

(** Four points on signed integers: exact whenever four times the largest magnitude fits. *)
Theorem C150_fft4_int : forall m t, isigned t = true -> forall s, s = 1 \/ s = -1 -> forall (xs : list (Cartesian Z)) M, length xs = 4%nat ->
  (forall x, In x xs -> (cabs (zval x) <= M)%R) -> (4 * M <= IZR (imax t))%R ->
  exists ys, fft (int_ops m t) (fun j => match j with O => [mkC 1 0] | _ => [mkC 1 0; mkC 0 s] end) 2 xs = Ok ys /\ length ys = 4%nat /\
  forall j y, nth_error ys j = Some y -> zval y = dft (IZR s) 4 (map zval xs) j.
Proof. exact fft_int. Qed.
Print Assumptions C150_fft4_int.
Example C150_fft4_case : fft (int_ops Debug i16) (fun j => match j with O => [mkC 1 0] | _ => [mkC 1 0; mkC 0 (-1)] end) 2
  [mkC 1 2; mkC 3 (-1); mkC (-4) 5; mkC 0 7] = Ok [mkC 0 13; mkC (-3) (-6); mkC (-6) 1; mkC 13 0] /\ (4 * 1000 <= IZR (imax i16))%R.
Proof. split; [reflexivity|]. cbn. lra. Qed.

(** Fixed point, [2^k] samples of magnitude at most [M]: no overflow and the given error. *)
Theorem C150_fft_fixed : forall m f, supported f = true -> fsigned f = true -> forall s d M k tw, (s = 1 \/ s = -1 -> 0 <= d <= 1 -> 0 <= M ->
  let g := 224 / 100 * ulp f in let q := 1 + d / 2 in 2 ^ k * (M + g) * q ^ k <= fval f (fmax f) ->
  tables (cval f) (fun _ => True) s d k tw -> forall xs, length xs = (2 ^ k)%nat -> (forall x, In x xs -> cabs (cval f x) <= M) ->
  exists ys, fft (fixed_ops m f) tw k xs = Ok ys /\ near (cval f) (2 ^ k * ((M + g) * q ^ k - M)) (2 ^ k) ys (dft s (2 ^ k) (map (cval f) xs)))%R.
Proof. exact fft_fixed. Qed.
Print Assumptions C150_fft_fixed.
(** There and back with the conjugate tables: [2^k] times the samples. *)
Theorem C150_back_fixed : forall m f, supported f = true -> fsigned f = true -> forall s d M k tw tw', (s = 1 \/ s = -1 -> 0 <= d <= 1 -> 0 <= M ->
  let g := 224 / 100 * ulp f in let q := 1 + d / 2 in let err M := 2 ^ k * ((M + g) * q ^ k - M) in 2 ^ k * (2 ^ k * M + err M + g) * q ^ k <= fval f (fmax f) ->
  tables (cval f) (fun _ => True) s d k tw -> tables (cval f) (fun _ => True) (- s) d k tw' -> forall xs, length xs = (2 ^ k)%nat -> (forall x, In x xs -> cabs (cval f x) <= M) ->
  exists zs, (ys <- fft (fixed_ops m f) tw k xs ;; fft (fixed_ops m f) tw' k ys) = Ok zs /\
  near (cval f) (err (2 ^ k * M + err M) + 2 ^ k * err M) (2 ^ k) zs (fun j => cmul (2 ^ k, 0) (nth j (map (cval f) xs) (0, 0))))%R.
Proof. exact fft_fixed_back. Qed.
Print Assumptions C150_back_fixed.
Theorem C150_fft_f32 : forall s d M k (tw : nat -> list (Cartesian f32)), (s = 1 \/ s = -1 -> 0 <= d <= / 8 -> 0 <= M ->
  let g := 4 * bpow radix2 (-149) in let q := 1 + (d + 6 * bpow radix2 (-24)) / 2 in 2 ^ k * (M + g) * q ^ k <= bpow radix2 64 ->
  tables cvalf (fun w => finite w) s d k tw -> forall xs, length xs = (2 ^ k)%nat -> (forall x, In x xs -> finite x /\ cabs (cvalf x) <= M) ->
  exists ys, fft float_ops tw k xs = Ok ys /\ (forall y, In y ys -> finite y) /\ near cvalf (2 ^ k * ((M + g) * q ^ k - M)) (2 ^ k) ys (dft s (2 ^ k) (map cvalf xs)))%R.
Proof. exact fft_f32. Qed.
Print Assumptions C150_fft_f32.
Theorem C150_fft_f64 : forall s d M k (tw : nat -> list (Cartesian f64)), (s = 1 \/ s = -1 -> 0 <= d <= / 8 -> 0 <= M ->
  let g := 4 * bpow radix2 (-1074) in let q := 1 + (d + 6 * bpow radix2 (-53)) / 2 in 2 ^ k * (M + g) * q ^ k <= bpow radix2 512 ->
  tables cvalf (fun w => finite w) s d k tw -> forall xs, length xs = (2 ^ k)%nat -> (forall x, In x xs -> finite x /\ cabs (cvalf x) <= M) ->
  exists ys, fft float_ops tw k xs = Ok ys /\ (forall y, In y ys -> finite y) /\ near cvalf (2 ^ k * ((M + g) * q ^ k - M)) (2 ^ k) ys (dft s (2 ^ k) (map cvalf xs)))%R.
Proof. exact fft_f64. Qed.
Print Assumptions C150_fft_f64.
Theorem C150_back_f32 : forall s d M k (tw tw' : nat -> list (Cartesian f32)), (s = 1 \/ s = -1 -> 0 <= d <= / 8 -> 0 <= M ->
  let g := 4 * bpow radix2 (-149) in let q := 1 + (d + 6 * bpow radix2 (-24)) / 2 in let err M := 2 ^ k * ((M + g) * q ^ k - M) in
  2 ^ k * (2 ^ k * M + err M + g) * q ^ k <= bpow radix2 64 ->
  tables cvalf (fun w => finite w) s d k tw -> tables cvalf (fun w => finite w) (- s) d k tw' -> forall xs, length xs = (2 ^ k)%nat -> (forall x, In x xs -> finite x /\ cabs (cvalf x) <= M) ->
  exists zs, (ys <- fft float_ops tw k xs ;; fft float_ops tw' k ys) = Ok zs /\ (forall z, In z zs -> finite z) /\
  near cvalf (err (2 ^ k * M + err M) + 2 ^ k * err M) (2 ^ k) zs (fun j => cmul (2 ^ k, 0) (nth j (map cvalf xs) (0, 0))))%R.
Proof. exact fft_f32_back. Qed.
Print Assumptions C150_back_f32.
Theorem C150_back_f64 : forall s d M k (tw tw' : nat -> list (Cartesian f64)), (s = 1 \/ s = -1 -> 0 <= d <= / 8 -> 0 <= M ->
  let g := 4 * bpow radix2 (-1074) in let q := 1 + (d + 6 * bpow radix2 (-53)) / 2 in let err M := 2 ^ k * ((M + g) * q ^ k - M) in
  2 ^ k * (2 ^ k * M + err M + g) * q ^ k <= bpow radix2 512 ->
  tables cvalf (fun w => finite w) s d k tw -> tables cvalf (fun w => finite w) (- s) d k tw' -> forall xs, length xs = (2 ^ k)%nat -> (forall x, In x xs -> finite x /\ cabs (cvalf x) <= M) ->
  exists zs, (ys <- fft float_ops tw k xs ;; fft float_ops tw' k ys) = Ok zs /\ (forall z, In z zs -> finite z) /\
  near cvalf (err (2 ^ k * M + err M) + 2 ^ k * err M) (2 ^ k) zs (fun j => cmul (2 ^ k, 0) (nth j (map cvalf xs) (0, 0))))%R.
Proof. exact fft_f64_back. Qed.
Print Assumptions C150_back_f64.

(** Tables filled with the library's own cosine and sine of stored angles within [delta] of the exact ones. *)
Theorem C150_tables_fixed : forall m f, supported f = true -> fsigned f = true -> ffrac f <= fwidth f - 20 -> forall s delta k tw,
  (forall j, (j < k)%nat -> length (tw j) = (2 ^ j)%nat /\ forall i w, nth_error (tw j) i = Some w ->
     exists a, returns (fun fuel => rotor_fixed m f fuel a) w /\ (Rabs (fval f a) <= PI)%R /\ (Rabs (fval f a - s * (2 * PI) * INR i / INR (2 ^ (j + 1))) <= delta)%R) ->
  tables (cval f) (fun _ => True) s (14143 / 10000 * (5 / 1000000 + 7 * ulp f) + delta) k tw.
Proof. exact lib_fixed. Qed.
Print Assumptions C150_tables_fixed.
Theorem C150_tables_f32 : forall s delta k (tw : nat -> list (Cartesian f32)),
  (forall j, (j < k)%nat -> length (tw j) = (2 ^ j)%nat /\ forall i w, nth_error (tw j) i = Some w ->
     exists a, returns (fun fuel => rotor fuel a) w /\ is_finite a = true /\ (Rabs (B2R a) <= PI)%R /\ (Rabs (B2R a - s * (2 * PI) * INR i / INR (2 ^ (j + 1))) <= delta)%R) ->
  tables cvalf (fun w => finite w) s (8 / 1000000 + delta) k tw.
Proof. exact lib_f32. Qed.
Print Assumptions C150_tables_f32.
Theorem C150_tables_f64 : forall s delta k (tw : nat -> list (Cartesian f64)),
  (forall j, (j < k)%nat -> length (tw j) = (2 ^ j)%nat /\ forall i w, nth_error (tw j) i = Some w ->
     exists a, returns (fun fuel => rotor fuel a) w /\ is_finite a = true /\ (Rabs (B2R a) <= PI)%R /\ (Rabs (B2R a - s * (2 * PI) * INR i / INR (2 ^ (j + 1))) <= delta)%R) ->
  tables cvalf (fun w => finite w) s (8 / 1000000 + delta) k tw.
Proof. exact lib_f64. Qed.
Print Assumptions C150_tables_f64.
(** the room asked for: I32F32, 1024 samples of magnitude at most 1000, tables within 10^-5 *)
Example C150_room_case : let f := mkFty true 64 32 in supported f = true /\ (2 ^ 10 * (1000 + 224 / 100 * ulp f) * (1 + 1 / 100000 / 2) ^ 10 <= fval f (fmax f))%R.
Proof. split; [reflexivity|]. unfold fval, ulp. cbn. lra. Qed.
(** all hypotheses of [C150_fft_fixed] and [C150_back_fixed] met, I16F16, two samples, table 1 *)
Example C150_fixed_case : let f := mkFty true 32 16 in tables (cval f) (fun _ => True) (-1) 0 1 (fun _ => [mkC 65536 0]) /\
  (2 ^ 1 * (10 + 224 / 100 * ulp f) * (1 + 0 / 2) ^ 1 <= fval f (fmax f))%R /\
  fft (fixed_ops Debug f) (fun _ => [mkC 65536 0]) 1 [mkC 65536 (-131072); mkC 7 9] = Ok [mkC 65543 (-131063); mkC 65529 (-131081)].
Proof.
  split; [|split; [unfold fval, ulp; cbn; lra|reflexivity]]. intros j J. assert (j = 0%nat) as -> by lia. split; [reflexivity|].
  intros i w I. split; [exact Logic.I|]. destruct i as [|[|i]]; try discriminate. injection I as <-. cbn [INR]. unfold Rdiv. rewrite Rmult_0_r, Rmult_0_l.
  unfold cis, cval, csub, cabs, fval. cbn. rewrite cos_0, sin_0. right. match goal with |- R_sqrt.sqrt ?x = _ => replace x with 0%R by field end. apply sqrt_0.
Qed.
Example C150_room_f32 : (2 ^ 10 * (1000 + 4 * bpow radix2 (-149)) * (1 + (1 / 100000 + 6 * bpow radix2 (-24)) / 2) ^ 10 <= bpow radix2 64)%R.
Proof. assert (bpow radix2 (-149) <= 1)%R by (change 1%R with (bpow radix2 0); apply bpow_le; lia). cbn -[bpow]. change (bpow radix2 64) with 18446744073709551616%R. change (bpow radix2 (-24)) with (/ 16777216)%R. lra. Qed.
