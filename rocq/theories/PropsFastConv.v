(** * Property C157: convolution through the fast transform.

    [fastconv] of SpecFastConv is the program a user writes: transform both sequences, multiply bin by bin, transform back;
    [cconv n xs hs j] is the exact cyclic sum of x_i h_(j - i), indices modulo [n], and [lconv xs hs j] the exact filter output, i from 0 to j.
    The result is [2^k] times the convolution. *)

From Coq Require Import ZArith Reals List Lra Lia.
From Flocq Require Import Core.Core IEEE754.BinarySingleNaN.
From Verif Require Import Base FloatBase Traits Trig IntImpl FixedPrim FixedImpl FloatImpl Complex Spec SpecFilter SpecRotor SpecFourier SpecFft SpecFastConv FastConvProofs.
Import ListNotations.
Open Scope Z_scope.

Notation finite z := (is_finite (re z) = true /\ is_finite (im z) = true).
Notation zval := (fun z : Cartesian Z => (IZR (re z), IZR (im z))).
Notation tw4 s := (fun j : nat => match j with O => [mkC 1 0] | _ => [mkC 1 0; mkC 0 s] end).

(** What is computed is what a filter computes when enough zeros follow both sequences. *)
Theorem C157_padded : forall n a b xs hs j, (forall i, (a <= i)%nat -> nth i xs (0, 0)%R = (0, 0)%R) -> (forall i, (b <= i)%nat -> nth i hs (0, 0)%R = (0, 0)%R) ->
  (a + b <= n + 1)%nat -> (j < n)%nat -> cconv n xs hs j = lconv xs hs j.
Proof. exact cconv_lconv. Qed.
Print Assumptions C157_padded.
Example C157_padded_case : let xs := [(1, 2); (3, 4); (0, 0); (0, 0)]%R in let hs := [(5, 0); (6, 0); (7, 0); (0, 0)]%R in
  (2 + 3 <= 4 + 1)%nat /\ nth 2 xs (0, 0)%R = (0, 0)%R /\ nth 3 hs (0, 0)%R = (0, 0)%R /\ nth 1 xs (0, 0)%R <> (0, 0)%R.
Proof. cbn. repeat split; try lia. intros H. injection H. lra. Qed.

(** Four points on signed integers: exactly four times the cyclic convolution. *)
Theorem C157_conv4_int : forall m t, isigned t = true -> forall (xs hs : list (Cartesian Z)) Mx Mh, length xs = 4%nat -> length hs = 4%nat -> (1 <= Mx)%R -> (1 <= Mh)%R ->
  (forall x, In x xs -> (cabs (zval x) <= Mx)%R) -> (forall h, In h hs -> (cabs (zval h) <= Mh)%R) -> (64 * (Mx * Mh) <= IZR (imax t))%R ->
  exists zs, fastconv (int_ops m t) (tw4 (-1)) (tw4 1) 2 xs hs = Ok zs /\ length zs = 4%nat /\
  forall j z, nth_error zs j = Some z -> zval z = cmul (4, 0)%R (cconv 4 (map zval xs) (map zval hs) j).
Proof. exact conv_int. Qed.
Print Assumptions C157_conv4_int.
(** x = 1+2i, 3; h = 5, -1: 5+10i, 14-2i, -3 *)
Example C157_conv4_case : fastconv (int_ops Debug i16) (tw4 (-1)) (tw4 1) 2 [mkC 1 2; mkC 3 0; mkC 0 0; mkC 0 0] [mkC 5 0; mkC (-1) 0; mkC 0 0; mkC 0 0]
  = Ok [mkC 20 40; mkC 56 (-8); mkC (-12) 0; mkC 0 0] /\ (64 * (3 * 5) <= IZR (imax i16))%R.
Proof. split; [reflexivity|]. cbn. lra. Qed.

(** Fixed point. *)
Theorem C157_conv_fixed : forall m f, supported f = true -> fsigned f = true -> forall s d Mx Mh k tw tw', (s = 1 \/ s = -1 -> 0 <= d <= 1 -> 0 <= Mx -> 0 <= Mh ->
  let g := 224 / 100 * ulp f in let q := 1 + d / 2 in let amp M := 2 ^ k * (M + g) * q ^ k in let err M := 2 ^ k * ((M + g) * q ^ k - M) in let Mp := amp Mx * amp Mh + g in
  amp Mx <= fval f (fmax f) -> amp Mh <= fval f (fmax f) -> amp Mp <= fval f (fmax f) ->
  tables (cval f) (fun _ => True) s d k tw -> tables (cval f) (fun _ => True) (- s) d k tw' -> forall xs hs, length xs = (2 ^ k)%nat -> length hs = (2 ^ k)%nat ->
  (forall x, In x xs -> cabs (cval f x) <= Mx) -> (forall h, In h hs -> cabs (cval f h) <= Mh) ->
  exists zs, fastconv (fixed_ops m f) tw tw' k xs hs = Ok zs /\
  near (cval f) (err Mp + 2 ^ k * (err Mx * amp Mh + 2 ^ k * Mx * err Mh + g)) (2 ^ k) zs (fun j => cmul (2 ^ k, 0) (cconv (2 ^ k) (map (cval f) xs) (map (cval f) hs) j)))%R.
Proof. exact conv_fixed. Qed.
Print Assumptions C157_conv_fixed.
(** the room asked for: I32F32, 256 samples of magnitude at most 10 and taps of at most 1, tables within 10^-5 *)
Example C157_room_case : let f := mkFty true 64 32 in let g := (224 / 100 * ulp f)%R in let amp M := (2 ^ 8 * (M + g) * (1 + 1 / 100000 / 2) ^ 8)%R in
  (amp 10 <= fval f (fmax f) /\ amp 1 <= fval f (fmax f) /\ amp (amp 10 * amp 1 + g) <= fval f (fmax f))%R.
Proof. unfold fval, ulp. cbn. lra. Qed.
(** a table and its conjugate for two samples, and a run *)
Example C157_fixed_case : let f := mkFty true 32 16 in tables (cval f) (fun _ => True) (-1) 0 1 (fun _ => [mkC 65536 0]) /\ tables (cval f) (fun _ => True) (- (-1)) 0 1 (fun _ => [mkC 65536 0]) /\
  fastconv (fixed_ops Debug f) (fun _ => [mkC 65536 0]) (fun _ => [mkC 65536 0]) 1 [mkC 65536 0; mkC 0 131072] [mkC 32768 0; mkC 65536 0] = Ok [mkC 65536 262144; mkC 131072 131072].
Proof.
  assert (T : forall s, tables (cval (mkFty true 32 16)) (fun _ => True) s 0 1 (fun _ => [mkC 65536 0])).
  { intros s j J. assert (j = 0%nat) as -> by lia. split; [reflexivity|].
    intros i w I. split; [exact Logic.I|]. destruct i as [|[|i]]; try discriminate. injection I as <-. cbn [INR]. unfold Rdiv. rewrite Rmult_0_r, Rmult_0_l.
    unfold cis, cval, csub, cabs, fval. cbn. rewrite cos_0, sin_0. right. match goal with |- R_sqrt.sqrt ?x = _ => replace x with 0%R by field end. apply sqrt_0. }
  split; [apply T|split; [apply T|reflexivity]].
Qed.

(** Floats. *)
Theorem C157_conv_f32 : forall s d Mx Mh k (tw tw' : nat -> list (Cartesian f32)), (s = 1 \/ s = -1 -> 0 <= d <= / 8 -> 0 <= Mx -> 0 <= Mh ->
  let u := bpow radix2 (-24) in let eta := bpow radix2 (-149) in let g := 4 * eta in let q := 1 + (d + 6 * u) / 2 in
  let amp M := 2 ^ k * (M + g) * q ^ k in let err M := 2 ^ k * ((M + g) * q ^ k - M) in let Mp := (1 + 3 * u) * (amp Mx * amp Mh) + 3 * eta in
  amp Mx <= bpow radix2 63 -> amp Mh <= bpow radix2 63 -> amp Mp <= bpow radix2 64 ->
  tables cvalf (fun w => finite w) s d k tw -> tables cvalf (fun w => finite w) (- s) d k tw' -> forall xs hs, length xs = (2 ^ k)%nat -> length hs = (2 ^ k)%nat ->
  (forall x, In x xs -> finite x /\ cabs (cvalf x) <= Mx) -> (forall h, In h hs -> finite h /\ cabs (cvalf h) <= Mh) ->
  exists zs, fastconv float_ops tw tw' k xs hs = Ok zs /\ (forall z, In z zs -> finite z) /\
  near cvalf (err Mp + 2 ^ k * (err Mx * amp Mh + 2 ^ k * Mx * err Mh + (3 * u * (amp Mx * amp Mh) + 3 * eta))) (2 ^ k) zs (fun j => cmul (2 ^ k, 0) (cconv (2 ^ k) (map cvalf xs) (map cvalf hs) j)))%R.
Proof. exact conv_f32. Qed.
Print Assumptions C157_conv_f32.
Theorem C157_conv_f64 : forall s d Mx Mh k (tw tw' : nat -> list (Cartesian f64)), (s = 1 \/ s = -1 -> 0 <= d <= / 8 -> 0 <= Mx -> 0 <= Mh ->
  let u := bpow radix2 (-53) in let eta := bpow radix2 (-1074) in let g := 4 * eta in let q := 1 + (d + 6 * u) / 2 in
  let amp M := 2 ^ k * (M + g) * q ^ k in let err M := 2 ^ k * ((M + g) * q ^ k - M) in let Mp := (1 + 3 * u) * (amp Mx * amp Mh) + 3 * eta in
  amp Mx <= bpow radix2 511 -> amp Mh <= bpow radix2 511 -> amp Mp <= bpow radix2 512 ->
  tables cvalf (fun w => finite w) s d k tw -> tables cvalf (fun w => finite w) (- s) d k tw' -> forall xs hs, length xs = (2 ^ k)%nat -> length hs = (2 ^ k)%nat ->
  (forall x, In x xs -> finite x /\ cabs (cvalf x) <= Mx) -> (forall h, In h hs -> finite h /\ cabs (cvalf h) <= Mh) ->
  exists zs, fastconv float_ops tw tw' k xs hs = Ok zs /\ (forall z, In z zs -> finite z) /\
  near cvalf (err Mp + 2 ^ k * (err Mx * amp Mh + 2 ^ k * Mx * err Mh + (3 * u * (amp Mx * amp Mh) + 3 * eta))) (2 ^ k) zs (fun j => cmul (2 ^ k, 0) (cconv (2 ^ k) (map cvalf xs) (map cvalf hs) j)))%R.
Proof. exact conv_f64. Qed.
Print Assumptions C157_conv_f64.
Example C157_room_f32 : let g := (4 * bpow radix2 (-149))%R in let u := bpow radix2 (-24) in let amp M := (2 ^ 8 * (M + g) * (1 + (1 / 100000 + 6 * u) / 2) ^ 8)%R in
  (amp 1000 <= bpow radix2 63 /\ amp 1 <= bpow radix2 63 /\ amp ((1 + 3 * u) * (amp 1000 * amp 1) + 3 * bpow radix2 (-149)) <= bpow radix2 64)%R.
Proof.
  assert (E : (0 < bpow radix2 (-149) <= / 4)%R) by (split; [apply bpow_gt_0|change (/ 4)%R with (bpow radix2 (-2)); apply bpow_le; lia]).
  change (bpow radix2 64) with 18446744073709551616%R. change (bpow radix2 63) with 9223372036854775808%R. change (bpow radix2 (-24)) with (/ 16777216)%R.
  set (e := bpow radix2 (-149)) in *. clearbody e. cbn zeta.
  set (q := ((1 + (1 / 100000 + 6 * / 16777216) / 2) ^ 8)%R). assert (Q : (0 <= q <= 11 / 10)%R) by (unfold q; cbn; lra). clearbody q.
  replace (2 ^ 8)%R with 256%R by (cbn; lra).
  assert (A1 : (0 <= 256 * (1000 + 4 * e) * q <= 300000)%R) by nra. assert (A2 : (0 <= 256 * (1 + 4 * e) * q <= 1000)%R) by nra.
  set (x := (256 * (1000 + 4 * e) * q)%R) in *. set (y := (256 * (1 + 4 * e) * q)%R) in *. clearbody x y.
  assert (XY : (0 <= x * y <= 300000 * 1000)%R) by (split; [nra|apply Rmult_le_compat; lra]).
  split; [lra|split; [lra|]]. nra.
Qed.
