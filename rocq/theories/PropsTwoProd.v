(** * C176: products without rounding error and the compensated dot product. *)

From Coq Require Import ZArith Reals List Lia Lra.
From Flocq Require Import Core.Core IEEE754.BinarySingleNaN.
From Verif Require Import Base FloatBase Traits IntImpl FixedPrim FixedImpl FloatImpl Spec SpecCompens SpecTwoProd TwoProdProofs.
Import ListNotations.
Open Scope Z_scope.

(** Floats: product and computed correction together are exactly a * b unless it is near the underflow threshold, and within
    3.5 of the smallest positive number always. [e] of the type bounds [k]: 2^44 for f32, 2^477 for f64. *)
Theorem C176_pair_float : forall p e {Hp : Prec_gt_0 p} {He : Prec_lt_emax p e}, 4 <= p -> p + 8 <= e ->
  forall (a b : binary_float p e) k, 0 <= k -> 2 * k + 2 * (p - Z.div2 p) + 16 <= e -> is_finite a = true -> is_finite b = true ->
  (Rabs (B2R a) <= bpow radix2 k)%R -> (Rabs (B2R b) <= bpow radix2 k)%R ->
  exists r c, two_prod float_ops (splitter p) a b = Ok (r, c) /\ is_finite r = true /\ is_finite c = true /\ r = Bmult mode_NE a b /\
  B2R r = round radix2 (SpecFloat.fexp p e) ZnearestE (B2R a * B2R b) /\
  ((B2R a * B2R b = 0 \/ bpow radix2 (3 - e - p + 2 * p - 1) <= Rabs (B2R a * B2R b)) -> B2R r + B2R c = B2R a * B2R b)%R /\
  (Rabs (B2R a * B2R b - (B2R r + B2R c)) <= 7 / 2 * bpow radix2 (3 - e - p))%R.
Proof. exact @two_prod_float. Qed.
Print Assumptions C176_pair_float.

(** Floats: the compensated dot product is as good as the exact one rounded once, up to a term of second order and underflow. *)
Theorem C176_dot_float : forall p e {Hp : Prec_gt_0 p} {He : Prec_lt_emax p e}, 4 <= p -> p + 8 <= e ->
  forall k, 0 <= k -> 2 * k + 2 * (p - Z.div2 p) + 16 <= e -> forall xs : list (binary_float p e * binary_float p e),
  Forall (fun q => is_finite (fst q) = true /\ is_finite (snd q) = true /\ (Rabs (B2R (fst q)) <= bpow radix2 k)%R /\ (Rabs (B2R (snd q)) <= bpow radix2 k)%R) xs ->
  (INR (length xs) * bpow radix2 (- p) <= / 4)%R ->
  let vs := map (fun q => (B2R (fst q), B2R (snd q))) xs in (sum_abs vs <= bpow radix2 (e - 9))%R ->
  exists r, comp_dot float_ops float_zero (splitter p) xs = Ok r /\ is_finite r = true /\
  (Rabs (B2R r - sum_prod vs) <=
    bpow radix2 (- p) * Rabs (sum_prod vs) + 23 * (INR (length xs) * bpow radix2 (- p)) ^ 2 * sum_abs vs + 10 * INR (length xs) * bpow radix2 (3 - e - p))%R.
Proof. exact @comp_dot_float. Qed.
Print Assumptions C176_dot_float.

(** Fixed-point types and integers, both profiles, any literal: whenever the same source returns, the correction is zero, so the bits
    lost by a fixed-point product are not recovered. *)
Theorem C176_fixed : forall m f, supported f = true -> forall k a b r c, fvalid f a -> fvalid f b ->
  two_prod (fixed_ops m f) k a b = Ok (r, c) -> o_mul (fixed_ops m f) a b = Ok r /\ c = 0.
Proof. exact two_prod_fixed. Qed.
Print Assumptions C176_fixed.
Theorem C176_int : forall m t, In t int_types -> forall k a b r c, in_range t a -> in_range t b ->
  two_prod (int_ops m t) k a b = Ok (r, c) -> o_mul (int_ops m t) a b = Ok r /\ c = 0.
Proof. exact two_prod_int. Qed.
Print Assumptions C176_int.

(** (1 + 2^-12) * (1 + 2^-12) - 1 * (1 + 2^-11) in f32: the plain loop returns 0, the compensated one the exact 2^-24. *)
Definition one32 : f32 := @B754_finite 24 128 false 8388608 (-23) eq_refl.
Definition near32 : f32 := @B754_finite 24 128 false 8390656 (-23) eq_refl.
Definition minus32 : f32 := @B754_finite 24 128 true 8392704 (-23) eq_refl.
Example C176_float_ex : let xs := [(near32, near32); (one32, minus32)] in splitter 24 = 4097 /\ splitter 53 = 134217729 /\
  Forall (fun q => is_finite (fst q) = true /\ is_finite (snd q) = true /\ (Rabs (B2R (fst q)) <= bpow radix2 1)%R /\ (Rabs (B2R (snd q)) <= bpow radix2 1)%R) xs /\
  (INR (length xs) * bpow radix2 (-24) <= / 4)%R /\ (sum_abs (map (fun q => (B2R (fst q), B2R (snd q))) xs) <= bpow radix2 (128 - 9))%R /\
  match plain_dot float_ops float_zero xs with Ok r => B2SF r = SpecFloat.S754_zero false | _ => False end /\
  match comp_dot float_ops float_zero 4097 xs with Ok r => B2SF r = SpecFloat.S754_finite false 8388608 (-47) | _ => False end.
Proof.
  cbv zeta. split; [reflexivity|]. split; [reflexivity|].
  assert (O : B2R one32 = 1%R) by (unfold B2R, one32, F2R; cbn; lra). assert (N : (B2R near32 = 8390656 / 8388608)%R) by (unfold B2R, near32, F2R; cbn; lra).
  assert (M : (B2R minus32 = - (8392704 / 8388608))%R) by (unfold B2R, minus32, F2R; cbn; lra).
  split; [|split; [cbn; lra|split; [|split; vm_compute; reflexivity]]].
  - constructor; [|constructor; [|constructor]]; cbn [fst snd]; (split; [reflexivity|]); (split; [reflexivity|]); rewrite ?O, ?N, ?M, ?Rabs_Ropp, !Rabs_pos_eq by lra; cbn; lra.
  - unfold sum_abs, total. cbn [map fold_right fst snd]. rewrite O, N, M. rewrite !Rabs_mult, !Rabs_Ropp, !Rabs_pos_eq by lra. apply Rle_trans with (bpow radix2 2); [cbn; lra|apply bpow_le; lia].
Qed.
(** 3.25 * 2.5 on I8F8 with literal 3: returns, with a zero correction; 1.5/256 * 1.5 rounds and the loss is not seen. *)
Example C176_fixed_ex : let f := mkFty true 16 8 in supported f = true /\ fvalid f 832 /\ fvalid f 640 /\
  two_prod (fixed_ops Debug f) 3 832 640 = Ok (2080, 0) /\ two_prod (fixed_ops Debug f) 3 3 384 = Ok (4, 0) /\ 3 * 384 <> 4 * 256 /\
  two_prod (fixed_ops Release f) 4097 832 640 = Ok (2080, 0) /\ two_prod (int_ops Debug (mkIty true 32)) 4097 1000 (-7) = Ok (-7000, 0).
Proof. cbv zeta. repeat split; try discriminate; vm_compute; reflexivity. Qed.
