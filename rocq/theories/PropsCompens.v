(** * C175: compensated addition and summation. *)

From Coq Require Import ZArith Reals List Lia Lra.
From Flocq Require Import Core.Core IEEE754.BinarySingleNaN.
From Verif Require Import Base FloatBase Traits IntImpl FixedPrim FixedImpl FloatImpl Spec SpecCompens CompensProofs.
Import ListNotations.
Open Scope Z_scope.

(** Floats: the sum and the computed correction together are exactly a + b. *)
Theorem C175_pair_float : forall p e {Hp : Prec_gt_0 p} {He : Prec_lt_emax p e}, 4 <= p -> p + 8 <= e -> forall a b : binary_float p e, is_finite a = true -> is_finite b = true ->
  (Rabs (B2R a) <= bpow radix2 (e - 6))%R -> (Rabs (B2R b) <= bpow radix2 (e - 6))%R ->
  exists s c, two_sum float_ops a b = Ok (s, c) /\ is_finite s = true /\ is_finite c = true /\ s = Bplus mode_NE a b /\ (B2R s + B2R c = B2R a + B2R b)%R.
Proof. exact @two_sum_float. Qed.
Print Assumptions C175_pair_float.

(** Floats: the compensated sum is as good as the exact sum rounded once, up to a term of second order. *)
Theorem C175_sum_float : forall p e {Hp : Prec_gt_0 p} {He : Prec_lt_emax p e}, 4 <= p -> p + 8 <= e -> forall xs : list (binary_float p e), Forall (fun x => is_finite x = true) xs ->
  (INR (length xs) * bpow radix2 (- p) <= / 2)%R -> (total (map (fun x => Rabs (B2R x)) xs) <= bpow radix2 (e - 7))%R ->
  exists r, comp_sum float_ops float_zero xs = Ok r /\ is_finite r = true /\
  (Rabs (B2R r - total (map B2R xs)) <=
    bpow radix2 (- p) * Rabs (total (map B2R xs)) + 5 * (INR (length xs) * bpow radix2 (- p)) ^ 2 * total (map (fun x => Rabs (B2R x)) xs))%R.
Proof. exact @comp_sum_float. Qed.
Print Assumptions C175_sum_float.

(** Fixed-point types, both profiles: the correction is zero and the compensated sum is the plain sum, overflow included; a debug build
    that returns gives the exact sum. *)
Theorem C175_fixed : forall m f, supported f = true ->
  (forall a b, fvalid f a -> fvalid f b -> two_sum (fixed_ops m f) a b = (s <- o_add (fixed_ops m f) a b ;; Ok (s, 0))) /\
  (forall xs, Forall (fvalid f) xs -> comp_sum (fixed_ops m f) (fixed_zero m f) xs = plain_sum (fixed_ops m f) (fixed_zero m f) xs) /\
  (forall xs r, m = Debug -> plain_sum (fixed_ops m f) (fixed_zero m f) xs = Ok r -> r = fold_right Z.add 0 xs).
Proof. exact comp_fixed. Qed.
Print Assumptions C175_fixed.
(** Integers likewise. *)
Theorem C175_int : forall m t, In t int_types ->
  (forall a b, in_range t a -> in_range t b -> two_sum (int_ops m t) a b = (s <- o_add (int_ops m t) a b ;; Ok (s, 0))) /\
  (forall xs, Forall (in_range t) xs -> comp_sum (int_ops m t) (int_zero t) xs = plain_sum (int_ops m t) (int_zero t) xs) /\
  (forall xs r, m = Debug -> plain_sum (int_ops m t) (int_zero t) xs = Ok r -> r = fold_right Z.add 0 xs).
Proof. exact comp_int. Qed.
Print Assumptions C175_int.

(** 1 + 8 * 2^-25 in f32: the plain loop loses every small term, the compensated one returns 1 + 2^-22 exactly. *)
Definition one32 : f32 := @B754_finite 24 128 false 8388608 (-23) eq_refl.
Definition tiny32 : f32 := @B754_finite 24 128 false 8388608 (-48) eq_refl.
Example C175_float_ex : let xs := one32 :: repeat tiny32 8 in
  Forall (fun x => is_finite x = true) xs /\ (INR (length xs) * bpow radix2 (-24) <= / 2)%R /\ (total (map (fun x => Rabs (B2R x)) xs) <= bpow radix2 (128 - 7))%R /\
  match plain_sum float_ops float_zero xs with Ok r => B2SF r = SpecFloat.S754_finite false 8388608 (-23) | _ => False end /\
  match comp_sum float_ops float_zero xs with Ok r => B2SF r = SpecFloat.S754_finite false 8388610 (-23) | _ => False end.
Proof.
  cbv zeta. split; [repeat constructor|]. split; [cbn; lra|]. split; [|split; vm_compute; reflexivity].
  assert (O : B2R one32 = 1%R) by (unfold B2R, one32, F2R; cbn; lra). assert (T : (B2R tiny32 = / 33554432)%R) by (unfold B2R, tiny32, F2R; cbn; lra).
  cbn [repeat map total fold_right]. unfold total. cbn [fold_right]. rewrite O, T. rewrite !Rabs_pos_eq by lra.
  apply Rle_trans with (bpow radix2 1); [cbn; lra|apply bpow_le; lia].
Qed.
Example C175_fixed_ex : let f := mkFty true 16 8 in let xs := [30000; -20000; 20000; 2767] in
  supported f = true /\ Forall (fvalid f) xs /\ comp_sum (fixed_ops Debug f) (fixed_zero Debug f) xs = Ok 32767 /\
  two_sum (fixed_ops Release f) 30000 20000 = Ok (-15536, 0).
Proof. cbv zeta. split; [reflexivity|]. split; [repeat constructor; discriminate|]. split; vm_compute; reflexivity. Qed.
