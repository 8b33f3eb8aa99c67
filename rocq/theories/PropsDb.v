(** * Property C130: accuracy and algebra of the decibel conversions. *)

From Coq Require Import ZArith Reals.
From Flocq Require Import Core.Core IEEE754.BinarySingleNaN.
From Verif Require Import Base FloatBase Traits FloatImpl SpecDb DbProofs.
Open Scope Z_scope.

(** C130.  For every float type (f32: p = 24, e = 128; f64: p = 53, e = 1024), both scales (20: mag2db/db2mag, 10: pow2db/db2pow) and
    any log10/exp10 routines of relative error at most d: values, both round trips, products, order, zero. *)
Theorem C130_to_db : forall p e {Hp : Prec_gt_0 p} {He : Prec_lt_emax p e}, 24 <= p -> 128 <= e -> p + 20 <= e -> e + p <= 1100 ->
  forall (L : Mixedlog10 (binary_float p e)) E c to_db from_db, decibel L E c to_db from_db ->
  forall d x, (0 <= d <= 1)%R -> log10_within d L -> is_finite x = true -> (0 < B2R x)%R ->
  exists r, to_db x = Ok r /\ is_finite r = true /\
  (Rabs (B2R r - IZR c * log10 (B2R x)) <= (d + bpow radix2 (- p) + d * bpow radix2 (- p)) * (IZR c * Rabs (log10 (B2R x))))%R.
Proof. exact @db_accurate. Qed.
Print Assumptions C130_to_db.
Theorem C130_from_db : forall p e {Hp : Prec_gt_0 p} {He : Prec_lt_emax p e}, 24 <= p -> 128 <= e -> p + 20 <= e -> e + p <= 1100 ->
  forall (L : Mixedlog10 (binary_float p e)) E c to_db from_db, decibel L E c to_db from_db ->
  forall d x, (0 <= d <= / 1000000)%R -> exp10_within d E -> is_finite x = true ->
  (bpow radix2 (4 - e) <= pow10 (B2R x / IZR c) <= bpow radix2 (e - 2))%R ->
  exists r, from_db x = Ok r /\ is_finite r = true /\
  (Rabs (B2R r - pow10 (B2R x / IZR c)) <=
   (d + 31 / 10 * (bpow radix2 (- p) * Rabs (B2R x / IZR c) + bpow radix2 (2 - e - p))) * pow10 (B2R x / IZR c))%R.
Proof. exact @db_inverse_accurate. Qed.
Print Assumptions C130_from_db.
(** value -> decibels -> value: the error grows with the number of decades *)
Theorem C130_there_and_back : forall p e {Hp : Prec_gt_0 p} {He : Prec_lt_emax p e}, 24 <= p -> 128 <= e -> p + 20 <= e -> e + p <= 1100 ->
  forall (L : Mixedlog10 (binary_float p e)) E c to_db from_db, decibel L E c to_db from_db ->
  forall d x, (0 <= d <= / 1000000)%R -> log10_within d L -> exp10_within d E -> is_finite x = true ->
  (bpow radix2 (5 - e) <= B2R x <= bpow radix2 (e - 3))%R ->
  exists r, bind (to_db x) from_db = Ok r /\ is_finite r = true /\
  (Rabs (B2R r - B2R x) <= (101 / 100 * d + 32 / 10 * (d + 2 * bpow radix2 (- p)) * Rabs (log10 (B2R x)) + 4 * bpow radix2 (2 - e - p)) * B2R x)%R.
Proof. exact @db_there_and_back. Qed.
Print Assumptions C130_there_and_back.
(** decibels -> value -> decibels *)
Theorem C130_back_and_there : forall p e {Hp : Prec_gt_0 p} {He : Prec_lt_emax p e}, 24 <= p -> 128 <= e -> p + 20 <= e -> e + p <= 1100 ->
  forall (L : Mixedlog10 (binary_float p e)) E c to_db from_db, decibel L E c to_db from_db ->
  forall d x, (0 <= d <= / 1000000)%R -> log10_within d L -> exp10_within d E -> is_finite x = true ->
  (bpow radix2 (4 - e) <= pow10 (B2R x / IZR c) <= bpow radix2 (e - 2))%R ->
  exists r, bind (from_db x) to_db = Ok r /\ is_finite r = true /\
  (Rabs (B2R r - B2R x) <= IZR c * (6 / 10 * d + 16 / 10 * bpow radix2 (2 - e - p)) + (11 / 10 * d + 27 / 10 * bpow radix2 (- p)) * Rabs (B2R x))%R.
Proof. exact @db_back_and_there. Qed.
Print Assumptions C130_back_and_there.
(** gains multiply, decibels add *)
Theorem C130_product : forall p e {Hp : Prec_gt_0 p} {He : Prec_lt_emax p e}, 24 <= p -> 128 <= e -> p + 20 <= e -> e + p <= 1100 ->
  forall (L : Mixedlog10 (binary_float p e)) E c to_db from_db, decibel L E c to_db from_db ->
  forall d x y, (0 <= d <= / 1000000)%R -> log10_within d L -> is_finite x = true -> is_finite y = true ->
  (0 < B2R x -> 0 < B2R y -> bpow radix2 (3 - e) <= B2R x * B2R y <= bpow radix2 (e - 1) ->
  exists a b r, to_db x = Ok a /\ to_db y = Ok b /\ to_db (Bmult mode_NE x y) = Ok r /\ is_finite r = true /\
  Rabs (B2R r - (B2R a + B2R b)) <=
  IZR c * (6 / 10 * bpow radix2 (- p) + 21 / 10 * (d + bpow radix2 (- p)) * (Rabs (log10 (B2R x)) + Rabs (log10 (B2R y)))))%R.
Proof. exact @db_of_product. Qed.
Print Assumptions C130_product.
(** order is kept when the routines keep it *)
Theorem C130_order : forall p e {Hp : Prec_gt_0 p} {He : Prec_lt_emax p e}, 24 <= p -> 128 <= e -> p + 20 <= e -> e + p <= 1100 ->
  forall (L : Mixedlog10 (binary_float p e)) E c to_db from_db, decibel L E c to_db from_db ->
  (forall d x y, (0 <= d <= 1)%R -> log10_within d L -> log10_rises L -> is_finite x = true -> is_finite y = true -> (0 < B2R x <= B2R y)%R ->
    exists a b, to_db x = Ok a /\ to_db y = Ok b /\ (B2R a <= B2R b)%R) /\
  (forall x y, exp10_rises E -> is_finite x = true -> is_finite y = true -> (B2R x <= B2R y)%R ->
    exists a b, from_db x = Ok a /\ from_db y = Ok b /\ Bleb a b = true).
Proof. exact @db_keeps_order. Qed.
Print Assumptions C130_order.
(** zero is minus infinity decibels, and minus infinity decibels is whatever exp10 makes of minus infinity *)
Theorem C130_zero : forall p e {Hp : Prec_gt_0 p} {He : Prec_lt_emax p e}, 24 <= p ->
  forall (L : Mixedlog10 (binary_float p e)) E c to_db from_db, decibel L E c to_db from_db -> forall s,
  (mixed_log10 L (B754_zero s) = Ok (B754_infinity true) -> to_db (B754_zero s) = Ok (B754_infinity true)) /\
  from_db (B754_infinity true) = mixed_exp10 E (B754_infinity true).
Proof. exact @db_of_zero. Qed.
Print Assumptions C130_zero.
(** The hypotheses can be met: correctly rounded routines meet all of them with d = 2^-p. *)
Theorem C130_best_routines : forall p e {Hp : Prec_gt_0 p} {He : Prec_lt_emax p e}, 24 <= p -> 128 <= e -> p + 20 <= e -> e + p <= 1100 ->
  (log10_within (bpow radix2 (- p)) (best_log10 (p := p) (e := e)) /\ log10_rises (best_log10 (p := p) (e := e))) /\
  (exp10_within (bpow radix2 (- p)) (best_exp10 (p := p) (e := e)) /\ exp10_rises (best_exp10 (p := p) (e := e))).
Proof. intros p e Hp He A B C D. exact (conj (best_log10_ok A B C D) (best_exp10_ok A B C)). Qed.
Print Assumptions C130_best_routines.
Example C130_ex : decibel (best_log10 (p := 24) (e := 128)) best_exp10 20
    (mixed_mag2db (float_dbmag best_log10 best_exp10)) (mixed_db2mag (float_dbmag best_log10 best_exp10)) /\
  (is_finite (float_of_Z 24 128 100) = true /\ Rlt_bool 0 (B2R (float_of_Z 24 128 100)) = true) /\
  (bpow radix2 (5 - 128) <= IZR 100 <= bpow radix2 (128 - 3))%R.
Proof.
  split; [left; auto|]. split; [split; [vm_compute; reflexivity|] |].
  - apply Rlt_bool_true. change (B2R (float_of_Z 24 128 100)) with (F2R (Float radix2 13107200 (-17))). apply F2R_gt_0. reflexivity.
  - split; [change 100%R with (100)%R; apply Rle_trans with (bpow radix2 0); [apply bpow_le; discriminate | apply IZR_le; discriminate]
           | apply Rle_trans with (bpow radix2 7); [apply IZR_le; discriminate | apply bpow_le; discriminate]].
Qed.
