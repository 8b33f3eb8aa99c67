(** * C180: running maxima, clamping and sorting with the comparison operators. *)

From Coq Require Import ZArith Reals List Sorted Permutation Lia.
From Flocq Require Import Core.Core IEEE754.BinarySingleNaN.
From Verif Require Import Base FloatBase Traits IntImpl FixedPrim FixedImpl FloatImpl Spec SpecPeak PeakProofs.
Import ListNotations.
Open Scope Z_scope.

(** Fixed-point and integer types, both profiles. *)
Theorem C180_fixed : forall m f, whole (fixed_ops m f) Z.le.
Proof. exact whole_fixed. Qed.
Print Assumptions C180_fixed.
Theorem C180_int : forall m t, whole (int_ops m t) Z.le.
Proof. exact whole_int. Qed.
Print Assumptions C180_int.

(** Floats, infinities included.  A NaN is skipped by the running maximum unless it comes first, in which case it stays. *)
Theorem C180_peak_float : forall p e {Hp : Prec_gt_0 p} {He : Prec_lt_emax p e} (x : binary_float p e) xs, let r := peak float_ops x xs in
  (is_nan x = false -> In r (x :: xs) /\ is_nan r = false /\ (forall y, In y (x :: xs) -> is_nan y = false -> o_le float_ops y r = true) /\
     r = peak float_ops x (filter (fun y => negb (is_nan y)) xs)) /\
  (is_nan x = true -> is_nan r = true).
Proof. exact @peak_float. Qed.
Print Assumptions C180_peak_float.
Theorem C180_clamp_float : forall p e {Hp : Prec_gt_0 p} {He : Prec_lt_emax p e} (lo hi x : binary_float p e), o_le float_ops lo hi = true -> let r := clamp float_ops lo hi x in
  (is_nan x = false -> o_le float_ops lo r = true /\ o_le float_ops r hi = true /\ (o_le float_ops lo x = true -> o_le float_ops x hi = true -> r = x) /\
     (o_lt float_ops x lo = true -> r = lo) /\ (o_lt float_ops hi x = true -> r = hi)) /\
  (is_nan x = true -> is_nan r = true).
Proof. exact @clamp_float. Qed.
Print Assumptions C180_clamp_float.
(** Sorting: always a rearrangement; ascending if there is no NaN. *)
Theorem C180_sort_float_partial : forall p e {Hp : Prec_gt_0 p} {He : Prec_lt_emax p e} (l : list (binary_float p e)),
  Permutation l (sort float_ops l) /\ (Forall (fun y => is_nan y = false) l -> ascending float_ops (sort float_ops l)).
Proof. exact @sort_float. Qed.
Print Assumptions C180_sort_float_partial.
(** What is missing: a NaN can keep the numbers around it in the wrong order. *)
Theorem C180_sort_float_refuted : forall p e {Hp : Prec_gt_0 p} {He : Prec_lt_emax p e}, exists x y : binary_float p e,
  o_lt float_ops y x = true /\ sort float_ops [x; B754_nan; y] = [x; B754_nan; y].
Proof. exact @sort_nan. Qed.
Print Assumptions C180_sort_float_refuted.

Example C180_fixed_ex : let O := fixed_ops Debug (mkFty true 16 8) in peak O 3 [-7; 256; 12] = 256 /\ clamp O (-256) 256 300 = 256 /\ sort O [3; -7; 256; 12; -7] = [-7; -7; 3; 12; 256].
Proof. vm_compute. repeat split. Qed.
Example C180_float_ex : let n := float_of_Z 24 128 in
  is_nan (n 3) = false /\ B2SF (peak float_ops (n 3) [B754_nan; n (-5); n 8; B754_nan; n 2]) = B2SF (n 8) /\ B2SF (peak float_ops (n 3) [B754_infinity false; n 8]) = SpecFloat.S754_infinity false /\
  o_le float_ops (n (-1)) (n 1) = true /\ B2SF (clamp float_ops (n (-1)) (n 1) (B754_infinity true)) = B2SF (n (-1)) /\
  map B2SF (sort float_ops [n 3; B754_infinity true; n (-5)]) = map B2SF [B754_infinity true; n (-5); n 3].
Proof. vm_compute. repeat split. Qed.
