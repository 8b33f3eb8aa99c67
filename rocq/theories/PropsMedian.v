(** * C184: a median filter over three samples removes isolated spikes and keeps edges. *)

From Coq Require Import ZArith Reals List Lia.
From Flocq Require Import Core.Core IEEE754.BinarySingleNaN.
From Verif Require Import Base FloatBase Traits IntImpl FixedPrim FixedImpl FloatImpl Spec SpecMedian MedianProofs.
Import ListNotations.
Open Scope Z_scope.

Theorem C184_fixed : forall m f, filters (fixed_ops m f).
Proof. exact filters_fixed. Qed.
Print Assumptions C184_fixed.
Theorem C184_int : forall m t, filters (int_ops m t).
Proof. exact filters_int. Qed.
Print Assumptions C184_int.
(** Floats: the spikes may be infinite. *)
Theorem C184_spike_float_partial : forall p e {Hp : Prec_gt_0 p} {He : Prec_lt_emax p e} (lo hi : binary_float p e) xs, Forall (fun x => is_nan x = false) xs ->
  windows (two_of (between float_ops lo hi)) xs -> Forall (between float_ops lo hi) (medians float_ops xs).
Proof. exact @spike_float. Qed.
Print Assumptions C184_spike_float_partial.
Theorem C184_edge_float : forall p e {Hp : Prec_gt_0 p} {He : Prec_lt_emax p e} (xs : list (binary_float p e)), Forall (fun x => is_nan x = false) xs ->
  windows (fun a b c => o_le float_ops a b = true /\ o_le float_ops b c = true \/ o_le float_ops c b = true /\ o_le float_ops b a = true) xs ->
  Forall2 (fun y x => o_eq float_ops y x = true) (medians float_ops xs) (inner xs).
Proof. exact @mono_float. Qed.
Print Assumptions C184_edge_float.
(** What is missing from the first: a NaN is removed at either end of the window but not in its middle. *)
Theorem C184_nan_refuted : forall p e {Hp : Prec_gt_0 p} {He : Prec_lt_emax p e} (lo hi x y : binary_float p e), between float_ops lo hi x -> between float_ops lo hi y ->
  between float_ops lo hi (median float_ops B754_nan x y) /\ between float_ops lo hi (median float_ops x y B754_nan) /\ median float_ops x B754_nan y = B754_nan.
Proof. exact @median_nan. Qed.
Print Assumptions C184_nan_refuted.

Example C184_fixed_ex : let O := fixed_ops Debug (mkFty true 16 8) in medians O [10; 12; 30000; 11; 9; -30000; 10; 10] = [12; 12; 11; 9; 9; 10] /\
  windows (two_of (fun x => 9 <= x <= 12)) [10; 12; 30000; 11; 9; -30000; 10; 10] /\ medians O [1; 2; 5; 5; 90; 80] = [2; 5; 5; 80].
Proof. cbv zeta. split; [vm_compute; reflexivity|]. split; [|vm_compute; reflexivity]. cbn [windows]. unfold two_of. lia. Qed.
Example C184_float_ex : let n := float_of_Z 24 128 in Forall (fun x => is_nan x = false) [n 10; n 12; B754_infinity true; n 11] /\
  windows (two_of (between float_ops (n 9) (n 12))) [n 10; n 12; B754_infinity true; n 11] /\ map B2SF (medians float_ops [n 10; n 12; B754_infinity true; n 11]) = map B2SF [n 10; n 11].
Proof. cbv zeta. split; [repeat (apply Forall_cons; [reflexivity|]); apply Forall_nil|]. split; [|vm_compute; reflexivity]. cbn [windows]. split; [left|split; [right; right|exact I]]; (split; split; vm_compute; reflexivity). Qed.
