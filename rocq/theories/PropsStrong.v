(** * C182: the strongest sample of a list, found by comparing squared magnitudes. *)

From Coq Require Import ZArith Reals List Lia.
From Flocq Require Import Core.Core IEEE754.BinarySingleNaN.
From Verif Require Import Base FloatBase Traits FixedPrim FixedImpl FloatImpl Complex Spec SpecStrong StrongProofs.
Import ListNotations.
Open Scope Z_scope.

(** Fixed point, debug builds, on bits: no sample is stronger by more than two units of a square. *)
Theorem C182_fixed_partial : forall f, supported f = true -> forall first zs, (forall y, In y (first :: zs) -> exists s, strength (fixed_ops Debug f) y = Ok s) ->
  exists r, strongest (fixed_ops Debug f) first zs = Ok r /\ In r (first :: zs) /\
  forall y, In y (first :: zs) -> re y * re y + im y * im y <= re r * re r + im r * im r + 2 * (fone f - 1).
Proof. exact strongest_fixed. Qed.
Print Assumptions C182_fixed_partial.
(** What is missing: zero is preferred to a number that is not zero, on every format with a fractional bit. *)
Theorem C182_fixed_refuted : forall m f, supported f = true -> 1 <= ffrac f -> fvalid f 1 /\ strongest (fixed_ops m f) (mkC 0 0) [mkC 1 1] = Ok (mkC 0 0).
Proof. exact strongest_zero. Qed.
Print Assumptions C182_fixed_refuted.

(** Floats: no sample is stronger by more than four rounding units, up to underflow. *)
Theorem C182_float_partial : forall p e {Hp : Prec_gt_0 p} {He : Prec_lt_emax p e} (first : Cartesian (binary_float p e)) zs,
  (forall y, In y (first :: zs) -> exists s, strength float_ops y = Ok s /\ is_finite s = true) ->
  let u := bpow radix2 (- p) in let eta := bpow radix2 (3 - e - p) in
  let square z := (B2R (re z) * B2R (re z) + B2R (im z) * B2R (im z))%R in
  exists r, strongest float_ops first zs = Ok r /\ In r (first :: zs) /\ forall y, In y (first :: zs) -> ((1 - u) ^ 2 * square y <= (1 + u) ^ 2 * square r + 3 * eta)%R.
Proof. exact @strongest_float. Qed.
Print Assumptions C182_float_partial.

Example C182_fixed_ex : let f := mkFty true 16 8 in let O := fixed_ops Debug f in
  strongest O (mkC 100 0) [mkC (-300) 400; mkC 350 350; mkC 0 10] = Ok (mkC (-300) 400) /\ Forall (fun y => exists s, strength O y = Ok s) [mkC 100 0; mkC (-300) 400; mkC 350 350; mkC 0 10].
Proof. cbv zeta. split; [vm_compute; reflexivity|]. repeat (apply Forall_cons; [eexists; vm_compute; reflexivity|]). apply Forall_nil. Qed.
Example C182_float_ex : let n := float_of_Z 24 128 in
  match strongest float_ops (mkC (n 1) (n 0)) [mkC (n (-3)) (n 4); mkC (n 3) (n 3)] with Ok r => B2SF (re r) = B2SF (n (-3)) /\ B2SF (im r) = B2SF (n 4) | _ => False end /\
  match strength float_ops (mkC (n (-3)) (n 4)) with Ok s => is_finite s = true /\ B2SF s = B2SF (n 25) | _ => False end.
Proof. vm_compute. repeat split. Qed.
