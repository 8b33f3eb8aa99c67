(** * C177: the parts of a complex product. *)

From Coq Require Import ZArith Reals List Lia Lra.
From Flocq Require Import Core.Core IEEE754.BinarySingleNaN.
From Verif Require Import Base FloatBase Traits FixedPrim FixedImpl FloatImpl Complex Spec SpecCompens SpecTwoProd SpecAccMul AccMulProofs.
Import ListNotations.
Open Scope Z_scope.

(** The product of two Cartesian numbers can return 0 for a real part that is not 0 and that the type represents exactly. *)
Theorem C177_parts_refuted :
  (exists z w r : Cartesian f32, cartesian_mul float_ops z w = Ok r /\ B2R (re r) = 0%R /\ (B2R (re z) * B2R (re w) - B2R (im z) * B2R (im w) = bpow radix2 (-24))%R) /\
  (exists z w r : Cartesian f64, cartesian_mul float_ops z w = Ok r /\ B2R (re r) = 0%R /\ (B2R (re z) * B2R (re w) - B2R (im z) * B2R (im w) = bpow radix2 (-54))%R).
Proof. exact part_lost. Qed.
Print Assumptions C177_parts_refuted.

(** The same product written by the user with compensated dot products: each part is as good as the exact part rounded once, up to a
    term of second order and underflow.  What is missing from the claim for the crate's own product: its error is of first order
    in |ac| + |bd| (C84). *)
Theorem C177_compensated_partial : forall p e {Hp : Prec_gt_0 p} {He : Prec_lt_emax p e}, 4 <= p -> p + 8 <= e ->
  forall k, 0 <= k -> 2 * k + 2 * (p - Z.div2 p) + 16 <= e -> forall z w : Cartesian (binary_float p e),
  Forall (fun x => is_finite x = true /\ (Rabs (B2R x) <= bpow radix2 k)%R) [re z; im z; re w; im w] ->
  let u := bpow radix2 (- p) in let eta := bpow radix2 (3 - e - p) in
  let a := B2R (re z) in let b := B2R (im z) in let c := B2R (re w) in let d := B2R (im w) in
  exists r, acc_mul float_ops float_signed float_zero (splitter p) z w = Ok r /\ is_finite (re r) = true /\ is_finite (im r) = true /\
  (Rabs (B2R (re r) - (a * c - b * d)) <= u * Rabs (a * c - b * d) + 92 * u ^ 2 * (Rabs (a * c) + Rabs (b * d)) + 20 * eta)%R /\
  (Rabs (B2R (im r) - (a * d + b * c)) <= u * Rabs (a * d + b * c) + 92 * u ^ 2 * (Rabs (a * d) + Rabs (b * c)) + 20 * eta)%R.
Proof. exact @acc_mul_float. Qed.
Print Assumptions C177_compensated_partial.

(** On the numbers that defeat the crate's product, in f32 and f64, the compensated one returns 2^-24 and 2^-54 exactly. *)
Example C177_ex : Forall (fun x : f32 => is_finite x = true) [re z32; im z32; re w32; im w32] /\
  match acc_mul float_ops float_signed float_zero 4097 z32 w32 with Ok r => B2SF (re r) = SpecFloat.S754_finite false 8388608 (-47) | _ => False end /\
  match acc_mul float_ops float_signed float_zero 134217729 z64 w64 with Ok r => B2SF (re r) = SpecFloat.S754_finite false 4503599627370496 (-106) | _ => False end.
Proof. split; [repeat constructor|]. split; vm_compute; reflexivity. Qed.
Example C177_hyp : Forall (fun x : f32 => is_finite x = true /\ (Rabs (B2R x) <= bpow radix2 1)%R) [re z32; im z32; re w32; im w32].
Proof.
  assert (A : (B2R (re z32) = 8390656 / 8388608)%R) by (unfold B2R, z32, F2R; cbn -[Rinv Rmult IZR]; lra). assert (B : (B2R (im z32) = 1)%R) by (unfold B2R, z32, F2R; cbn -[Rinv Rmult IZR]; lra).
  assert (C : (B2R (re w32) = 8390656 / 8388608)%R) by (unfold B2R, w32, F2R; cbn -[Rinv Rmult IZR]; lra). assert (D : (B2R (im w32) = 8392704 / 8388608)%R) by (unfold B2R, w32, F2R; cbn -[Rinv Rmult IZR]; lra).
  repeat (apply Forall_cons || apply Forall_nil); (split; [reflexivity|]); rewrite ?A, ?B, ?C, ?D, Rabs_pos_eq by lra; cbn; lra.
Qed.
