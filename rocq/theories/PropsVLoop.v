(** * Property C171: a contracting feedback loop with several state variables never drifts, whatever its bodies.

    [vloop] runs the loop on a type, [videal] on the real numbers; [within] is a box of states, [apart] a weighted maximum norm, and
    [vcontracting] says that one round is safe on the box, stays in it with a margin for rounding, and contracts. *)

From Coq Require Import ZArith Reals Lra Lia List.
From Flocq Require Import Core.Core IEEE754.BinarySingleNaN.
From Verif Require Import Base FloatBase Traits FixedPrim FixedImpl FloatImpl Spec SpecFormula SpecUFormula SpecTwoSort SpecVLoop VLoopProofs.
Import ListNotations.
Open Scope Z_scope.

(** C171.  Fixed point, signed or unsigned. *)
Theorem C171_fixed : forall m f, supported f = true -> forall bs lo hi w L delta, (0 <= L < 1)%R -> forall ins xs,
  Forall2 (fun v x => exists d, (forall i, fvalid f (v i) /\ (Rabs (fval f (v i) - x i) <= d i)%R) /\ vcontracting (fits f) (round_fixed (ulp f)) bs lo hi w L delta x d) ins xs ->
  forall s y rho, Forall (fvalid f) s -> length s = length bs -> length y = length bs -> within lo hi (map (fval f) s) -> within lo hi y -> apart w rho (map (fval f) s) y ->
  exists r, returns (fun fuel => vloop (fixed_ops m f) (fixed_signed m f) (fixed_abs m f) (fixed_sqrt m f fuel) bs s ins) r /\ Forall (fvalid f) r /\ length r = length bs /\
  within lo hi (map (fval f) r) /\ apart w (L ^ length ins * rho + delta * (1 - L ^ length ins) / (1 - L)) (map (fval f) r) (videal bs y xs).
Proof. exact vloop_fixed. Qed.
Print Assumptions C171_fixed.

(** f32, f64 and larger formats whose square root is correctly rounded. *)
Theorem C171_float : forall p e {Hp : Prec_gt_0 p} {He : Prec_lt_emax p e}, 24 <= p -> 128 <= e -> forall m (sq : binary_float p e -> binary_float p e), (forall x, sq x = Bsqrt mode_NE x) ->
  forall bs lo hi w L delta, (0 <= L < 1)%R -> forall ins xs,
  let u := round_float (bpow radix2 (- p)) (bpow radix2 (3 - e - p)) in let S := fun x d => safe x u d (bpow radix2 e - bpow radix2 (e - p)) in
  Forall2 (fun v x => exists d, (forall i, is_finite (v i) = true /\ (Rabs (B2R (v i) - x i) <= d i)%R) /\ vcontracting S u bs lo hi w L delta x d) ins xs ->
  forall s y rho, Forall (fun r => is_finite r = true) s -> length s = length bs -> length y = length bs -> within lo hi (map B2R s) -> within lo hi y -> apart w rho (map B2R s) y ->
  exists r, returns (fun fuel => vloop float_ops float_signed float_abs (float_sqrt m sq fuel) bs s ins) r /\ Forall (fun r => is_finite r = true) r /\ length r = length bs /\
  within lo hi (map B2R r) /\ apart w (L ^ length ins * rho + delta * (1 - L ^ length ins) / (1 - L)) (map B2R r) (videal bs y xs).
Proof. exact @vloop_float. Qed.
Print Assumptions C171_float.

(** With constant inputs the state settles at the fixed point of the bodies. *)
Theorem C171_settles_fixed : forall m f, supported f = true -> forall bs lo hi w L delta, (0 <= L < 1)%R -> (0 <= delta)%R -> (forall k, (0 <= w k)%R) ->
  forall v x d, (forall i, fvalid f (v i) /\ (Rabs (fval f (v i) - x i) <= d i)%R) -> vcontracting (fits f) (round_fixed (ulp f)) bs lo hi w L delta x d ->
  forall s y rho n, Forall (fvalid f) s -> length s = length bs -> length y = length bs -> within lo hi (map (fval f) s) -> within lo hi y -> apart w rho (map (fval f) s) y -> update bs x y = y ->
  exists r, returns (fun fuel => vloop (fixed_ops m f) (fixed_signed m f) (fixed_abs m f) (fixed_sqrt m f fuel) bs s (repeat v n)) r /\ Forall (fvalid f) r /\ length r = length bs /\
  within lo hi (map (fval f) r) /\ apart w (L ^ n * rho + delta / (1 - L)) (map (fval f) r) y.
Proof. exact vsettles_fixed. Qed.
Print Assumptions C171_settles_fixed.
Theorem C171_settles_float : forall p e {Hp : Prec_gt_0 p} {He : Prec_lt_emax p e}, 24 <= p -> 128 <= e -> forall m (sq : binary_float p e -> binary_float p e), (forall x, sq x = Bsqrt mode_NE x) ->
  forall bs lo hi w L delta, (0 <= L < 1)%R -> (0 <= delta)%R -> (forall k, (0 <= w k)%R) ->
  forall v x d, (forall i, is_finite (v i) = true /\ (Rabs (B2R (v i) - x i) <= d i)%R) ->
  let u := round_float (bpow radix2 (- p)) (bpow radix2 (3 - e - p)) in vcontracting (fun x d => safe x u d (bpow radix2 e - bpow radix2 (e - p))) u bs lo hi w L delta x d ->
  forall s y rho n, Forall (fun r => is_finite r = true) s -> length s = length bs -> length y = length bs -> within lo hi (map B2R s) -> within lo hi y -> apart w rho (map B2R s) y -> update bs x y = y ->
  exists r, returns (fun fuel => vloop float_ops float_signed float_abs (float_sqrt m sq fuel) bs s (repeat v n)) r /\ Forall (fun r => is_finite r = true) r /\ length r = length bs /\
  within lo hi (map B2R r) /\ apart w (L ^ n * rho + delta / (1 - L)) (map B2R r) y.
Proof. exact @vsettles_float. Qed.
Print Assumptions C171_settles_float.

(** ** a concrete case: the second-order recursion y = x + y1 / 2 - y2 / 4 with x = 1 on I16F16.  It contracts by 5/6 in the maximum norm
    with weights 1 and 4/3, and settles within 12 steps of 4/3 (16 for y2). *)
Definition i16f16 := mkFty true 32 16.
Definition bodies := [Plus (Input 2) (Minus (Over (Input 0) (Whole 2)) (Over (Input 1) (Whole 4))); Input 0].
Definition lim (k : nat) : R := match k with 0%nat => 8 | _ => 9 end.
Definition wt (k : nat) : R := match k with 0%nat => 1 | _ => 4 / 3 end.
Example C171_ex : vcontracting (fits i16f16) (round_fixed (ulp i16f16)) bodies (fun k => - lim k)%R lim wt (5 / 6) (2 / 65536) (fun _ => 1%R) (fun _ => 0%R) /\
  update bodies (fun _ => 1%R) [4 / 3; 4 / 3]%R = [4 / 3; 4 / 3]%R.
Proof.
  assert (U : ulp i16f16 = (/ 65536)%R) by (unfold ulp; cbn; lra). assert (M : fval i16f16 (fmax i16f16) = (2147483647 / 65536)%R) by reflexivity.
  split; [split|].
  - intros [|t0 [|t1 [|]]] Lt Wt; try discriminate. pose proof (Wt 0%nat ltac:(cbn; lia)) as W0. pose proof (Wt 1%nat ltac:(cbn; lia)) as W1. cbn in W0, W1. clear Wt Lt.
    unfold fits. cbn [fsigned i16f16]. rewrite U, M. assert (A0 : (Rabs t0 <= 8)%R) by (apply Rabs_le; lra). assert (A1 : (Rabs t1 <= 9)%R) by (apply Rabs_le; lra).
    intros [|[|[|k]]] b E; cbn in E; try discriminate; injection E as <-.
    + cbn [safe slack value spread nth length bodies repeat Nat.sub round_fixed r_whole r_sum r_prod r_root wt lim].
      rewrite ?(Rabs_pos_eq 1), ?(Rabs_pos_eq 2), ?(Rabs_pos_eq 4) by lra.
      rewrite !Rmult_0_r, !Rplus_0_l, !Rminus_0_r. unfold Rdiv. rewrite !Rmult_0_l, !Rplus_0_l.
      assert (B0 : (Rabs (t0 * / 2) <= 4)%R) by (apply Rabs_le; lra). assert (B1 : (Rabs (t1 * / 4) <= 3)%R) by (apply Rabs_le; lra).
      assert (B2 : (Rabs (t0 * / 2 - t1 * / 4) <= 7)%R) by (apply Rabs_le; lra). assert (B3 : (Rabs (1 + (t0 * / 2 - t1 * / 4)) <= 8)%R) by (apply Rabs_le; lra).
      repeat split; try lra; discriminate.
    + cbn [safe slack value spread nth length bodies repeat Nat.sub wt lim]. repeat split; try lra; discriminate.
  - intros [|t0 [|t1 [|]]] [|t0' [|t1' [|]]] rho Lt Lt' _ _ Ap; try discriminate. pose proof (Ap 0%nat ltac:(cbn; lia)) as A0. pose proof (Ap 1%nat ltac:(cbn; lia)) as A1. cbn in A0, A1. clear Ap Lt Lt'.
    apply Rabs_le_inv in A0, A1. intros [|[|[|k]]] Hk; cbn in Hk; try lia; cbn; apply Rabs_le; lra.
  - cbn [update map bodies value spread nth length Nat.sub]. replace (1 + (4 / 3 / 2 - 4 / 3 / 4))%R with (4 / 3)%R by field. reflexivity.
Qed.
Example C171_ex_run : vloop (fixed_ops Debug i16f16) (fixed_signed Debug i16f16) (fixed_abs Debug i16f16) (fixed_sqrt Debug i16f16 9%nat) bodies [0; 0] (repeat (fun _ => 65536) 40) = Ok [87381; 87381].
Proof. vm_compute. reflexivity. Qed.
