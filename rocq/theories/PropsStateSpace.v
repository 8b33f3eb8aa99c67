(** * Property C173: linear filters in state-space form, with quantised coefficients.

    [state_space] runs s = A s + c on a type, [state_spaceR] with the ideal matrix on the real numbers; [bounded], [close], [gain] and
    [matrix_near] are weighted maximum norms; [stable]: gain below one and room for the rounding of one round. *)

From Coq Require Import ZArith Reals Lra Lia List.
From Flocq Require Import Core.Core IEEE754.BinarySingleNaN.
From Verif Require Import Base FloatBase Traits FixedPrim FixedImpl FloatImpl Spec SpecStateSpace StateSpaceProofs.
Import ListNotations.
Open Scope Z_scope.

(** C173.  Fixed point, signed or unsigned: no panic ever, states stay bounded by [X], and the distance to the ideal filter stays below
    (input error + coefficient error times [X] + rounding of one round) / (1 - L), plus a vanishing share of the initial difference. *)
Theorem C173_fixed : forall m f, supported f = true ->
  forall X U L kappa q nu w A A', Forall (Forall (fvalid f)) A -> stable (fval f (fmax f) - ulp f) (ulp f) X U L nu w (map (map (fval f)) A) A' ->
  (0 <= kappa)%R -> (0 <= q)%R -> matrix_near q w (map (map (fval f)) A) A' ->
  forall cs cs', Forall2 (fun c c' => Forall (fvalid f) c /\ bounded U w (map (fval f) c) /\ bounded U w c' /\ close kappa w (map (fval f) c) c') cs cs' ->
  forall s y rho, (0 <= rho)%R -> Forall (fvalid f) s -> bounded X w (map (fval f) s) -> bounded X w y -> close rho w (map (fval f) s) y ->
  exists r, state_space (fixed_ops m f) A s cs = Ok r /\ Forall (fvalid f) r /\ bounded X w (map (fval f) r) /\ bounded X w (state_spaceR A' y cs') /\
  close (L ^ length cs * rho + (kappa + q * X + nu) * (1 - L ^ length cs) / (1 - L)) w (map (fval f) r) (state_spaceR A' y cs').
Proof. exact state_space_fixed. Qed.
Print Assumptions C173_fixed.

(** Floats; [B] bounds everything computed. *)
Theorem C173_float : forall p e {Hp : Prec_gt_0 p} {He : Prec_lt_emax p e}, 24 <= p -> 128 <= e -> forall B, (B <= bpow radix2 (e - 1))%R -> (0 <= B)%R ->
  forall X U L kappa q nu w (A : list (list (binary_float p e))) A', Forall (Forall (fun a => is_finite a = true)) A ->
  stable B (2 * (bpow radix2 (- p) * B + / 2 * bpow radix2 (3 - e - p))) X U L nu w (map (map B2R) A) A' ->
  (0 <= kappa)%R -> (0 <= q)%R -> matrix_near q w (map (map B2R) A) A' ->
  forall cs cs', Forall2 (fun c c' => Forall (fun a => is_finite a = true) c /\ bounded U w (map B2R c) /\ bounded U w c' /\ close kappa w (map B2R c) c') cs cs' ->
  forall s y rho, (0 <= rho)%R -> Forall (fun a => is_finite a = true) s -> bounded X w (map B2R s) -> bounded X w y -> close rho w (map B2R s) y ->
  exists r, state_space float_ops A s cs = Ok r /\ Forall (fun a => is_finite a = true) r /\ bounded X w (map B2R r) /\ bounded X w (state_spaceR A' y cs') /\
  close (L ^ length cs * rho + (kappa + q * X + nu) * (1 - L ^ length cs) / (1 - L)) w (map B2R r) (state_spaceR A' y cs').
Proof. exact @state_space_float. Qed.
Print Assumptions C173_float.

(** ** a concrete case: y = x + y1 / 3 - y2 / 4 with |x| <= 1 on I16F16; 1/3 is not representable *)
Definition i16f16 := mkFty true 32 16.
Definition stored := [[21845; -16384]; [65536; 0]].
Definition wanted := [[/ 3; - / 4]; [1; 0]]%R.
Definition weights := [1; 4 / 3]%R.
Example C173_ex : let A := map (map (fval i16f16)) stored in
  Forall (Forall (fvalid i16f16)) stored /\ stable (fval i16f16 (fmax i16f16) - ulp i16f16) (ulp i16f16) 12 1 (5 / 6) (2 / 65536) weights A wanted /\ matrix_near (/ 65536) weights A wanted /\
  let c := [65536; 0] in Forall (fvalid i16f16) c /\ bounded 1 weights (map (fval i16f16) c) /\ bounded 1 weights [1; 0]%R /\ close 0 weights (map (fval i16f16) c) [1; 0]%R.
Proof.
  assert (U : ulp i16f16 = (/ 65536)%R) by (unfold ulp; cbn; lra). assert (M : fval i16f16 (fmax i16f16) = (2147483647 / 65536)%R) by reflexivity.
  assert (V : forall z, fval i16f16 z = (IZR z * / 65536)%R) by reflexivity.
  cbv zeta. rewrite U, M. unfold stable, matrix_near, gain, minus, bounded, weights, stored, wanted. cbn [map combine fst snd wsum length close]. rewrite !V.
  assert (A1 : (Rabs (21845 * / 65536) = 21845 * / 65536)%R) by (apply Rabs_pos_eq; lra). assert (A2 : (Rabs (-16384 * / 65536) = / 4)%R) by (rewrite Rabs_left; lra).
  assert (A3 : (Rabs (65536 * / 65536) = 1)%R) by (rewrite Rabs_pos_eq; lra). assert (A4 : (Rabs (0 * / 65536) = 0)%R) by (rewrite Rmult_0_l; apply Rabs_R0).
  assert (A5 : (Rabs (/ 3) = / 3)%R) by (apply Rabs_pos_eq; lra). assert (A6 : (Rabs (- / 4) = / 4)%R) by (rewrite Rabs_left; lra). assert (A7 : (Rabs 1 = 1)%R) by (apply Rabs_pos_eq; lra).
  assert (A8 : (Rabs (21845 * / 65536 - / 3) = / 196608)%R) by (rewrite Rabs_left; lra). assert (A9 : (-16384 * / 65536 - - / 4 = 0)%R) by lra. assert (A10 : (65536 * / 65536 - 1 = 0)%R) by lra.
  assert (A11 : (0 * / 65536 - 0 = 0)%R) by lra.
  repeat (apply conj || apply Forall_cons || apply Forall_nil || apply Forall2_cons || apply Forall2_nil || exact I); try discriminate; try reflexivity; cbn [wsum INR]; rewrite ?A1, ?A2, ?A3, ?A4, ?A5, ?A6, ?A7, ?A8, ?A9, ?A10, ?A11, ?Rabs_R0; lra.
Qed.
Example C173_ex_run : state_space (fixed_ops Debug i16f16) stored [0; 0] (repeat [65536; 0] 60) = Ok [71492; 71492].
Proof. vm_compute. reflexivity. Qed.
