(** * Property C172: chains of stages — transforms, cascades, matrix products.

    [pipe] sends a vector through the stages on a type, [pipe_exact] on the real numbers.  [tracked B E l B' E'] adds up the errors:
    each stage multiplies by the factor its formulas amplify differences with and adds its own rounding. *)

From Coq Require Import ZArith Reals Lra Lia List.
From Flocq Require Import Core.Core IEEE754.BinarySingleNaN.
From Verif Require Import Base FloatBase Traits FixedPrim FixedImpl FloatImpl Spec SpecFormula SpecUFormula SpecTwoSort SpecVLoop SpecPipe PipeProofs.
Import ListNotations.
Open Scope Z_scope.

(** C172.  Fixed point, signed or unsigned. *)
Theorem C172_fixed : forall m f, supported f = true -> forall B E l B' E',
  tracked (fits f) (round_fixed (ulp f)) (fun t x d => fvalid f t /\ (Rabs (fval f t - x) <= d)%R) B E l B' E' ->
  forall s y, Forall (fvalid f) s -> inside B (map (fval f) s) -> inside B y -> apart (weight B) E (map (fval f) s) y ->
  exists r, returns (fun fuel => pipe (fixed_ops m f) (fixed_signed m f) (fixed_abs m f) (fixed_sqrt m f fuel) s (map fst l)) r /\ Forall (fvalid f) r /\ inside B' (map (fval f) r) /\
  apart (weight B') E' (map (fval f) r) (pipe_exact y (map (fun c => (fst (fst c), snd c)) l)).
Proof. exact pipe_fixed. Qed.
Print Assumptions C172_fixed.

(** f32, f64 and larger formats whose square root is correctly rounded. *)
Theorem C172_float : forall p e {Hp : Prec_gt_0 p} {He : Prec_lt_emax p e}, 24 <= p -> 128 <= e -> forall m (sq : binary_float p e -> binary_float p e), (forall x, sq x = Bsqrt mode_NE x) ->
  let u := round_float (bpow radix2 (- p)) (bpow radix2 (3 - e - p)) in let S := fun x d => safe x u d (bpow radix2 e - bpow radix2 (e - p)) in forall B E l B' E',
  tracked S u (fun t x d => is_finite t = true /\ (Rabs (B2R t - x) <= d)%R) B E l B' E' ->
  forall s y, Forall (fun t => is_finite t = true) s -> inside B (map B2R s) -> inside B y -> apart (weight B) E (map B2R s) y ->
  exists r, returns (fun fuel => pipe float_ops float_signed float_abs (float_sqrt m sq fuel) s (map fst l)) r /\ Forall (fun t => is_finite t = true) r /\ inside B' (map B2R r) /\
  apart (weight B') E' (map B2R r) (pipe_exact y (map (fun c => (fst (fst c), snd c)) l)).
Proof. exact @pipe_float. Qed.
Print Assumptions C172_float.

(** ** a concrete case: a Walsh-Hadamard transform of two stages, each halving, on I16F16.  No overflow for any data up to 16000, and the
    result is within two steps. *)
Definition i16f16 := mkFty true 32 16.
Definition half a := Over a (Whole 2).
Definition stage := [half (Plus (Input 0) (Input 1)); half (Plus (Input 2) (Input 3)); half (Minus (Input 0) (Input 1)); half (Minus (Input 2) (Input 3))].
Definition data (c : R) := mkBox 4 (fun _ => - c)%R (fun _ => c) (fun _ => 1%R).
Example C172_ex : let none := fun _ : nat => 0 in let none' := fun _ : nat => 0%R in
  tracked (fits i16f16) (round_fixed (ulp i16f16)) (fun t x d => fvalid i16f16 t /\ (Rabs (fval i16f16 t - x) <= d)%R)
    (data 16000) 0 [(stage, none, none'); (stage, none, none')] (data 16002) (2 / 65536).
Proof.
  intros none none'. assert (U : ulp i16f16 = (/ 65536)%R) by (unfold ulp; cbn; lra). assert (M : fval i16f16 (fmax i16f16) = (2147483647 / 65536)%R) by reflexivity.
  assert (G : forall i : nat, fvalid i16f16 (none i) /\ (Rabs (fval i16f16 (none i) - none' i) <= 0)%R).
  { intros i. split; [split; discriminate|]. unfold none, none', fval. rewrite Rmult_0_l, Rminus_0_r, Rabs_R0. lra. }
  assert (St : forall c, (0 <= c <= 16001)%R -> stage_ok (fits i16f16) (round_fixed (ulp i16f16)) (data c) (data (c + 1)) 1 (/ 65536) stage none' (fun _ => 0%R)).
  { intros c Hc. split; [reflexivity|]. split.
    - intros [|t0 [|t1 [|t2 [|t3 [|]]]]] [Lt Wt]; try discriminate. pose proof (Wt 0%nat ltac:(cbn; lia)) as W0. pose proof (Wt 1%nat ltac:(cbn; lia)) as W1.
      pose proof (Wt 2%nat ltac:(cbn; lia)) as W2. pose proof (Wt 3%nat ltac:(cbn; lia)) as W3. cbn in W0, W1, W2, W3. clear Wt Lt. unfold fits. cbn [fsigned i16f16]. rewrite U, M.
      assert (B2 : (Rabs 2 = 2)%R) by (apply Rabs_pos_eq; lra).
      assert (P : forall a, (- (2 * c) <= a <= 2 * c)%R -> (Rabs a <= 32002)%R /\ (Rabs (a * / 2) <= 16001)%R) by (intros a Ha; split; apply Rabs_le; lra).
      assert (Q0 : (- (2 * c) <= t0 + t1 <= 2 * c)%R) by lra. assert (Q1 : (- (2 * c) <= t2 + t3 <= 2 * c)%R) by lra. assert (Q2 : (- (2 * c) <= t0 - t1 <= 2 * c)%R) by lra. assert (Q3 : (- (2 * c) <= t2 - t3 <= 2 * c)%R) by lra.
      pose proof (P _ Q0) as [P0 P0']. pose proof (P _ Q1) as [P1 P1']. pose proof (P _ Q2) as [P2 P2']. pose proof (P _ Q3) as [P3 P3'].
      intros [|[|[|[|[|k]]]]] b E; cbn in E; try discriminate; injection E as <-.
      all: cbn [half safe slack value spread nth length repeat Nat.sub round_fixed r_whole r_sum r_prod r_root data dim low high weight].
      all: rewrite B2, ?Rmult_0_r, ?Rplus_0_l, ?Rminus_0_r; unfold Rdiv; rewrite ?Rmult_0_l, ?Rplus_0_l.
      all: repeat split; try discriminate; lra.
    - intros [|t0 [|t1 [|t2 [|t3 [|]]]]] [|s0 [|s1 [|s2 [|s3 [|]]]]] rho [Lt _] [Ls _] Ap; try discriminate. pose proof (Ap 0%nat ltac:(cbn; lia)) as A0. pose proof (Ap 1%nat ltac:(cbn; lia)) as A1.
      pose proof (Ap 2%nat ltac:(cbn; lia)) as A2. pose proof (Ap 3%nat ltac:(cbn; lia)) as A3. cbn in A0, A1, A2, A3. clear Ap Lt Ls. apply Rabs_le_inv in A0, A1, A2, A3.
      intros [|[|[|[|k]]]] Hk; cbn in Hk; try lia; cbn; apply Rabs_le; lra. }
  eapply tracked_stage with (d := fun _ => 0%R); [exact G|apply St; lra|]. eapply tracked_stage with (d := fun _ => 0%R); [exact G|apply St; lra|].
  replace (16000 + 1 + 1)%R with 16002%R by ring. replace (1 * (1 * 0 + / 65536) + / 65536)%R with (2 / 65536)%R by field. constructor.
Qed.
Example C172_ex_run : pipe (fixed_ops Debug i16f16) (fixed_signed Debug i16f16) (fixed_abs Debug i16f16) (fixed_sqrt Debug i16f16 9%nat) [1 * 65536; 2 * 65536; 3 * 65536; 4 * 65536]
  [(stage, fun _ => 0); (stage, fun _ => 0)] = Ok [163840; -32768; -65536; 0].
Proof. vm_compute. reflexivity. Qed.
