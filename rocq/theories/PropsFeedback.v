(** * Property C167: a contracting feedback loop never drifts, whatever its body. *)

From Coq Require Import ZArith Reals Lra Lia List.
From Flocq Require Import Core.Core IEEE754.BinarySingleNaN.
From Verif Require Import Base FloatBase Traits Trig FixedPrim FixedImpl FloatImpl Spec SpecFormula SpecProgram SpecLoop LoopProofs.
Import ListNotations.
Open Scope Z_scope.

(** C167.  [s = body(s, inputs)] for any number of rounds, the body being any formula of C164 that is safe on [lo, hi], stays there, has
    rounding error at most [delta] and brings states closer by the factor [L] < 1.  The computed state never leaves [lo, hi] and is
    within [delta / (1 - L)] plus a vanishing share of the initial difference of the exact loop. *)
Theorem C167_fixed : forall m f, supported f = true -> fsigned f = true -> forall body, (rootless body = false -> 2 <= ffrac f <= fwidth f - 4) ->
  forall lo hi L delta, (0 <= L < 1)%R -> forall ins xs,
  Forall2 (fun v x => exists d, (forall i, fvalid f (v i) /\ (Rabs (fval f (v i) - x i) <= d i)%R) /\ contracting (round_fixed (ulp f)) (fval f (fmax f)) body lo hi L delta x d) ins xs ->
  forall s y, fvalid f s -> (lo <= fval f s <= hi)%R -> (lo <= y <= hi)%R ->
  exists r, returns (fun fuel => loop (fixed_ops m f) (fixed_signed m f) (fixed_abs m f) (fixed_sqrt m f fuel) body s ins) r /\ fvalid f r /\ (lo <= fval f r <= hi)%R /\
  (Rabs (fval f r - ideal body y xs) <= L ^ length ins * Rabs (fval f s - y) + delta * (1 - L ^ length ins) / (1 - L))%R.
Proof. exact loop_fixed. Qed.
Print Assumptions C167_fixed.
Theorem C167_float : forall p e {Hp : Prec_gt_0 p} {He : Prec_lt_emax p e}, 24 <= p -> 128 <= e -> forall m (sq : binary_float p e -> binary_float p e), (forall x, sq x = Bsqrt mode_NE x) ->
  forall body lo hi L delta, (0 <= L < 1)%R -> let u := round_float (bpow radix2 (- p)) (bpow radix2 (3 - e - p)) in forall ins xs,
  Forall2 (fun v x => exists d, (forall i, is_finite (v i) = true /\ (Rabs (B2R (v i) - x i) <= d i)%R) /\ contracting u (bpow radix2 e - bpow radix2 (e - p)) body lo hi L delta x d) ins xs ->
  forall s y, is_finite s = true -> (lo <= B2R s <= hi)%R -> (lo <= y <= hi)%R ->
  exists r, returns (fun fuel => loop float_ops float_signed float_abs (float_sqrt m sq fuel) body s ins) r /\ is_finite r = true /\ (lo <= B2R r <= hi)%R /\
  (Rabs (B2R r - ideal body y xs) <= L ^ length ins * Rabs (B2R s - y) + delta * (1 - L ^ length ins) / (1 - L))%R.
Proof. exact @loop_float. Qed.
Print Assumptions C167_float.
(** With constant inputs the loop settles at the fixed point of its body. *)
Theorem C167_settles_fixed : forall m f, supported f = true -> fsigned f = true -> forall body, (rootless body = false -> 2 <= ffrac f <= fwidth f - 4) ->
  forall lo hi L delta v x d, (0 <= L < 1)%R -> (0 <= delta)%R -> (forall i, fvalid f (v i) /\ (Rabs (fval f (v i) - x i) <= d i)%R) ->
  contracting (round_fixed (ulp f)) (fval f (fmax f)) body lo hi L delta x d ->
  forall s y n, fvalid f s -> (lo <= fval f s <= hi)%R -> (lo <= y <= hi)%R -> value (push y x) body = y ->
  exists r, returns (fun fuel => loop (fixed_ops m f) (fixed_signed m f) (fixed_abs m f) (fixed_sqrt m f fuel) body s (repeat v n)) r /\ (lo <= fval f r <= hi)%R /\
  (Rabs (fval f r - y) <= L ^ n * Rabs (fval f s - y) + delta / (1 - L))%R.
Proof. exact settles_fixed. Qed.
Print Assumptions C167_settles_fixed.
Theorem C167_settles_float : forall p e {Hp : Prec_gt_0 p} {He : Prec_lt_emax p e}, 24 <= p -> 128 <= e -> forall m (sq : binary_float p e -> binary_float p e), (forall x, sq x = Bsqrt mode_NE x) ->
  forall body lo hi L delta v x d, (0 <= L < 1)%R -> (0 <= delta)%R -> (forall i, is_finite (v i) = true /\ (Rabs (B2R (v i) - x i) <= d i)%R) ->
  contracting (round_float (bpow radix2 (- p)) (bpow radix2 (3 - e - p))) (bpow radix2 e - bpow radix2 (e - p)) body lo hi L delta x d ->
  forall s y n, is_finite s = true -> (lo <= B2R s <= hi)%R -> (lo <= y <= hi)%R -> value (push y x) body = y ->
  exists r, returns (fun fuel => loop float_ops float_signed float_abs (float_sqrt m sq fuel) body s (repeat v n)) r /\ is_finite r = true /\ (lo <= B2R r <= hi)%R /\
  (Rabs (B2R r - y) <= L ^ n * Rabs (B2R s - y) + delta / (1 - L))%R.
Proof. exact @settles_float. Qed.
Print Assumptions C167_settles_float.

(** ** a concrete case: Heron's iteration s = (s + 2 / s) / 2 on I16F16 *)
Definition heron := Over (Plus (Input 0) (Over (Whole 2) (Input 0))) (Whole 2).
Definition i16f16 := mkFty true 32 16.
Example C167_ex : contracting (round_fixed (ulp i16f16)) (fval i16f16 (fmax i16f16)) heron 1 2 (/ 2) (2 / 65536) (fun _ => 0%R) (fun _ => 0%R) /\ value (push (sqrt 2) (fun _ => 0%R)) heron = sqrt 2.
Proof.
  assert (U : ulp i16f16 = (/ 65536)%R) by (unfold ulp; cbn; lra). assert (M : fval i16f16 (fmax i16f16) = (2147483647 / 65536)%R) by reflexivity. rewrite U, M.
  split.
  - split.
    + intros t Ht. cbn [heron safe slack value push round_fixed r_whole r_sum r_prod].
      assert (I : (/ 2 <= / t <= 1)%R) by (split; [apply Rinv_le_contravar; lra|rewrite <- Rinv_1; apply Rinv_le_contravar; lra]).
      assert (TI : (t * / t = 1)%R) by (apply Rinv_r; lra). unfold Rdiv at 1 2 3 4 5 6 7 8 9.
      assert (B : (28 / 10 <= t + 2 * / t <= 3)%R).
      { assert (E1 : (t + 2 * / t - 28 / 10 = / t * ((t - 14 / 10) * (t - 14 / 10) + 4 / 100))%R) by (field; lra). assert (E2 : (3 - (t + 2 * / t) = / t * ((t - 1) * (2 - t)))%R) by (field; lra).
        assert (0 <= / t * ((t - 14 / 10) * (t - 14 / 10) + 4 / 100))%R by (apply Rmult_le_pos; [lra|pose proof (Rle_0_sqr (t - 14 / 10)) as SQ; unfold Rsqr in SQ; lra]).
        assert (0 <= / t * ((t - 1) * (2 - t)))%R by (apply Rmult_le_pos; [lra|apply Rmult_le_pos; lra]). lra. }
      rewrite !Rmult_0_r, !Rplus_0_r, !Rminus_0_r.
      repeat match goal with |- context [Rabs ?a] => rewrite (Rabs_pos_eq a) by (unfold Rdiv; lra) end.
      unfold Rdiv in *. repeat split; lra.
    + intros t t' Ht Ht'. cbn [heron value push].
      assert (I : (/ 4 <= / (t * t') <= 1)%R) by (split; [apply Rinv_le_contravar; nra|rewrite <- Rinv_1; apply Rinv_le_contravar; nra]).
      replace ((t + 2 / t) / 2 - (t' + 2 / t') / 2)%R with ((/ 2 - / (t * t')) * (t - t'))%R by (field; lra).
      rewrite Rabs_mult. apply Rmult_le_compat_r; [apply Rabs_pos|]. apply Rabs_le. lra.
  - cbn [heron value push]. assert (S : (0 < sqrt 2)%R) by (apply sqrt_lt_R0; lra). assert (E : (sqrt 2 * sqrt 2 = 2)%R) by (apply sqrt_sqrt; lra).
    rewrite <- E at 2. field. lra.
Qed.
Example C167_ex_run : loop (fixed_ops Debug i16f16) (fixed_signed Debug i16f16) (fixed_abs Debug i16f16) (fixed_sqrt Debug i16f16 9%nat) heron 131072 (repeat (fun _ => 0) 20) = Ok 92681.
Proof. vm_compute. reflexivity. Qed.
