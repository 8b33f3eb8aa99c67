(** * Property C164: any formula written with the crate's scalar operations.

    [compute] runs a formula — inputs, whole numbers, sums, differences, products, quotients, sign changes, absolute values, mixed_sqrt,
    nested in any way — on a type; [value] is the real number it denotes; [slack] bounds the error, given the error of each input;
    [safe]: no divisor may be zero, no radicand negative, and every intermediate value fits. *)

From Coq Require Import ZArith Reals Lra Lia List.
From Flocq Require Import Core.Core IEEE754.BinarySingleNaN.
From Verif Require Import Base FloatBase Traits Trig IntImpl FixedPrim FixedImpl FloatImpl Spec SpecFormula SpecProfile FormulaProofs.
Import ListNotations.
Open Scope Z_scope.

(** C164.  Signed fixed point: no panic in either profile, and the result is within [slack].  mixed_sqrt needs two fractional bits and
    three integer bits. *)
Theorem C164_fixed : forall m f, supported f = true -> fsigned f = true ->
  forall env x d, (forall i, fvalid f (env i) /\ (Rabs (fval f (env i) - x i) <= d i)%R) ->
  forall e, (rootless e = false -> 2 <= ffrac f <= fwidth f - 4) -> safe x (round_fixed (ulp f)) d (fval f (fmax f)) e ->
  exists r, returns (fun fuel => compute (fixed_ops m f) (fixed_signed m f) (fixed_abs m f) (fixed_sqrt m f fuel) env e) r /\
  fvalid f r /\ (Rabs (fval f r - value x e) <= slack x (round_fixed (ulp f)) d e)%R.
Proof. exact formula_fixed. Qed.
Print Assumptions C164_fixed.

(** f32, f64 and any larger format whose square root is correctly rounded. *)
Theorem C164_float : forall p e {Hp : Prec_gt_0 p} {He : Prec_lt_emax p e}, 24 <= p -> 128 <= e ->
  forall m (sq : binary_float p e -> binary_float p e), (forall x, sq x = Bsqrt mode_NE x) ->
  forall env x d, (forall i, is_finite (env i) = true /\ (Rabs (B2R (env i) - x i) <= d i)%R) ->
  forall e0, let u := round_float (bpow radix2 (- p)) (bpow radix2 (3 - e - p)) in safe x u d (bpow radix2 e - bpow radix2 (e - p)) e0 ->
  exists r, (forall fuel, compute float_ops float_signed float_abs (float_sqrt m sq fuel) env e0 = Ok r) /\ is_finite r = true /\
  (Rabs (B2R r - value x e0) <= slack x u d e0)%R.
Proof. exact @formula_float. Qed.
Print Assumptions C164_float.

(** The same formula on a fixed type and on a float type gives the same number up to both bounds. *)
Theorem C164_agree : forall m f, supported f = true -> fsigned f = true -> forall p e {Hp : Prec_gt_0 p} {He : Prec_lt_emax p e}, 24 <= p -> 128 <= e ->
  forall m' sq, (forall x, sq x = Bsqrt mode_NE x) -> forall env (env' : nat -> binary_float p e) x d d',
  (forall i, fvalid f (env i) /\ (Rabs (fval f (env i) - x i) <= d i)%R) -> (forall i, is_finite (env' i) = true /\ (Rabs (B2R (env' i) - x i) <= d' i)%R) ->
  forall e0, (rootless e0 = false -> 2 <= ffrac f <= fwidth f - 4) -> let u := round_fixed (ulp f) in let u' := round_float (bpow radix2 (- p)) (bpow radix2 (3 - e - p)) in
  safe x u d (fval f (fmax f)) e0 -> safe x u' d' (bpow radix2 e - bpow radix2 (e - p)) e0 ->
  exists r s, returns (fun fuel => compute (fixed_ops m f) (fixed_signed m f) (fixed_abs m f) (fixed_sqrt m f fuel) env e0) r /\
  (forall fuel, compute float_ops float_signed float_abs (float_sqrt m' sq fuel) env' e0 = Ok s) /\ (Rabs (fval f r - B2R s) <= slack x u d e0 + slack x u' d' e0)%R.
Proof. exact formula_agree. Qed.
Print Assumptions C164_agree.

(** Rewriting a formula into another that denotes the same number changes the result by no more than both bounds. *)
Theorem C164_rewrite : forall m f, supported f = true -> fsigned f = true ->
  forall env x d, (forall i, fvalid f (env i) /\ (Rabs (fval f (env i) - x i) <= d i)%R) ->
  forall e e', (rootless e = false \/ rootless e' = false -> 2 <= ffrac f <= fwidth f - 4) -> value x e = value x e' -> let u := round_fixed (ulp f) in
  safe x u d (fval f (fmax f)) e -> safe x u d (fval f (fmax f)) e' -> let C fuel := compute (fixed_ops m f) (fixed_signed m f) (fixed_abs m f) (fixed_sqrt m f fuel) env in
  exists r s, returns (fun fuel => C fuel e) r /\ returns (fun fuel => C fuel e') s /\ (Rabs (fval f r - fval f s) <= slack x u d e + slack x u d e')%R.
Proof. exact formula_rewrite. Qed.
Print Assumptions C164_rewrite.

(** Whatever a debug build returns, a release build and every wider type with the same fractional bits return. *)
Theorem C164_wide : forall m f g, supported f = true -> fsigned g = fsigned f -> ffrac g = ffrac f -> fwidth f <= fwidth g -> forall fuel env e,
  refines (compute (fixed_ops Debug f) (fixed_signed Debug f) (fixed_abs Debug f) (fixed_sqrt Debug f fuel) env e)
    (compute (fixed_ops m g) (fixed_signed m g) (fixed_abs m g) (fixed_sqrt m g fuel) env e).
Proof. exact formula_wide. Qed.
Print Assumptions C164_wide.

(** Integers have no mixed_sqrt, so [Q] is never called.  Debug build: returns exactly when every intermediate value fits, and then
    the exact integer. *)
Theorem C164_int_debug : forall t, In t int_types -> forall Q env, (forall i, in_range t (env i)) -> forall e, rootless e = true -> literals t e -> forall r,
  compute (int_ops Debug t) (int_signed Debug t) (int_abs Debug t) Q env e = Ok r <-> zfits env t e /\ r = zvalue env e.
Proof. exact formula_int_debug. Qed.
Print Assumptions C164_int_debug.
(** Release build, polynomials: the exact integer modulo the width, whatever overflowed on the way. *)
Theorem C164_int_release : forall t, In t int_types -> forall Q env, (forall i, in_range t (env i)) -> forall e, ring_only e = true ->
  compute (int_ops Release t) (int_signed Release t) (int_abs Release t) Q env e = Ok (wrap t (zvalue env e)).
Proof. exact formula_int_release. Qed.
Print Assumptions C164_int_release.

(** ** concrete cases *)
(** (-b + sqrt (b*b - 4*a*c)) / (2*a) *)
Definition quadratic : formula :=
  Over (Plus (Negated (Input 1)) (Root (Minus (Times (Input 1) (Input 1)) (Times (Times (Whole 4) (Input 0)) (Input 2))))) (Times (Whole 2) (Input 0)).
Definition coefs (i : nat) : Z := match i with 0%nat => 1 | 1%nat => -5 | _ => 6 end.
Definition i16f16 := mkFty true 32 16.
Example C164_ex_fixed : let d := fun _ : nat => 0%R in let x := fun i => IZR (coefs i) in
  (forall i, fvalid i16f16 (coefs i * 65536) /\ (Rabs (fval i16f16 (coefs i * 65536) - x i) <= d i)%R) /\
  safe x (round_fixed (ulp i16f16)) d (fval i16f16 (fmax i16f16)) quadratic /\ value x quadratic = 3%R /\ (slack x (round_fixed (ulp i16f16)) d quadratic < / 100)%R.
Proof.
  cbv zeta. set (x := fun i => IZR (coefs i)).
  assert (U : ulp i16f16 = (/ 65536)%R) by (unfold ulp; cbn; lra).
  assert (M : fval i16f16 (fmax i16f16) = (2147483647 / 65536)%R) by reflexivity.
  assert (X0 : x 0%nat = 1%R) by reflexivity. assert (X1 : x 1%nat = (-5)%R) by reflexivity. assert (X2 : x 2%nat = 6%R) by reflexivity.
  split. { intros i. split; [destruct i as [|[|i]]; split; discriminate|]. right. unfold x, fval. rewrite mult_IZR. change (bpow radix2 (- ffrac i16f16)) with (/ 65536)%R. replace (IZR (coefs i) * 65536 * / 65536 - IZR (coefs i))%R with 0%R by field. apply Rabs_R0. }
  rewrite U, M. cbn [safe slack value quadratic round_fixed r_whole r_sum r_prod r_root]. rewrite X0, X1, X2.
  replace (-5 * -5 - 4 * 1 * 6)%R with 1%R by lra. rewrite sqrt_1.
  repeat match goal with |- context [Rabs ?t] => first [rewrite (Rabs_pos_eq t) by lra | rewrite (Rabs_left t) by lra] end.
  repeat split; lra.
Qed.
Example C164_ex_run : match compute (fixed_ops Debug i16f16) (fixed_signed Debug i16f16) (fixed_abs Debug i16f16) (fixed_sqrt Debug i16f16 100%nat) (fun i => coefs i * 65536) quadratic with
  | Ok r => 3 * 65536 - 655 <= r <= 3 * 65536 + 655 | _ => False end.
Proof. vm_compute. split; discriminate. Qed.
(** 3 * 4 - 5 on f64 *)
Definition three_four_five (i : nat) : R := match i with 0%nat => 3 | 1%nat => 4 | _ => 5 end%R.
Example C164_ex_float : safe three_four_five (round_float (bpow radix2 (-53)) (bpow radix2 (3 - 1024 - 53))) (fun _ => 0%R) (bpow radix2 1024 - bpow radix2 (1024 - 53))
  (Minus (Times (Input 0) (Input 1)) (Input 2)).
Proof.
  assert (A : (0 < bpow radix2 (-53) <= / 1024)%R) by (split; [apply bpow_gt_0|change (/ 1024)%R with (bpow radix2 (-10)); apply bpow_le; lia]).
  assert (B : (0 < bpow radix2 (3 - 1024 - 53) <= / 1024)%R) by (split; [apply bpow_gt_0|change (/ 1024)%R with (bpow radix2 (-10)); apply bpow_le; lia]).
  assert (C : (1024 <= bpow radix2 1024 - bpow radix2 (1024 - 53))%R).
  { replace (bpow radix2 1024) with (2 * bpow radix2 1023)%R by (change 1024 with (1 + 1023); rewrite bpow_plus; reflexivity).
    assert (bpow radix2 10 <= bpow radix2 1023)%R by (apply bpow_le; lia). assert (bpow radix2 (1024 - 53) <= bpow radix2 1023)%R by (apply bpow_le; lia). change (bpow radix2 10) with 1024%R in *. lra. }
  cbn [safe slack value round_float r_sum r_prod three_four_five]. generalize dependent (bpow radix2 1024 - bpow radix2 (1024 - 53))%R. generalize dependent (bpow radix2 (3 - 1024 - 53)). generalize dependent (bpow radix2 (-53)).
  intros u U eta E top H. rewrite (Rabs_pos_eq 3), (Rabs_pos_eq 4), (Rabs_pos_eq (3 * 4)), (Rabs_pos_eq (3 * 4 - 5)) by lra.
  repeat split; nra.
Qed.
Example C164_ex_int : forall Q, compute (int_ops Release u8) (int_signed Release u8) (int_abs Release u8) Q (fun _ => 20) (Minus (Times (Input 0) (Input 0)) (Whole 399)) = Ok 1 /\
  ring_only (Minus (Times (Input 0) (Input 0)) (Whole 399)) = true /\
  zfits (fun _ => 20) i16 (Over (Negated (Times (Input 0) (Input 0))) (Whole 3)) /\
  compute (int_ops Debug i16) (int_signed Debug i16) (int_abs Debug i16) Q (fun _ => 20) (Over (Negated (Times (Input 0) (Input 0))) (Whole 3)) = Ok (-133).
Proof. intros Q. split; [reflexivity|]. split; [reflexivity|]. split; [cbn; repeat split; discriminate|reflexivity]. Qed.
