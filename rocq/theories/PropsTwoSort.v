(** * Property C170: formulas that mix real and complex operations.

    [reval] and [zeval] run a formula with a real, respectively complex, result on a type: the scalar operations of C164, Cartesian::new,
    re, im, mag, conj, and the sum, difference and product of two complex numbers, nested in any way.  [rexact] and [zexact] are the
    numbers it denotes, [rpart] and [zparts] the school formulas for its parts, [rneeds] and [zneeds] the school formulas of all its
    subexpressions. *)

From Coq Require Import ZArith Reals Lra Lia List.
From Flocq Require Import Core.Core IEEE754.BinarySingleNaN.
From Verif Require Import Base FloatBase Traits FixedPrim FixedImpl FloatImpl Complex Spec SpecFormula SpecUFormula SpecTwoSort TwoSortProofs.
Import ListNotations.
Open Scope Z_scope.

(** C170.  Fixed point, signed or unsigned, real result. *)
Theorem C170_real_fixed : forall m f, supported f = true ->
  forall env x d, (forall i, fvalid f (env i) /\ (Rabs (fval f (env i) - x i) <= d i)%R) -> forall a, Forall (fits f x d) (rneeds a) ->
  exists r, returns (fun fuel => reval (fixed_ops m f) (fixed_signed m f) (fixed_abs m f) (fixed_sqrt m f fuel) (fixed_powi m f) env a) r /\
  fvalid f r /\ (Rabs (fval f r - rexact x a) <= slack x (round_fixed (ulp f)) d (rpart a))%R.
Proof. exact two_fixed_r. Qed.
Print Assumptions C170_real_fixed.

(** Fixed point, complex result. *)
Theorem C170_complex_fixed : forall m f, supported f = true ->
  forall env x d, (forall i, fvalid f (env i) /\ (Rabs (fval f (env i) - x i) <= d i)%R) -> forall c, Forall (fits f x d) (zneeds c) -> let u := round_fixed (ulp f) in
  exists z, returns (fun fuel => zeval (fixed_ops m f) (fixed_signed m f) (fixed_abs m f) (fixed_sqrt m f fuel) (fixed_powi m f) env c) z /\
  (fvalid f (re z) /\ fvalid f (im z)) /\
  (Rabs (fval f (re z) - fst (zexact x c)) <= slack x u d (fst (zparts c)))%R /\ (Rabs (fval f (im z) - snd (zexact x c)) <= slack x u d (snd (zparts c)))%R.
Proof. exact two_fixed_z. Qed.
Print Assumptions C170_complex_fixed.

(** f32, f64 and larger formats whose square root is correctly rounded. *)
Theorem C170_real_float : forall p e {Hp : Prec_gt_0 p} {He : Prec_lt_emax p e}, 24 <= p -> 128 <= e ->
  forall m (sq : binary_float p e -> binary_float p e), (forall x, sq x = Bsqrt mode_NE x) ->
  forall env x d, (forall i, is_finite (env i) = true /\ (Rabs (B2R (env i) - x i) <= d i)%R) -> forall a,
  let u := round_float (bpow radix2 (- p)) (bpow radix2 (3 - e - p)) in Forall (safe x u d (bpow radix2 e - bpow radix2 (e - p))) (rneeds a) ->
  exists r, returns (fun fuel => reval float_ops float_signed float_abs (float_sqrt m sq fuel) float_powi env a) r /\
  is_finite r = true /\ (Rabs (B2R r - rexact x a) <= slack x u d (rpart a))%R.
Proof. exact @two_float_r. Qed.
Print Assumptions C170_real_float.

Theorem C170_complex_float : forall p e {Hp : Prec_gt_0 p} {He : Prec_lt_emax p e}, 24 <= p -> 128 <= e ->
  forall m (sq : binary_float p e -> binary_float p e), (forall x, sq x = Bsqrt mode_NE x) ->
  forall env x d, (forall i, is_finite (env i) = true /\ (Rabs (B2R (env i) - x i) <= d i)%R) -> forall c,
  let u := round_float (bpow radix2 (- p)) (bpow radix2 (3 - e - p)) in Forall (safe x u d (bpow radix2 e - bpow radix2 (e - p))) (zneeds c) ->
  exists z, returns (fun fuel => zeval float_ops float_signed float_abs (float_sqrt m sq fuel) float_powi env c) z /\
  (is_finite (re z) = true /\ is_finite (im z) = true) /\
  (Rabs (B2R (re z) - fst (zexact x c)) <= slack x u d (fst (zparts c)))%R /\ (Rabs (B2R (im z) - snd (zexact x c)) <= slack x u d (snd (zparts c)))%R.
Proof. exact @two_float_z. Qed.
Print Assumptions C170_complex_float.

(** ** the hypotheses are satisfiable: (10 + 10 i) / (3 + 4 i), the quotient written out, on I16F16 *)
Definition i16f16 := mkFty true 32 16.
Definition given (i : nat) : Z := match i with 0%nat => 10 | 1%nat => 3 | _ => 4 end.
Definition num : zform := ZNew (RInput 0) (RInput 0).
Definition den : zform := ZNew (RInput 1) (RInput 2).
Definition top_ : zform := ZMul num (ZConj den).
Definition sqr : rform := RRe (ZMul den (ZConj den)).
Definition quotient : zform := ZNew (ROver (RRe top_) sqr) (ROver (RIm top_) sqr).
Example C170_ex : let d := fun _ : nat => 0%R in let x := fun i => IZR (given i) in
  (forall i, fvalid i16f16 (given i * 65536) /\ (Rabs (fval i16f16 (given i * 65536) - x i) <= d i)%R) /\
  Forall (fits i16f16 x d) (zneeds quotient) /\ zexact x quotient = (14 / 5, - 2 / 5)%R.
Proof.
  cbv zeta. set (x := fun i => IZR (given i)).
  assert (U : ulp i16f16 = (/ 65536)%R) by (unfold ulp; cbn; lra).
  assert (M : fval i16f16 (fmax i16f16) = (2147483647 / 65536)%R) by reflexivity.
  assert (X0 : x 0%nat = 10%R) by reflexivity. assert (X1 : x 1%nat = 3%R) by reflexivity. assert (X2 : x 2%nat = 4%R) by reflexivity.
  split. { intros i. split; [destruct i as [|[|i]]; split; discriminate|]. right. unfold x, fval. rewrite mult_IZR. change (bpow radix2 (- ffrac i16f16)) with (/ 65536)%R. replace (IZR (given i) * 65536 * / 65536 - IZR (given i))%R with 0%R by field. apply Rabs_R0. }
  split.
  2: { rewrite <- (proj2 (parts_exact x)). cbn [zparts rpart quotient top_ sqr num den fst snd value]. rewrite X0, X1, X2. f_equal; field. }
  cbn -[fits]. unfold fits. cbn [fsigned i16f16]. rewrite U, M.
  repeat (apply Forall_cons || apply Forall_nil).
  all: split; [|discriminate].
  all: cbn [safe slack value round_fixed r_whole r_sum r_prod r_root]; rewrite ?X0, ?X1, ?X2.
  all: replace ((10 * 3 - 10 * - (4)) / (3 * 3 - 4 * - (4)))%R with (14 / 5)%R by field; replace ((10 * - (4) + 10 * 3) / (3 * 3 - 4 * - (4)))%R with (- 2 / 5)%R by field.
  all: repeat match goal with |- context [Rabs ?t] => first [rewrite (Rabs_pos_eq t) by lra | rewrite (Rabs_left t) by lra] end.
  all: repeat split; try lra.
  all: match goal with |- context [(?n / (3 * 3 - 4 * - (4) - ?z))%R] => replace (n / (3 * 3 - 4 * - (4) - z))%R with (n * (65536 / 1638398))%R by (field; lra) end; lra.
Qed.
Example C170_ex_run : let run a := reval (fixed_ops Debug i16f16) (fixed_signed Debug i16f16) (fixed_abs Debug i16f16) (fixed_sqrt Debug i16f16 40) (fixed_powi Debug i16f16) (fun i => given i * 65536) a in
  zeval (fixed_ops Debug i16f16) (fixed_signed Debug i16f16) (fixed_abs Debug i16f16) (fixed_sqrt Debug i16f16 40) (fixed_powi Debug i16f16) (fun i => given i * 65536) quotient = Ok (mkC 183500 (-26214)) /\
  run (RMag den) = Ok 327512.
Proof. cbv zeta. split; vm_compute; reflexivity. Qed.
