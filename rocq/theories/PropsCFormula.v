(** * Property C165: any formula written with the complex operations.

    [ccompute] runs a formula — sums, differences, products and conjugates of named complex inputs, nested in any way; [cvalue] is the
    complex number it denotes; [cslack] bounds the distance from it, given the error of each input; [csafe]: every intermediate value
    fits. *)

From Coq Require Import ZArith Reals Lra Lia List.
From Flocq Require Import Core.Core IEEE754.BinarySingleNaN.
From Verif Require Import Base FloatBase Traits IntImpl FixedPrim FixedImpl FloatImpl Complex Spec SpecFilter SpecRotor SpecFourier SpecPhase SpecCFormula SpecProfile CFormulaProofs.
Import ListNotations.
Open Scope Z_scope.

(** C165.  Signed fixed point, either profile. *)
Theorem C165_fixed : forall m f, supported f = true -> fsigned f = true -> forall env x d, (forall i, (cabs (csub (cval f (env i)) (x i)) <= d i)%R) ->
  forall e, csafe x (cround_fixed (ulp f)) d (fval f (fmax f)) e ->
  exists r, ccompute (fixed_ops m f) (fixed_signed m f) env e = Ok r /\ (cabs (csub (cval f r) (cvalue x e)) <= cslack x (cround_fixed (ulp f)) d e)%R.
Proof. exact cformula_fixed. Qed.
Print Assumptions C165_fixed.
Theorem C165_float : forall p e {Hp : Prec_gt_0 p} {He : Prec_lt_emax p e}, 5 <= p ->
  forall (env : nat -> Cartesian (binary_float p e)) x d, (forall i, (is_finite (re (env i)) = true /\ is_finite (im (env i)) = true) /\ (cabs (csub (cvalf (env i)) (x i)) <= d i)%R) ->
  forall e0, let u := cround_float (bpow radix2 (- p)) (bpow radix2 (3 - e - p)) in csafe x u d (bpow radix2 e - bpow radix2 (e - p)) e0 ->
  exists r, ccompute float_ops float_signed env e0 = Ok r /\ (is_finite (re r) = true /\ is_finite (im r) = true) /\
  (cabs (csub (cvalf r) (cvalue x e0)) <= cslack x u d e0)%R.
Proof. exact @cformula_float. Qed.
Print Assumptions C165_float.
(** The same formula on a fixed type and on a float type. *)
Theorem C165_agree : forall m f, supported f = true -> fsigned f = true -> forall p e {Hp : Prec_gt_0 p} {He : Prec_lt_emax p e}, 5 <= p ->
  forall env (env' : nat -> Cartesian (binary_float p e)) x d d', (forall i, (cabs (csub (cval f (env i)) (x i)) <= d i)%R) ->
  (forall i, (is_finite (re (env' i)) = true /\ is_finite (im (env' i)) = true) /\ (cabs (csub (cvalf (env' i)) (x i)) <= d' i)%R) ->
  forall e0, let u := cround_fixed (ulp f) in let u' := cround_float (bpow radix2 (- p)) (bpow radix2 (3 - e - p)) in
  csafe x u d (fval f (fmax f)) e0 -> csafe x u' d' (bpow radix2 e - bpow radix2 (e - p)) e0 ->
  exists r s, ccompute (fixed_ops m f) (fixed_signed m f) env e0 = Ok r /\ ccompute float_ops float_signed env' e0 = Ok s /\
  (cabs (csub (cval f r) (cvalf s)) <= cslack x u d e0 + cslack x u' d' e0)%R.
Proof. exact cformula_agree. Qed.
Print Assumptions C165_agree.
(** Rewriting a formula into another that denotes the same complex number changes the result by no more than both bounds. *)
Theorem C165_rewrite : forall m f, supported f = true -> fsigned f = true -> forall env x d, (forall i, (cabs (csub (cval f (env i)) (x i)) <= d i)%R) ->
  forall e e', cvalue x e = cvalue x e' -> let u := cround_fixed (ulp f) in csafe x u d (fval f (fmax f)) e -> csafe x u d (fval f (fmax f)) e' ->
  exists r s, ccompute (fixed_ops m f) (fixed_signed m f) env e = Ok r /\ ccompute (fixed_ops m f) (fixed_signed m f) env e' = Ok s /\
  (cabs (csub (cval f r) (cval f s)) <= cslack x u d e + cslack x u d e')%R.
Proof. exact cformula_rewrite. Qed.
Print Assumptions C165_rewrite.
(** Whatever a debug build returns, a release build and every wider type with the same fractional bits return. *)
Theorem C165_wide : forall m f g, supported f = true -> fsigned g = fsigned f -> ffrac g = ffrac f -> fwidth f <= fwidth g -> forall env e,
  refines (ccompute (fixed_ops Debug f) (fixed_signed Debug f) env e) (ccompute (fixed_ops m g) (fixed_signed m g) env e).
Proof. exact cformula_wide. Qed.
Print Assumptions C165_wide.
(** Integers: a release build computes modulo the width; what a debug build returns is exact. *)
Theorem C165_int_release : forall t, In t int_types -> forall env, (forall i, in_range t (re (env i)) /\ in_range t (im (env i))) -> forall e,
  ccompute (int_ops Release t) (int_signed Release t) env e = Ok (cwrap t (gvalue env e)).
Proof. exact cformula_int_release. Qed.
Print Assumptions C165_int_release.
Theorem C165_int_debug : forall t env e r, ccompute (int_ops Debug t) (int_signed Debug t) env e = Ok r -> r = gvalue env e.
Proof. exact cformula_int_debug. Qed.
Print Assumptions C165_int_debug.

(** ** concrete cases: the Mandelbrot step z^2 + c, and |z|^2 written in two ways *)
Definition step := CPlus (CTimes (CInput 0) (CInput 0)) (CInput 1).
Definition i16f16 := mkFty true 32 16.
Definition pts (i : nat) : R * R := match i with 0%nat => (3, 4) | _ => (-1, 2) end%R.
Example C165_ex_fixed : csafe pts (cround_fixed (ulp i16f16)) (fun _ => 0%R) (fval i16f16 (fmax i16f16)) step /\ cvalue pts step = (-8, 26)%R /\
  ccompute (fixed_ops Debug i16f16) (fixed_signed Debug i16f16) (fun i => match i with 0%nat => mkC (3 * 65536) (4 * 65536) | _ => mkC (-65536) (2 * 65536) end) step = Ok (mkC (-8 * 65536) (26 * 65536)).
Proof.
  split; [|split; [cbn [cvalue step pts]; unfold cadd, cmul; cbn [fst snd]; f_equal; lra|reflexivity]].
  assert (U : ulp i16f16 = (/ 65536)%R) by (unfold ulp; cbn; lra). assert (M : fval i16f16 (fmax i16f16) = (2147483647 / 65536)%R) by reflexivity. rewrite U, M.
  assert (A : cabs (3, 4)%R = 5%R) by (unfold cabs; cbn [fst snd]; replace (3 * 3 + 4 * 4)%R with (5 * 5)%R by ring; apply sqrt_square; lra).
  assert (B : cabs (cmul (3, 4)%R (3, 4)%R) = 25%R) by (unfold cabs, cmul; cbn [fst snd]; replace ((3 * 3 - 4 * 4) * (3 * 3 - 4 * 4) + (3 * 4 + 4 * 3) * (3 * 4 + 4 * 3))%R with (25 * 25)%R by ring; apply sqrt_square; lra).
  assert (C : (cabs (cadd (cmul (3, 4) (3, 4)) (-1, 2))%R <= 100)%R) by (unfold cabs, cadd, cmul; cbn [fst snd]; apply Rsqr_incr_0_var; [rewrite Rsqr_sqrt by lra; unfold Rsqr; lra|lra]).
  cbn [csafe cslack cvalue step cround_fixed c_sum c_prod pts]. rewrite A, B. repeat split; lra.
Qed.
Example C165_ex_rewrite : forall x, cvalue x (CMinus (CTimes (CInput 0) (CInput 0)) (CTimes (CInput 1) (CInput 1))) = cvalue x (CTimes (CPlus (CInput 0) (CInput 1)) (CMinus (CInput 0) (CInput 1))).
Proof. intros x. cbn. unfold csub, cmul, cadd. cbn [fst snd]. f_equal; ring. Qed.
Example C165_ex_int : let env := fun i : nat => match i with 0%nat => mkC 20 30 | _ => mkC 1 (-2) end in
  ccompute (int_ops Release i8) (int_signed Release i8) env step = Ok (mkC 13 (-82)) /\ gvalue env step = mkC (-499) 1198 /\
  ccompute (int_ops Debug i32) (int_signed Debug i32) env step = Ok (mkC (-499) 1198).
Proof. repeat split. Qed.
