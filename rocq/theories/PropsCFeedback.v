(** * Property C169: feedback loops with complex state.

    [cloop] runs [s = body(s, inputs)] once per round for any complex formula [body]; [cideal] is the exact loop; [ccontracting]: on the
    disc of radius [rho] the body is safe, rounds by at most [delta], stays inside and brings two states closer by the factor [L]. *)

From Coq Require Import ZArith Reals Lra Lia List.
From Flocq Require Import Core.Core IEEE754.BinarySingleNaN.
From Verif Require Import Base FloatBase Traits FixedPrim FixedImpl FloatImpl Complex Spec SpecFilter SpecRotor SpecFourier SpecCFormula SpecProgram SpecCLoop FilterProofs CLoopProofs.
Import ListNotations.
Open Scope Z_scope.

(** C169.  Signed fixed point: never panics, stays in the disc, and after any number of rounds is within the faded initial distance plus
    [delta] / (1 - L) of the exact loop. *)
Theorem C169_fixed : forall m f, supported f = true -> fsigned f = true -> forall body rho L delta, (0 <= L < 1)%R -> forall ins xs,
  Forall2 (fun v x => exists d, (forall i, (cabs (csub (cval f (v i)) (x i)) <= d i)%R) /\ ccontracting (cround_fixed (ulp f)) (fval f (fmax f)) body rho L delta x d) ins xs ->
  forall s y, (cabs (cval f s) <= rho)%R -> (cabs y <= rho)%R ->
  exists r, cloop (fixed_ops m f) (fixed_signed m f) body s ins = Ok r /\ (cabs (cval f r) <= rho)%R /\
  (cabs (csub (cval f r) (cideal body y xs)) <= L ^ length ins * cabs (csub (cval f s) y) + delta * (1 - L ^ length ins) / (1 - L))%R.
Proof. exact cloop_fixed. Qed.
Print Assumptions C169_fixed.
(** Floats of at least five bits. *)
Theorem C169_float : forall p e {Hp : Prec_gt_0 p} {He : Prec_lt_emax p e}, 5 <= p -> let fin (z : Cartesian (binary_float p e)) := is_finite (re z) = true /\ is_finite (im z) = true in
  forall body rho L delta, (0 <= L < 1)%R -> let u := cround_float (bpow radix2 (- p)) (bpow radix2 (3 - e - p)) in forall ins xs,
  Forall2 (fun v x => exists d, (forall i, fin (v i) /\ (cabs (csub (cvalf (v i)) (x i)) <= d i)%R) /\ ccontracting u (bpow radix2 e - bpow radix2 (e - p)) body rho L delta x d) ins xs ->
  forall s y, fin s -> (cabs (cvalf s) <= rho)%R -> (cabs y <= rho)%R ->
  exists r, cloop float_ops float_signed body s ins = Ok r /\ fin r /\ (cabs (cvalf r) <= rho)%R /\
  (cabs (csub (cvalf r) (cideal body y xs)) <= L ^ length ins * cabs (csub (cvalf s) y) + delta * (1 - L ^ length ins) / (1 - L))%R.
Proof. exact @cloop_float. Qed.
Print Assumptions C169_float.
(** With constant inputs the loop settles at the fixed point of its body. *)
Theorem C169_settles_fixed : forall m f, supported f = true -> fsigned f = true -> forall body rho L delta v x d, (0 <= L < 1)%R -> (0 <= delta)%R ->
  (forall i, (cabs (csub (cval f (v i)) (x i)) <= d i)%R) -> ccontracting (cround_fixed (ulp f)) (fval f (fmax f)) body rho L delta x d ->
  forall s y n, (cabs (cval f s) <= rho)%R -> (cabs y <= rho)%R -> cvalue (push y x) body = y ->
  exists r, cloop (fixed_ops m f) (fixed_signed m f) body s (repeat v n) = Ok r /\ (cabs (cval f r) <= rho)%R /\
  (cabs (csub (cval f r) y) <= L ^ n * cabs (csub (cval f s) y) + delta / (1 - L))%R.
Proof. exact csettles_fixed. Qed.
Print Assumptions C169_settles_fixed.
Theorem C169_settles_float : forall p e {Hp : Prec_gt_0 p} {He : Prec_lt_emax p e}, 5 <= p -> let fin (z : Cartesian (binary_float p e)) := is_finite (re z) = true /\ is_finite (im z) = true in
  forall body rho L delta v x d, (0 <= L < 1)%R -> (0 <= delta)%R ->
  (forall i, fin (v i) /\ (cabs (csub (cvalf (v i)) (x i)) <= d i)%R) -> ccontracting (cround_float (bpow radix2 (- p)) (bpow radix2 (3 - e - p))) (bpow radix2 e - bpow radix2 (e - p)) body rho L delta x d ->
  forall s y n, fin s -> (cabs (cvalf s) <= rho)%R -> (cabs y <= rho)%R -> cvalue (push y x) body = y ->
  exists r, cloop float_ops float_signed body s (repeat v n) = Ok r /\ fin r /\ (cabs (cvalf r) <= rho)%R /\
  (cabs (csub (cvalf r) y) <= L ^ n * cabs (csub (cvalf s) y) + delta / (1 - L))%R.
Proof. exact @csettles_float. Qed.
Print Assumptions C169_settles_float.
(** Two runs on the same inputs from different states forget the difference, down to twice the rounding floor. *)
Theorem C169_forgets : forall m f, supported f = true -> fsigned f = true -> forall body rho L delta, (0 <= L < 1)%R -> (0 <= delta)%R -> forall ins xs,
  Forall2 (fun v x => exists d, (forall i, (cabs (csub (cval f (v i)) (x i)) <= d i)%R) /\ ccontracting (cround_fixed (ulp f)) (fval f (fmax f)) body rho L delta x d) ins xs ->
  forall s s', (cabs (cval f s) <= rho)%R -> (cabs (cval f s') <= rho)%R ->
  exists r r', cloop (fixed_ops m f) (fixed_signed m f) body s ins = Ok r /\ cloop (fixed_ops m f) (fixed_signed m f) body s' ins = Ok r' /\
  (cabs (csub (cval f r) (cval f r')) <= L ^ length ins * cabs (csub (cval f s) (cval f s')) + 2 * delta / (1 - L))%R.
Proof. exact cforgets_fixed. Qed.
Print Assumptions C169_forgets.

(** ** a concrete case: s = s * s + c on I16F16, on the disc of radius 1/4, with c = 3/32 + i/16 *)
Definition square_plus := CPlus (CTimes (CInput 0) (CInput 0)) (CInput 1).
Definition i16f16 := mkFty true 32 16.
Definition point : R * R := (3 / 32, / 16)%R.
Example C169_ex : ccontracting (cround_fixed (ulp i16f16)) (fval i16f16 (fmax i16f16)) square_plus (/ 4) (/ 2) (3 / 65536) (fun _ => point) (fun _ => 0%R).
Proof.
  assert (U : ulp i16f16 = (/ 65536)%R) by (unfold ulp; cbn; lra). assert (M : fval i16f16 (fmax i16f16) = (2147483647 / 65536)%R) by reflexivity. rewrite U, M.
  assert (C : (cabs point <= / 8)%R) by (unfold point; apply cabs_le; cbn [fst snd]; lra). split.
  - intros t Ht. cbn [square_plus csafe cslack cvalue push cround_fixed c_sum c_prod]. pose proof (cabs_pos t) as P.
    assert (E : (cabs (cmul t t) <= / 16)%R) by (unfold cmul; rewrite cabs_mul; nra).
    assert (S : (cabs (cadd (cmul t t) point) <= 3 / 16)%R) by (unfold cadd; eapply Rle_trans; [apply cabs_tri|]; rewrite <- !surjective_pairing; lra).
    repeat split; lra.
  - intros t t' Ht Ht'. cbn [square_plus cvalue push].
    replace (csub (cadd (cmul t t) point) (cadd (cmul t' t') point)) with (cmul (cadd t t') (csub t t')) by (unfold csub, cadd, cmul; cbn [fst snd]; f_equal; ring).
    unfold cmul. rewrite cabs_mul. apply Rmult_le_compat_r; [apply cabs_pos|]. unfold cadd. eapply Rle_trans; [apply cabs_tri|]. rewrite <- !surjective_pairing. lra.
Qed.
(** started at 1/8 and at 0, after forty rounds *)
Example C169_ex_run : let c := fun _ : nat => mkC 6144 4096 in
  cloop (fixed_ops Debug i16f16) (fixed_signed Debug i16f16) square_plus (mkC 8192 0) (repeat c 40) = Ok (mkC 6368 5082) /\
  cloop (fixed_ops Debug i16f16) (fixed_signed Debug i16f16) square_plus (mkC 0 0) (repeat c 40) = Ok (mkC 6368 5084).
Proof. vm_compute. split; reflexivity. Qed.
