(** * Proofs about complex multiplication with compensated parts (C177). *)

From Coq Require Import ZArith Reals Lia Lra List Bool Psatz.
From Flocq Require Import Core.Core IEEE754.BinarySingleNaN.
From Verif Require Import Base FloatBase Traits FixedPrim FixedImpl FloatImpl Complex Spec SpecCompens SpecTwoProd SpecAccMul FloatLemmas FloatArith TwoProdProofs.
Import ListNotations.
Open Scope Z_scope.

Section Flt.
Context {prec emax : Z} {Hp : Prec_gt_0 prec} {He : Prec_lt_emax prec emax}.
Hypothesis Pp : 4 <= prec.
Hypothesis Pe : prec + 8 <= emax.
Notation float := (binary_float prec emax).
Notation u := (bpow radix2 (- prec)).
Notation eta := (bpow radix2 (3 - emax - prec)).

Lemma dot2 : forall k, 0 <= k -> 2 * k + 2 * (prec - Z.div2 prec) + 16 <= emax -> forall a b c d : float,
  Forall (fun x => is_finite x = true /\ (Rabs (B2R x) <= bpow radix2 k)%R) [a; b; c; d] ->
  exists r, comp_dot float_ops float_zero (splitter prec) [(a, b); (c, d)] = Ok r /\ is_finite r = true /\
  (Rabs (B2R r - (B2R a * B2R b + B2R c * B2R d)) <= u * Rabs (B2R a * B2R b + B2R c * B2R d) + 92 * u ^ 2 * (Rabs (B2R a * B2R b) + Rabs (B2R c * B2R d)) + 20 * eta)%R.
Proof using All.
  intros k K0 K a b c d H. inversion H as [|? ? [Fa Ba] H1]; subst. inversion H1 as [|? ? [Fb Bb] H2]; subst. inversion H2 as [|? ? [Fc Bc] H3]; subst. inversion H3 as [|? ? [Fd Bd] _]; subst. clear H H1 H2 H3.
  destruct (comp_dot_float Pp Pe k K0 K [(a, b); (c, d)]) as (r & E & F & B).
  - apply Forall_cons; [|apply Forall_cons; [|apply Forall_nil]]; unfold small; cbn [fst snd]; auto.
  - cbn [length INR]. assert (u <= / 16)%R by (change (/ 16)%R with (bpow radix2 (-4)); apply bpow_le; lia). lra.
  - unfold sum_abs, total. cbn [map fold_right fst snd]. rewrite Rplus_0_r.
    assert (P : forall x y : R, (Rabs x <= bpow radix2 k -> Rabs y <= bpow radix2 k -> Rabs (x * y) <= bpow radix2 (emax - 10))%R).
    { intros x y X Y. apply (pow_up _ (k + k)); [destruct (half_bounds (prec := prec) Pp); lia|]. apply mul_tri; assumption. }
    pose proof (P _ _ Ba Bb). pose proof (P _ _ Bc Bd). replace (emax - 9) with (1 + (emax - 10)) by lia. rewrite bpow_plus. change (bpow radix2 1) with 2%R. lra.
  - exists r. split; [exact E|]. split; [exact F|]. unfold sum_prod, sum_abs, total in B. cbn [map fold_right fst snd length INR] in B. rewrite !Rplus_0_r in B.
    eapply Rle_trans; [exact B|]. right. ring.
Qed.
Theorem acc_mul_float : forall k, 0 <= k -> 2 * k + 2 * (prec - Z.div2 prec) + 16 <= emax -> forall z w : Cartesian float,
  Forall (fun x => is_finite x = true /\ (Rabs (B2R x) <= bpow radix2 k)%R) [re z; im z; re w; im w] ->
  let a := B2R (re z) in let b := B2R (im z) in let c := B2R (re w) in let d := B2R (im w) in
  exists r, acc_mul float_ops float_signed float_zero (splitter prec) z w = Ok r /\ is_finite (re r) = true /\ is_finite (im r) = true /\
  (Rabs (B2R (re r) - (a * c - b * d)) <= u * Rabs (a * c - b * d) + 92 * u ^ 2 * (Rabs (a * c) + Rabs (b * d)) + 20 * eta)%R /\
  (Rabs (B2R (im r) - (a * d + b * c)) <= u * Rabs (a * d + b * c) + 92 * u ^ 2 * (Rabs (a * d) + Rabs (b * c)) + 20 * eta)%R.
Proof using All.
  intros k K0 K z w H. cbv zeta. inversion H as [|? ? Ha H1]; subst. inversion H1 as [|? ? Hb H2]; subst. inversion H2 as [|? ? Hc H3]; subst. inversion H3 as [|? ? Hd _]; subst. clear H H1 H2 H3.
  assert (Hn : is_finite (Bopp (im z)) = true /\ (Rabs (B2R (Bopp (im z))) <= bpow radix2 k)%R). { rewrite is_finite_Bopp, B2R_Bopp, Rabs_Ropp. exact Hb. }
  destruct (dot2 k K0 K (re z) (re w) (Bopp (im z)) (im w)) as (x & E1 & F1 & B1); [repeat (apply Forall_cons || apply Forall_nil); assumption|].
  destruct (dot2 k K0 K (re z) (im w) (im z) (re w)) as (y & E2 & F2 & B2); [repeat (apply Forall_cons || apply Forall_nil); assumption|].
  exists (mkC x y). split; [unfold acc_mul; cbn [o_neg float_signed bind]; rewrite E1; cbn [bind]; rewrite E2; reflexivity|]. cbn [re im]. split; [exact F1|]. split; [exact F2|]. split; [|exact B2].
  rewrite B2R_Bopp in B1. replace (- B2R (im z) * B2R (im w))%R with (- (B2R (im z) * B2R (im w)))%R in B1 by ring. rewrite Rabs_Ropp in B1. exact B1.
Qed.
End Flt.

(** ** the crate's own product loses a part altogether *)
Lemma lost : forall p e {Hp : Prec_gt_0 p} {He : Prec_lt_emax p e} (z w : Cartesian (binary_float p e)) v,
  match cartesian_mul float_ops z w with Ok r => B2SF (re r) = SpecFloat.S754_zero false | _ => False end ->
  (B2R (re z) * B2R (re w) - B2R (im z) * B2R (im w) = v)%R ->
  exists r, cartesian_mul float_ops z w = Ok r /\ B2R (re r) = 0%R /\ (B2R (re z) * B2R (re w) - B2R (im z) * B2R (im w) = v)%R.
Proof.
  intros p e Hp He z w v M V. destruct (cartesian_mul float_ops z w) as [r| |]; try contradiction. exists r. split; [reflexivity|]. split; [|exact V].
  destruct (re r); cbn [B2SF] in M; try discriminate; reflexivity.
Qed.
Definition z32 : Cartesian f32 := mkC (@B754_finite 24 128 false 8390656 (-23) eq_refl) (@B754_finite 24 128 false 8388608 (-23) eq_refl).
Definition w32 : Cartesian f32 := mkC (@B754_finite 24 128 false 8390656 (-23) eq_refl) (@B754_finite 24 128 false 8392704 (-23) eq_refl).
Definition z64 : Cartesian f64 := mkC (@B754_finite 53 1024 false 4503599660924928 (-52) eq_refl) (@B754_finite 53 1024 false 4503599627370496 (-52) eq_refl).
Definition w64 : Cartesian f64 := mkC (@B754_finite 53 1024 false 4503599660924928 (-52) eq_refl) (@B754_finite 53 1024 false 4503599694479360 (-52) eq_refl).
Theorem part_lost :
  (exists z w r : Cartesian f32, cartesian_mul float_ops z w = Ok r /\ B2R (re r) = 0%R /\ (B2R (re z) * B2R (re w) - B2R (im z) * B2R (im w) = bpow radix2 (-24))%R) /\
  (exists z w r : Cartesian f64, cartesian_mul float_ops z w = Ok r /\ B2R (re r) = 0%R /\ (B2R (re z) * B2R (re w) - B2R (im z) * B2R (im w) = bpow radix2 (-54))%R).
Proof.
  split.
  - exists z32, w32. apply lost; [vm_compute; reflexivity|]. unfold z32, w32. cbn [re im]. unfold B2R, F2R. cbn -[Rinv Rmult IZR]. lra.
  - exists z64, w64. apply lost; [vm_compute; reflexivity|]. unfold z64, w64. cbn [re im]. unfold B2R, F2R. cbn -[Rinv Rmult IZR]. lra.
Qed.
