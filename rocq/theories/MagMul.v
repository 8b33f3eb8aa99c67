(** * The magnitude of a product is the product of the magnitudes. *)

From Coq Require Import ZArith Reals Lia Lra Psatz Bool List.
From Flocq Require Import Core.Core IEEE754.BinarySingleNaN.
From Verif Require Import Base FloatBase Literals Traits Trig IntImpl FixedPrim FixedImpl FloatImpl Complex Spec SpecFilter
  Lemmas FloatLemmas FloatKit ScalarProofs ScalarProofs2 WrapProofs ComplexProofs3 PolarProofs TrigProofs ProdProofs FilterProofs FloatArith MagProofs.
Import ListNotations.
Open Scope Z_scope.

Lemma cabs_near : forall a b c d e1 e2, (Rabs (a - c) <= e1 -> Rabs (b - d) <= e2 -> Rabs (cabs (a, b) - cabs (c, d)) <= e1 + e2)%R.
Proof.
  intros a b c d e1 e2 H1 H2.
  assert (K : forall a b c d, (cabs (a, b) <= cabs (c, d) + (Rabs (a - c) + Rabs (b - d)))%R).
  { clear. intros a b c d. pose proof (cabs_tri c d (a - c) (b - d)) as T. replace (c + (a - c))%R with a in T by ring. replace (d + (b - d))%R with b in T by ring.
    eapply Rle_trans; [exact T|]. apply Rplus_le_compat_l. apply cabs_le; cbn [fst snd].
    - pose proof (Rabs_pos (a - c)). pose proof (Rabs_pos (b - d)). lra.
    - pose proof (Rabs_pos (a - c)) as PA. pose proof (Rabs_pos (b - d)) as PB. assert (SQ : forall v, (v * v = Rabs v * Rabs v)%R) by (intros; unfold Rabs; destruct (Rcase_abs _); ring).
      rewrite (SQ (a - c)%R), (SQ (b - d)%R). assert (0 <= Rabs (a - c) * Rabs (b - d))%R by (apply Rmult_le_pos; auto). lra. }
  pose proof (K a b c d). pose proof (K c d a b) as K2. rewrite (Rabs_minus_sym c a), (Rabs_minus_sym d b) in K2. apply Rabs_le. lra.
Qed.

Lemma mag_mul_fixed : forall m f, supported f = true -> fsigned f = true -> 2 <= ffrac f <= fwidth f - 4 -> forall z w, cvalid (fity f) z -> cvalid (fity f) w ->
  let N := (cabs (fval f (re z), fval f (im z)) * cabs (fval f (re w), fval f (im w)))%R in
  ((N + 3 * ulp f) * (N + 3 * ulp f) <= fval f (fmax f))%R ->
  exists p r, cartesian_mul (fixed_ops m f) z w = Ok p /\ returns (fun fuel => fixed_mag m f fuel p) r /\
  (Rabs (fval f r - N) <= (/ 1000 + 5 * ulp f) * N + 11 * ulp f + sqrt (2 * ulp f))%R.
Proof.
  intros m f S Sg F z w Vz Vw N H. pose proof (supported_fwf f S) as W. assert (U : (0 < ulp f <= / 4)%R). { split; [apply bpow_gt_0|]. change (/ 4)%R with (bpow radix2 (-2)). apply bpow_le. lia. }
  assert (N0 : (0 <= N)%R) by (apply Rmult_le_pos; apply cabs_pos).
  assert (FM : (4 <= fval f (fmax f))%R). { rewrite fval_eq, fmax_signed by (auto; lia). pose proof (fone_IZR_pos f ltac:(lia)) as P. apply Rmult_le_reg_r with (IZR (fone f)); auto. unfold Rdiv. rewrite Rmult_assoc, Rinv_l, Rmult_1_r by lra. rewrite <- mult_IZR. apply IZR_le.
    pose proof (fone_pos f ltac:(lia)). assert (8 * fone f <= 2 ^ (fwidth f - 1)). { unfold fone. change 8 with (2 ^ 3). rewrite <- Z.pow_add_r by lia. apply Z.pow_le_mono_r; lia. } lia. }
  assert (NM : (N + 3 * ulp f <= fval f (fmax f))%R). { destruct (Rle_lt_dec (N + 3 * ulp f) 1); [lra|]. apply Rle_trans with (2 := H). nra. }
  set (a := fval f (re z)) in *. set (b := fval f (im z)) in *. set (c := fval f (re w)) in *. set (d := fval f (im w)) in *.
  destruct (cabs_part (a, b) (c, d)) as (P1 & P2 & P3 & P4). cbn [fst snd] in *. fold N in P1, P2, P3, P4.
  pose proof (cabs_mul (a, b) (c, d)) as CM. cbn [fst snd] in CM. fold N in CM.
  pose proof (cabs_fst (a * c - b * d, a * d + b * c)%R) as Q1. pose proof (cabs_snd (a * c - b * d, a * d + b * c)%R) as Q2. rewrite CM in Q1, Q2. cbn [fst snd] in Q1, Q2.
  assert (ED : exists p, cartesian_mul (fixed_ops Debug f) z w = Ok p).
  { rewrite mul_fixed_debug. cbv zeta. 
    pose proof (fval_mul f (re z) (re w) (proj1 W)) as M1. pose proof (fval_mul f (im z) (im w) (proj1 W)) as M2. pose proof (fval_mul f (re z) (im w) (proj1 W)) as M3. pose proof (fval_mul f (im z) (re w) (proj1 W)) as M4.
    fold a b c d in M1, M2, M3, M4. apply Rabs_le_inv in P1, P2, P3, P4, Q1, Q2.
    assert (SB : forall x y, fval f (x - y) = (fval f x - fval f y)%R) by (intros; unfold fval; rewrite minus_IZR; ring). assert (SA : forall x y, fval f (x + y) = (fval f x + fval f y)%R) by (intros; unfold fval; rewrite plus_IZR; ring).
    match goal with |- exists p, (if ?t then _ else _) = _ => assert (OK : t = true) end.
    { cbn [forallb]. rewrite !(fval_inj_range f S Sg); try reflexivity; rewrite ?SB, ?SA; apply Rabs_le; lra. }
    rewrite OK. eauto. }
  destruct ED as (p & ED). destruct (mul_fixed_all f S z w p Vz Vw ED) as (A1 & A2 & ER). fold a b c d in A1, A2.
  assert (EM : cartesian_mul (fixed_ops m f) z w = Ok p) by (destruct m; auto).
  assert (CN : (Rabs (cabs (fval f (re p), fval f (im p)) - N) <= ulp f + 2 * ulp f)%R). { rewrite <- CM. apply cabs_near; [lra|apply Rabs_le; lra]. }
  apply Rabs_le_inv in CN. pose proof (cabs_pos (fval f (re p), fval f (im p))) as C0. pose proof (cabs_sq (fval f (re p), fval f (im p))) as CS. cbn [fst snd] in CS.
  destruct (fixed_mag_acc m f p S Sg F) as (r & R & A).
  { rewrite <- CS. apply Rle_trans with (2 := H). apply Rmult_le_compat; lra. }
  exists p, r. split; [exact EM|]. split; [exact R|]. change (sqrt (fval f (re p) * fval f (re p) + fval f (im p) * fval f (im p))) with (cabs (fval f (re p), fval f (im p))) in A.
  set (t := cabs (fval f (re p), fval f (im p))) in *. assert ((/ 1000 + 5 * ulp f) * t <= (/ 1000 + 5 * ulp f) * (N + 3 * ulp f))%R by (apply Rmult_le_compat_l; lra).
  assert (15 * (ulp f * ulp f) <= 15 / 4 * ulp f)%R by (assert (ulp f * ulp f <= ulp f * / 4)%R by (apply Rmult_le_compat_l; lra); lra). apply Rabs_le_inv in A. apply Rabs_le. lra.
Qed.

Section Float.
Context {prec emax : Z} {Hp : Prec_gt_0 prec} {He : Prec_lt_emax prec emax}.
Notation float := (binary_float prec emax).
Notation ep := (bpow radix2 (- prec)).
Hypothesis (P24 : 24 <= prec) (E40 : 40 <= emax).
Notation finite z := (is_finite (re z) = true /\ is_finite (im z) = true).
Notation norm z := (cabs (B2R (re z), B2R (im z))).
Lemma mag_mul_float : forall m fuel sq, (forall x : float, sq x = Bsqrt mode_NE x) -> forall z w : Cartesian float, finite z -> finite w ->
  forall k, 3 - emax <= 2 * k -> 2 * (2 * k + 2) + 1 < emax -> (norm z <= bpow radix2 k)%R -> (norm w <= bpow radix2 k)%R -> (bpow radix2 (16 - emax) <= (norm z * norm w) * (norm z * norm w))%R ->
  exists p r, cartesian_mul float_ops z w = Ok p /\ finite p /\ float_mag m sq fuel p = Ok r /\ is_finite r = true /\
  (Rabs (B2R r - norm z * norm w) <= 7 * ep * (norm z * norm w))%R.
Proof using P24 E40.
  intros m fuel sq SQ z w Fz Fw k K1 K2 Nz Nw L. pose proof (@ep_small prec P24) as EP. set (N := (norm z * norm w)%R) in *.
  destruct (fl_mul z w ltac:(lia) Fz Fw k K1 ltac:(lia)) as (p & E & Fp & A1 & A2).
  { apply Rle_trans with (2 := Nz). apply (cabs_fst (B2R (re z), B2R (im z))). }
  { apply Rle_trans with (2 := Nz). apply (cabs_snd (B2R (re z), B2R (im z))). }
  { apply Rle_trans with (2 := Nw). apply (cabs_fst (B2R (re w), B2R (im w))). }
  { apply Rle_trans with (2 := Nw). apply (cabs_snd (B2R (re w), B2R (im w))). }
  set (a := B2R (re z)) in *. set (b := B2R (im z)) in *. set (c := B2R (re w)) in *. set (d := B2R (im w)) in *. set (eta := bpow radix2 (3 - emax - prec)) in *.
  pose proof (cabs_pos (a, b)) as Z0. pose proof (cabs_pos (c, d)) as W0. assert (N0 : (0 <= N)%R) by (apply Rmult_le_pos; auto).
  pose proof (cabs_mul (a, b) (c, d)) as CM. cbn [fst snd] in CM. fold N in CM.
  assert (S2 : forall x y, (Rabs x + Rabs y <= 142 / 100 * cabs (x, y))%R).
  { intros x y. pose proof (cabs_sq (x, y)) as Q. cbn [fst snd] in Q. pose proof (cabs_pos (x, y)) as Q0. set (t := cabs (x, y)) in *. pose proof (Rabs_pos x). pose proof (Rabs_pos y).
    assert (XX : (x * x = Rabs x * Rabs x)%R) by (unfold Rabs; destruct (Rcase_abs _); ring). assert (YY : (y * y = Rabs y * Rabs y)%R) by (unfold Rabs; destruct (Rcase_abs _); ring).
    apply Rsqr_incr_0_var; [|lra]. unfold Rsqr. pose proof (Rle_0_sqr (Rabs x - Rabs y)) as K. unfold Rsqr in K. assert (0 <= t * t)%R by apply Rle_0_sqr. nra. }
  assert (PS : (Rabs (a * c) + Rabs (b * d) + (Rabs (a * d) + Rabs (b * c)) <= 2017 / 1000 * N)%R).
  { rewrite !Rabs_mult. replace (Rabs a * Rabs c + Rabs b * Rabs d + (Rabs a * Rabs d + Rabs b * Rabs c))%R with ((Rabs a + Rabs b) * (Rabs c + Rabs d))%R by ring.
    apply Rle_trans with ((142 / 100 * cabs (a, b)) * (142 / 100 * cabs (c, d)))%R; [|unfold N; assert (0 <= cabs (a, b) * cabs (c, d))%R by (apply Rmult_le_pos; auto); nra].
    pose proof (Rabs_pos a). pose proof (Rabs_pos b). pose proof (Rabs_pos c). pose proof (Rabs_pos d). apply Rmult_le_compat; try lra; apply S2. }
  assert (NL : (bpow radix2 (10 - emax) <= N)%R). { apply Rsqr_incr_0_var; auto. unfold Rsqr. apply Rle_trans with (2 := L). rewrite <- bpow_plus. apply bpow_le. lia. }
  assert (EN : (0 < eta <= / 128 * ep * N)%R).
  { split; [apply bpow_gt_0|]. unfold eta. replace (3 - emax - prec) with (- prec + ((10 - emax) + -7)) by ring. rewrite !bpow_plus. change (bpow radix2 (-7)) with (/ 128)%R.
    replace (/ 128 * ep * N)%R with (ep * (N * / 128))%R by ring. apply Rmult_le_compat_l; lra. }
  set (C := (2 * ep + ep * ep)%R) in *. assert (CB : (0 <= C <= 201 / 100 * ep)%R) by (unfold C; nra).
  pose proof (cabs_near _ _ _ _ _ _ A1 A2) as CN. rewrite CM in CN.
  assert (CE : (Rabs (cabs (B2R (re p), B2R (im p)) - N) <= 41 / 10 * (ep * N))%R).
  { eapply Rle_trans; [exact CN|]. assert (EN0 : (0 <= ep * N)%R) by (apply Rmult_le_pos; lra).
    assert (C * (Rabs (a * c) + Rabs (b * d) + (Rabs (a * d) + Rabs (b * c))) <= 201 / 100 * ep * (2017 / 1000 * N))%R.
    { apply Rmult_le_compat; try lra. pose proof (Rabs_pos (a * c)). pose proof (Rabs_pos (b * d)). pose proof (Rabs_pos (a * d)). pose proof (Rabs_pos (b * c)). lra. }
    lra. }
  assert (EPN : (0 <= ep * N <= / 1000000 * N)%R) by (split; [apply Rmult_le_pos; lra|apply Rmult_le_compat_r; lra]).
  pose proof (cabs_sq (B2R (re p), B2R (im p))) as CS. cbn [fst snd] in CS. pose proof (cabs_fst (B2R (re p), B2R (im p))) as C1. pose proof (cabs_snd (B2R (re p), B2R (im p))) as C2. cbn [fst snd] in C1, C2.
  set (t := cabs (B2R (re p), B2R (im p))) in *. apply Rabs_le_inv in CE. assert (NN : (N <= bpow radix2 (2 * k))%R) by (replace (2 * k) with (k + k) by ring; rewrite bpow_plus; apply Rmult_le_compat; auto).
  destruct Fp as [Fp1 Fp2].
  destruct (float_mag_acc (prec := prec) (emax := emax) P24 E40 m fuel p sq SQ (2 * k + 1) ltac:(lia) Fp1 Fp2) as (r & Er & Fr & Ar).
  { assert (T2 : (9 / 10 * (N * N) <= t * t)%R) by nra. set (x := B2R (re p)) in *. set (y := B2R (im p)) in *.
    assert (XX : (x * x = Rabs x * Rabs x)%R) by (unfold Rabs; destruct (Rcase_abs _); ring). assert (YY : (y * y = Rabs y * Rabs y)%R) by (unfold Rabs; destruct (Rcase_abs _); ring).
    assert (TM : (t * t <= 2 * (Rmax (Rabs x) (Rabs y) * Rmax (Rabs x) (Rabs y)))%R). { rewrite CS, XX, YY. pose proof (Rabs_pos x). pose proof (Rabs_pos y). unfold Rmax. destruct (Rle_dec (Rabs x) (Rabs y)); nra. }
    replace (16 - emax) with ((13 - emax) + 3) in L by ring. rewrite bpow_plus in L. change (bpow radix2 3) with 8%R in L. pose proof (bpow_gt_0 radix2 (13 - emax)). lra. }
  { rewrite bpow_plus. change (bpow radix2 1) with 2%R. apply Rmax_lub; lra. }
  exists p, r. split; [exact E|]. split; [auto|]. split; [exact Er|]. split; [exact Fr|]. change (sqrt (B2R (re p) * B2R (re p) + B2R (im p) * B2R (im p))) with t in Ar.
  assert (ep * t <= ep * (11 / 10 * N))%R by (apply Rmult_le_compat_l; lra). apply Rabs_le_inv in Ar. apply Rabs_le. lra.
Qed.
End Float.
