(** * Dividing by the magnitude, the triangle inequality, and division of floats. *)

From Coq Require Import ZArith Reals Lia Lra Psatz Bool List.
From Flocq Require Import Core.Core IEEE754.BinarySingleNaN.
From Verif Require Import Base FloatBase Literals Traits Trig IntImpl FixedPrim FixedImpl FloatImpl Complex Spec SpecFilter SpecRotor SpecFourier SpecUnit
  Lemmas FloatLemmas FloatKit ScalarProofs ScalarProofs2 WrapProofs WrapProofs2 ComplexProofs3 PolarProofs3 ProdProofs FilterProofs FloatProofs FloatArith SqrtInv MagProofs FloatFilter PhaseAcc MagOrder MagMul RotorProofs FourierProofs.
Import ListNotations.
Open Scope Z_scope.

Notation fixed_mag m f fuel := (cartesian_mag (fixed_ops m f) (fixed_sqrt m f fuel) (fixed_powi m f)).
Notation mtol f N := ((/ 1000 + 5 * ulp f) * N + 3 * ulp f + R_sqrt.sqrt (2 * ulp f))%R.

Section Real.
Open Scope R_scope.
Lemma cunit_abs : forall z, 0 < cabs z -> cabs (cunit z) = 1.
Proof.
  intros z H. apply Rsqr_inj; [apply cabs_pos|lra|]. unfold Rsqr. rewrite cabs_sq. unfold cunit. cbn [fst snd]. pose proof (cabs_sq z).
  replace (fst z / cabs z * (fst z / cabs z) + snd z / cabs z * (snd z / cabs z)) with ((fst z * fst z + snd z * snd z) / (cabs z * cabs z)) by (field; lra). rewrite <- H0. field. lra.
Qed.
(** z/m for m near |z| *)
Lemma unit_near : forall z m, 0 < m -> 0 < cabs z -> cabs (csub (fst z / m, snd z / m) (cunit z)) = Rabs (cabs z - m) / m.
Proof.
  intros z m M N. apply Rsqr_inj; [apply cabs_pos|apply Rmult_le_pos; [apply Rabs_pos|left; apply Rinv_0_lt_compat; auto]|]. unfold Rsqr. rewrite cabs_sq. unfold csub, cunit. cbn [fst snd].
  pose proof (cabs_sq z) as S. replace (Rabs (cabs z - m) / m * (Rabs (cabs z - m) / m)) with (Rabs (cabs z - m) * Rabs (cabs z - m) / (m * m)) by (field; lra).
  rewrite <- Rabs_mult, (Rabs_pos_eq ((cabs z - m) * (cabs z - m))) by apply Rle_0_sqr.
  replace ((fst z / m - fst z / cabs z) * (fst z / m - fst z / cabs z) + (snd z / m - snd z / cabs z) * (snd z / m - snd z / cabs z))
    with ((fst z * fst z + snd z * snd z) * ((cabs z - m) * (cabs z - m)) / (m * m * (cabs z * cabs z))) by (field; lra).
  rewrite <- S. field. split; lra.
Qed.
End Real.

Lemma unit_fixed : forall m f, supported f = true -> fsigned f = true -> 2 <= ffrac f <= fwidth f - 4 -> forall z, let N := cabs (cval f z) in
  (N * N <= fval f (fmax f))%R -> (2 * mtol f N <= N)%R ->
  exists r q, returns (fun fuel => fixed_mag m f fuel z) r /\ ops_div_scalar_cartesian (fixed_ops m f) (fixed_real m f) z r = Ok q /\
  (cabs (csub (cval f q) (cunit (cval f z))) <= 2 * mtol f N / N + 142 / 100 * ulp f)%R /\ (Rabs (cabs (cval f q) - 1) <= 2 * mtol f N / N + 142 / 100 * ulp f)%R.
Proof.
  intros m f Hf S Fr z N B T. pose proof (supported_fwf f Hf) as W. assert (U : (0 < ulp f)%R) by apply bpow_gt_0.
  destruct (fixed_mag_acc m f z Hf S Fr) as (r & R & A). { unfold N in B. rewrite cabs_sq in B. exact B. }
  change (R_sqrt.sqrt (fval f (re z) * fval f (re z) + fval f (im z) * fval f (im z))) with N in A. set (t := mtol f N) in *.
  assert (T0 : (0 < t)%R). { unfold t. pose proof (sqrt_pos (2 * ulp f)). pose proof (cabs_pos (cval f z)). fold N in H0. assert (0 <= (/ 1000 + 5 * ulp f) * N)%R by (apply Rmult_le_pos; lra). lra. }
  assert (N0 : (0 < N)%R) by lra. apply Rabs_le_inv in A. assert (R0 : (/ 2 * N <= fval f r)%R) by lra.
  assert (Rz : r <> 0). { intros ->. unfold fval in R0. rewrite Rmult_0_l in R0. lra. }
  assert (BZ : forall a, (Rabs (fval f a) <= N)%R -> exists c, fx_div m f a r = Ok c /\ (Rabs (fval f c - fval f a / fval f r) < ulp f)%R).
  { intros a Ha. destruct (fdiv_val f a r (proj1 W) Rz) as [D1 D2]. exists (Z.quot (a * fone f) r). split; auto.
    unfold fx_div. destruct (Z.eqb_spec r 0); [lia|]. apply fx_fin_ok. apply in_rangeb_spec. apply fval_inj_range; auto.
    eapply Rle_trans; [exact D2|]. unfold Rdiv. rewrite Rabs_mult, Rabs_inv, (Rabs_pos_eq (fval f r)) by lra.
    apply Rle_trans with 2%R. { apply Rmult_le_reg_r with (fval f r); [lra|]. rewrite Rmult_assoc, Rinv_l by lra. lra. }
    rewrite fval_eq, fmax_signed by (auto; apply W). pose proof (fone_IZR_pos f (proj1 W)) as P. apply Rmult_le_reg_r with (IZR (fone f)); auto. unfold Rdiv. rewrite Rmult_assoc, Rinv_l, Rmult_1_r by lra. rewrite <- mult_IZR. apply IZR_le.
    pose proof (fone_pos f (proj1 W)). assert (2 ^ 3 * fone f <= 2 ^ (fwidth f - 1)). { unfold fone. rewrite <- Z.pow_add_r by lia. apply Z.pow_le_mono_r; lia. } lia. }
  destruct (BZ (re z) (cabs_fst (cval f z))) as (c1 & E1 & D1). destruct (BZ (im z) (cabs_snd (cval f z))) as (c2 & E2 & D2).
  exists r, (mkC c1 c2). split; auto. split.
  - unfold ops_div_scalar_cartesian. assert (ZI : o_of_i32 (fixed_ops m f) 0 = Ok 0) by (cbn; rewrite fx_of_int_small by (auto; lia); reflexivity). rewrite ZI. cbn [bind].
    assert (NZ : o_eq (fixed_ops m f) r 0 = false) by (unfold o_eq; cbn; destruct (Z.compare_spec r 0); auto; lia). rewrite NZ. cbn [fixed_ops o_div]. rewrite E1. cbn [bind]. rewrite E2. reflexivity.
  - assert (D : (cabs (csub (cval f (mkC c1 c2)) (cunit (cval f z))) <= 2 * t / N + 142 / 100 * ulp f)%R).
    { pose proof (csub_tri (cval f (mkC c1 c2)) (fst (cval f z) / fval f r, snd (cval f z) / fval f r)%R (cunit (cval f z))) as C. rewrite unit_near in C by (fold N; lra). fold N in C.
      assert (C1 : (cabs (csub (cval f (mkC c1 c2)) (fst (cval f z) / fval f r, snd (cval f z) / fval f r)) <= 14143 / 10000 * ulp f)%R) by (unfold csub, cval; cbn [fst snd re im]; apply cabs_two; lra).
      assert (C2 : (Rabs (N - fval f r) / fval f r <= 2 * t / N)%R).
      { apply Rmult_le_reg_r with (fval f r); [lra|]. unfold Rdiv at 1. rewrite Rmult_assoc, Rinv_l, Rmult_1_r by lra. apply Rle_trans with t; [apply Rabs_le; lra|].
        apply Rmult_le_reg_r with N; [lra|]. replace (2 * t / N * fval f r * N)%R with (2 * t * fval f r)%R by (field; lra). nra. }
      lra. }
    split; auto. pose proof (cabs_diff (cval f (mkC c1 c2)) (cunit (cval f z))) as V. rewrite cunit_abs in V by (fold N; lra). lra.
Qed.

Lemma triangle_fixed : forall m f, supported f = true -> fsigned f = true -> 2 <= ffrac f <= fwidth f - 4 -> forall z w, let A := cabs (cval f z) in let B := cabs (cval f w) in
  ((A + B) * (A + B) <= fval f (fmax f))%R -> (A + B <= fval f (fmax f))%R ->
  exists s rz rw rs, cartesian_add (fixed_ops m f) z w = Ok s /\ returns (fun fuel => fixed_mag m f fuel z) rz /\ returns (fun fuel => fixed_mag m f fuel w) rw /\ returns (fun fuel => fixed_mag m f fuel s) rs /\
  (fval f rs <= fval f rz + fval f rw + 2 * (/ 1000 + 5 * ulp f) * (A + B) + 9 * ulp f + 3 * R_sqrt.sqrt (2 * ulp f))%R.
Proof.
  intros m f Hf S Fr z w A B H1 H2. assert (U : (0 < ulp f)%R) by apply bpow_gt_0.
  pose proof (cabs_pos (cval f z)) as A0. pose proof (cabs_pos (cval f w)) as B0. fold A in A0. fold B in B0. pose proof (cabs_cadd (cval f z) (cval f w)) as T. fold A in T. fold B in T.
  destruct (add_fixed_near m f Hf S z w ltac:(lra)) as (s & Es & Vs).
  assert (MG : forall v, (cabs (cval f v) <= A + B)%R -> exists r, returns (fun fuel => fixed_mag m f fuel v) r /\ (Rabs (fval f r - cabs (cval f v)) <= mtol f (cabs (cval f v)))%R).
  { intros v Hv. pose proof (cabs_pos (cval f v)). apply (fixed_mag_acc m f v Hf S Fr). change (fval f (re v) * fval f (re v) + fval f (im v) * fval f (im v))%R with (fst (cval f v) * fst (cval f v) + snd (cval f v) * snd (cval f v))%R. rewrite <- cabs_sq. nra. }
  destruct (MG z ltac:(fold A; lra)) as (rz & Rz & Nz). destruct (MG w ltac:(fold B; lra)) as (rw & Rw & Nw). destruct (MG s ltac:(rewrite Vs; lra)) as (rs & Rs & Ns).
  exists s, rz, rw, rs. split; auto. split; auto. split; auto. split; auto. rewrite Vs in Ns. fold A in Nz. fold B in Nw. apply Rabs_le_inv in Nz, Nw, Ns. set (C := cabs (cadd (cval f z) (cval f w))) in *.
  assert ((/ 1000 + 5 * ulp f) * C <= (/ 1000 + 5 * ulp f) * (A + B))%R by (apply Rmult_le_compat_l; lra). lra.
Qed.

Section Float.
Context {prec emax : Z} {Hp : Prec_gt_0 prec} {He : Prec_lt_emax prec emax}.
Notation float := (binary_float prec emax).
Notation fexp := (SpecFloat.fexp prec emax).
Notation rnd := (round radix2 fexp ZnearestE).
Notation u := (bpow radix2 (- prec)).
Notation eta := (bpow radix2 (3 - emax - prec)).
Notation fv := (@cvalf prec emax).
Hypothesis P24 : 24 <= prec.
Hypothesis E40 : 40 <= emax.

Lemma us : (0 < u <= / 16777216)%R.
Proof using P24. split; [apply bpow_gt_0|]. change (/ 16777216)%R with (bpow radix2 (-24)). apply bpow_le. lia. Qed.
Lemma etas : (0 < eta <= / 1000 * u)%R.
Proof using E40. split; [apply bpow_gt_0|]. replace (3 - emax - prec) with ((3 - emax) + - prec) by lia. rewrite bpow_plus. apply Rmult_le_compat_r; [left; apply bpow_gt_0|].
  apply Rle_trans with (bpow radix2 (-10)); [apply bpow_le; lia|]. change (bpow radix2 (-10)) with (/ 1024)%R. lra. Qed.
Lemma mag_float_N : forall m fuel (z : Cartesian float) sq, (forall x, sq x = Bsqrt mode_NE x) -> forall k, 2 * k + 1 < emax -> cfin z -> let N := cabs (fv z) in
  (bpow radix2 (14 - emax) <= N * N)%R -> (N <= bpow radix2 k)%R ->
  exists r, cartesian_mag float_ops (float_sqrt m sq fuel) float_powi z = Ok r /\ is_finite r = true /\ (Rabs (B2R r - N) <= 9 / 4 * u * N)%R.
Proof using P24 E40.
  intros m fuel z sq SQ k K [F1 F2] N L B. pose proof (cabs_sq (fv z)) as CS. fold N in CS. cbn [cvalf fst snd] in CS.
  assert (Q : forall v, (v * v = Rabs v * Rabs v)%R) by (intros v; rewrite <- Rabs_mult; symmetry; apply Rabs_pos_eq, Rle_0_sqr).
  pose proof (Rabs_pos (B2R (re z))) as A1. pose proof (Rabs_pos (B2R (im z))) as A2.
  apply (float_mag_acc (prec := prec) (emax := emax) P24 E40 m fuel z sq SQ k K F1 F2).
  - assert (D : (bpow radix2 (14 - emax) = 2 * bpow radix2 (13 - emax))%R) by (replace (14 - emax) with (1 + (13 - emax)) by lia; rewrite bpow_plus; reflexivity).
    rewrite D, CS, (Q (B2R (re z))), (Q (B2R (im z))) in L. unfold Rmax. destruct (Rle_dec _ _); nra.
  - apply Rmax_lub; eapply Rle_trans; [apply (cabs_fst (fv z))|exact B|apply (cabs_snd (fv z))|exact B].
Qed.
Lemma unit_float : forall m fuel (z : Cartesian float) sq, (forall x, sq x = Bsqrt mode_NE x) -> forall k, 2 * k + 1 < emax -> cfin z -> let N := cabs (fv z) in
  (bpow radix2 (14 - emax) <= N * N)%R -> (N <= bpow radix2 k)%R ->
  exists r q, cartesian_mag float_ops (float_sqrt m sq fuel) float_powi z = Ok r /\
  cartesian_div_scalar float_ops float_ops (float_conv_float prec emax) float_zero float_real z r = Ok q /\ cfin q /\
  (cabs (csub (fv q) (cunit (fv z))) <= 4 * u)%R /\ (Rabs (cabs (fv q) - 1) <= 4 * u)%R.
Proof using P24 E40.
  intros m fuel z sq SQ k K Fz N L B. destruct (mag_float_N m fuel z sq SQ k K Fz L B) as (r & Er & Fr & A). fold N in A. pose proof us as US. pose proof etas as ES.
  assert (N0 : (0 < N)%R). { pose proof (bpow_gt_0 radix2 (14 - emax)). pose proof (cabs_pos (fv z)). fold N in H0. nra. }
  apply Rabs_le_inv in A. assert (UN : (9 / 4 * u * N <= / 1000 * N)%R) by (apply Rmult_le_compat_r; lra). assert (R0 : (999 / 1000 * N <= B2R r)%R) by lra.
  assert (Rz : (B2R r <> 0)%R) by lra.
  assert (DV : forall a : float, is_finite a = true -> (Rabs (B2R a) <= N)%R -> is_finite (Bdiv mode_NE a r) = true /\ (Rabs (B2R (Bdiv mode_NE a r) - B2R a / B2R r) <= 101 / 100 * u + / 1000 * u)%R).
  { intros a Fa Ha. assert (H : (Rabs (B2R a / B2R r) <= 1002 / 1000)%R). { unfold Rdiv. rewrite Rabs_mult, Rabs_inv, (Rabs_pos_eq (B2R r)) by lra. apply Rmult_le_reg_r with (B2R r); [lra|]. rewrite Rmult_assoc, Rinv_l by lra. lra. }
    destruct (div_r (prec := prec) (emax := emax) a r Fa Rz 1 ltac:(lia)) as [F V]; [change (bpow radix2 1) with 2%R; lra|]. split; auto. rewrite V.
    eapply Rle_trans; [apply rnd_rel|]. assert (u * Rabs (B2R a / B2R r) <= u * (1002 / 1000))%R by (apply Rmult_le_compat_l; lra). lra. }
  destruct Fz as [F1 F2]. destruct (DV (re z) F1 (cabs_fst (fv z))) as [G1 D1]. destruct (DV (im z) F2 (cabs_snd (fv z))) as [G2 D2].
  exists r, (mkC (Bdiv mode_NE (re z) r) (Bdiv mode_NE (im z) r)). split; auto. split.
  { unfold cartesian_div_scalar. cbn [mixed_zero float_zero bind mixed_from_num float_conv_float]. rewrite own_type.
    assert (NZ : forall x, mixed_zero float_zero = Ok x -> o_eq float_ops r x = false).
    { intros x Ex. injection Ex as <-. unfold o_eq. cbn [o_cmp float_ops]. rewrite Bcompare_correct by auto. cbn [B2R]. destruct (Rcompare_spec (B2R r) 0); auto. contradiction. }
    rewrite (NZ _ eq_refl). reflexivity. }
  split; [split; auto|].
  assert (D : (cabs (csub (fv (mkC (Bdiv mode_NE (re z) r) (Bdiv mode_NE (im z) r))) (cunit (fv z))) <= 4 * u)%R).
  { pose proof (csub_tri (fv (mkC (Bdiv mode_NE (re z) r) (Bdiv mode_NE (im z) r))) (fst (fv z) / B2R r, snd (fv z) / B2R r)%R (cunit (fv z))) as C. rewrite unit_near in C by (fold N; lra). fold N in C.
    assert (C1 : (cabs (csub (fv (mkC (Bdiv mode_NE (re z) r) (Bdiv mode_NE (im z) r))) (fst (fv z) / B2R r, snd (fv z) / B2R r)) <= 14143 / 10000 * (101 / 100 * u + / 1000 * u))%R) by (unfold csub, cvalf; cbn [fst snd re im]; apply cabs_two; lra).
    assert (C2 : (Rabs (N - B2R r) / B2R r <= 226 / 100 * u)%R).
    { apply Rmult_le_reg_r with (B2R r); [lra|]. unfold Rdiv at 1. rewrite Rmult_assoc, Rinv_l, Rmult_1_r by lra. apply Rle_trans with (9 / 4 * u * N)%R; [apply Rabs_le; lra|].
      assert (226 / 100 * u * (999 / 1000 * N) <= 226 / 100 * u * B2R r)%R by (apply Rmult_le_compat_l; lra). assert (0 <= u * N)%R by (apply Rmult_le_pos; lra). lra. }
    lra. }
  split; auto. pose proof (cabs_diff (fv (mkC (Bdiv mode_NE (re z) r) (Bdiv mode_NE (im z) r))) (cunit (fv z))) as V. rewrite cunit_abs in V by (fold N; lra). lra.
Qed.
Lemma triangle_float : forall m fuel (z w : Cartesian float) sq, (forall x, sq x = Bsqrt mode_NE x) -> forall k, 2 * k + 1 < emax -> cfin z -> cfin w ->
  let A := cabs (fv z) in let B := cabs (fv w) in let C := cabs (cadd (fv z) (fv w)) in
  (bpow radix2 (14 - emax) <= A * A)%R -> (bpow radix2 (14 - emax) <= B * B)%R -> (A + B <= / 2 * bpow radix2 k)%R ->
  exists s rz rw, cartesian_add float_ops z w = Ok s /\ cfin s /\
  cartesian_mag float_ops (float_sqrt m sq fuel) float_powi z = Ok rz /\ cartesian_mag float_ops (float_sqrt m sq fuel) float_powi w = Ok rw /\
  ((bpow radix2 (15 - emax) <= C * C)%R -> exists rs, cartesian_mag float_ops (float_sqrt m sq fuel) float_powi s = Ok rs /\ (B2R rs <= B2R rz + B2R rw + 6 * u * (A + B))%R).
Proof using P24 E40.
  intros m fuel z w sq SQ k K Fz Fw A B C LA LB H. pose proof us as US.
  pose proof (cabs_pos (fv z)) as A0. pose proof (cabs_pos (fv w)) as B0. fold A in A0. fold B in B0. pose proof (bpow_gt_0 radix2 k) as BK.
  assert (KE : (bpow radix2 k <= bpow radix2 (emax - 1))%R) by (apply bpow_le; lia).
  destruct (add_float_rel (prec := prec) (emax := emax) ltac:(lia) z w Fz Fw ltac:(fold A B; lra)) as (s & Es & Fs & Ns). fold C in Ns.
  destruct (mag_float_N m fuel z sq SQ k K Fz LA ltac:(fold A; lra)) as (rz & Ez & Fz' & Nz). destruct (mag_float_N m fuel w sq SQ k K Fw LB ltac:(fold B; lra)) as (rw & Ew & Fw' & Nw).
  exists s, rz, rw. split; auto. split; auto. split; auto. split; auto. intros LC. fold A in Nz. fold B in Nw.
  pose proof (cabs_cadd (fv z) (fv w)) as T. fold A B C in T. pose proof (cabs_via (fv s) (cadd (fv z) (fv w))) as V. fold C in V.
  pose proof (cabs_pos (cadd (fv z) (fv w))) as C0. fold C in C0.
  pose proof (cabs_via (cadd (fv z) (fv w)) (fv s)) as V'. rewrite csub_sym in V'. fold C in V'.
  assert (UC : (u * C <= / 16777216 * C)%R) by (apply Rmult_le_compat_r; lra).
  destruct (mag_float_N m fuel s sq SQ k K Fs) as (rs & Ers & _ & Nrs).
  { assert (D : (bpow radix2 (15 - emax) = 2 * bpow radix2 (14 - emax))%R) by (replace (15 - emax) with (1 + (14 - emax)) by lia; rewrite bpow_plus; reflexivity). rewrite D in LC.
    assert (99 / 100 * C <= cabs (fv s))%R by lra. nra. }
  { lra. }
  exists rs. split; auto. apply Rabs_le_inv in Nz, Nw, Nrs.
  assert (S1 : (cabs (fv s) <= (1 + u) * (A + B))%R). { assert (u * C <= u * (A + B))%R by (apply Rmult_le_compat_l; lra). lra. }
  assert (S2 : (9 / 4 * u * cabs (fv s) <= 9 / 4 * u * ((1 + u) * (A + B)))%R) by (apply Rmult_le_compat_l; lra).
  assert (S3 : (u * u * (A + B) <= / 16777216 * u * (A + B))%R) by (apply Rmult_le_compat_r; [lra|apply Rmult_le_compat_r; lra]).
  assert (S4 : (0 <= u * (A + B))%R) by (apply Rmult_le_pos; lra). lra.
Qed.

(** the quotient as the code forms it: the real part of the divisor serves as its imaginary part *)
Lemma div_float : forall (z w : Cartesian float) h, 0 <= h -> 2 * h + 3 < emax -> cfin z -> cfin w ->
  let a := B2R (re z) in let b := B2R (im z) in let c := B2R (re w) in
  (Rabs a <= bpow radix2 h)%R -> (Rabs b <= bpow radix2 h)%R -> (bpow radix2 (- h) <= Rabs c <= bpow radix2 h)%R ->
  exists r, cartesian_div float_ops float_powi z w = Ok r /\ cfin r /\
  let t := (3 * u * ((Rabs a + Rabs b) / Rabs c) + 2 * eta / (c * c) + eta)%R in
  (Rabs (B2R (re r) - (a + b) / (2 * c)) <= t)%R /\ (Rabs (B2R (im r) - (b - a) / (2 * c)) <= t)%R.
Proof using P24 E40.
  intros z w h H0 H Fz Fw a b c A B C. pose proof us as US. pose proof etas as ES. destruct Fz as [Fa Fb]. destruct Fw as [Fc _].
  assert (BH : (bpow radix2 (2 * h) = bpow radix2 h * bpow radix2 h)%R) by (rewrite <- bpow_plus; f_equal; lia).
  assert (BI : (bpow radix2 (- h) * bpow radix2 h = 1)%R) by (rewrite <- bpow_plus; replace (- h + h) with 0 by lia; reflexivity).
  pose proof (bpow_gt_0 radix2 h) as HP. pose proof (bpow_gt_0 radix2 (- h)) as HN.
  pose proof (Rabs_pos a) as A0. pose proof (Rabs_pos b) as B0. assert (C0 : (0 < Rabs c)%R) by lra.
  assert (CNZ : c <> 0%R) by (intros E; rewrite E, Rabs_R0 in C0; lra).
  assert (PR : forall x : float, is_finite x = true -> (Rabs (B2R x) <= bpow radix2 h)%R ->
    is_finite (Bmult mode_NE x (re w)) = true /\ (Rabs (B2R (Bmult mode_NE x (re w)) - B2R x * c) <= u * Rabs (B2R x * c) + / 2 * eta)%R /\ (Rabs (B2R (Bmult mode_NE x (re w))) <= bpow radix2 (2 * h))%R).
  { intros x Fx X. assert (P : (Rabs (B2R x * c) <= bpow radix2 (2 * h))%R) by (rewrite Rabs_mult, BH; apply Rmult_le_compat; try lra; apply Rabs_pos).
    destruct (mult_r (prec := prec) (emax := emax) x (re w) Fx Fc (2 * h) ltac:(lia) P) as [F V]. split; auto. rewrite V. split; [apply rnd_rel|]. apply rnd_le; auto; lia. }
  destruct (PR (re z) Fa A) as (F1 & V1 & L1). destruct (PR (im z) Fb B) as (F2 & V2 & L2). destruct (PR (re w) Fc (proj2 C)) as (F3 & _ & L3).
  set (p := Bmult mode_NE (re z) (re w)) in *. set (q := Bmult mode_NE (im z) (re w)) in *. set (s := Bmult mode_NE (re w) (re w)) in *.
  assert (B1 : bpow radix2 (2 * h + 1) = (2 * bpow radix2 (2 * h))%R) by (rewrite Z.add_comm, bpow_plus; reflexivity).
  destruct (plus_r (prec := prec) (emax := emax) p q F1 F2 (2 * h + 1) ltac:(lia)) as [F4 V4]. { eapply Rle_trans; [apply Rabs_triang|]. lra. }
  destruct (minus_r (prec := prec) (emax := emax) q p F2 F1 (2 * h + 1) ltac:(lia)) as [F5 V5]. { unfold Rminus. eapply Rle_trans; [apply Rabs_triang|]. rewrite Rabs_Ropp. lra. }
  assert (C2 : (bpow radix2 (- (2 * h)) <= c * c)%R).
  { replace (- (2 * h)) with (- h + - h) by lia. rewrite bpow_plus. replace (c * c)%R with (Rabs c * Rabs c)%R by (rewrite <- Rabs_mult; apply Rabs_pos_eq, Rle_0_sqr). apply Rmult_le_compat; lra. }
  assert (NB : (bpow radix2 (2 - emax) <= c * c)%R) by (eapply Rle_trans; [|exact C2]; apply bpow_le; lia). pose proof (bpow_gt_0 radix2 (2 - emax)) as NP.
  assert (VS : B2R s = rnd (c * c)). { apply (mult_r (prec := prec) (emax := emax) (re w) (re w) Fc Fc (2 * h) ltac:(lia)). fold c. rewrite Rabs_mult, BH. apply Rmult_le_compat; try apply Rabs_pos; apply C. }
  assert (ES' : (Rabs (B2R s - c * c) <= u * (c * c))%R). { rewrite VS. rewrite <- (Rabs_pos_eq (c * c)) at 3 by lra. apply rnd_norm. rewrite Rabs_pos_eq; lra. }
  apply Rabs_le_inv in ES'. assert (UCC : (u * (c * c) <= / 16777216 * (c * c))%R) by (apply Rmult_le_compat_r; lra).
  destruct (plus_r (prec := prec) (emax := emax) s s F3 F3 (2 * h + 1) ltac:(lia)) as [F6 V6]. { eapply Rle_trans; [apply Rabs_triang|]. lra. }
  set (d := Bplus mode_NE s s) in *.
  assert (ED : (Rabs (B2R d - 2 * (c * c)) <= 21 / 10 * u * (2 * (c * c)))%R).
  { assert (Rabs (B2R d - (B2R s + B2R s)) <= u * (B2R s + B2R s))%R. { rewrite V6. rewrite <- (Rabs_pos_eq (B2R s + B2R s)) at 3 by lra. apply rnd_norm. rewrite Rabs_pos_eq; lra. }
    apply Rabs_le_inv in H1. assert (u * (B2R s + B2R s) <= u * (201 / 100 * (c * c)))%R by (apply Rmult_le_compat_l; lra). apply Rabs_le. lra. }
  set (K := (2 * (c * c))%R) in *. assert (K0 : (0 < K)%R) by (unfold K; lra). set (X := ((Rabs a + Rabs b) / (2 * Rabs c))%R) in *.
  assert (X0 : (0 <= X)%R) by (unfold X; apply Rmult_le_pos; [lra|left; apply Rinv_0_lt_compat; lra]).
  assert (KX : (Rabs (a * c) + Rabs (b * c) = K * X)%R). { unfold K, X. rewrite !Rabs_mult. replace (c * c)%R with (Rabs c * Rabs c)%R by (rewrite <- Rabs_mult; apply Rabs_pos_eq, Rle_0_sqr). field. lra. }
  assert (XH : (X <= bpow radix2 (2 * h))%R). { unfold X. apply Rmult_le_reg_r with (2 * Rabs c)%R; [lra|]. unfold Rdiv. rewrite Rmult_assoc, Rinv_l, Rmult_1_r by lra.
    assert (bpow radix2 (2 * h) * (2 * bpow radix2 (- h)) <= bpow radix2 (2 * h) * (2 * Rabs c))%R by (apply Rmult_le_compat_l; [apply bpow_ge_0|lra]).
    assert (bpow radix2 (2 * h) * (2 * bpow radix2 (- h)) = 2 * bpow radix2 h)%R by (rewrite BH; replace (bpow radix2 h * bpow radix2 h * (2 * bpow radix2 (- h)))%R with (2 * bpow radix2 h * (bpow radix2 (- h) * bpow radix2 h))%R by ring; rewrite BI; ring). lra. }
  assert (EK : (eta / K <= / 2)%R). { unfold Rdiv. apply Rmult_le_reg_r with K; auto. rewrite Rmult_assoc, Rinv_l, Rmult_1_r by lra. unfold K.
    assert (eta <= bpow radix2 (2 - emax))%R by (apply bpow_le; lia). lra. }
  apply Rabs_le_inv in ED. assert (UK : (21 / 10 * u * K <= / 10000 * K)%R) by (apply Rmult_le_compat_r; lra).
  assert (DNZ : B2R d <> 0%R) by lra.
  assert (Q : forall (n : float) x, is_finite n = true -> (Rabs x <= X)%R -> (Rabs (B2R n - K * x) <= (2 * u + u * u) * (K * X) + 2 * eta)%R ->
    is_finite (Bdiv mode_NE n d) = true /\ (Rabs (B2R (Bdiv mode_NE n d) - x) <= 6 * u * X + 4 * eta / K + eta)%R).
  { intros n x Fn Xx Nn.
    assert (G : (Rabs (B2R n / B2R d - x) <= 45 / 10 * u * X + 21 / 10 * (eta / K))%R).
    { replace (B2R n / B2R d - x)%R with (((B2R n - K * x) + (K - B2R d) * x) / B2R d)%R by (field; auto). unfold Rdiv at 1. rewrite Rabs_mult, Rabs_inv, (Rabs_pos_eq (B2R d)) by lra.
      assert (T : (Rabs ((B2R n - K * x) + (K - B2R d) * x) <= 42 / 10 * u * (K * X) + 2 * eta)%R).
      { eapply Rle_trans; [apply Rabs_triang|]. rewrite Rabs_mult. assert (Rabs (K - B2R d) <= 21 / 10 * u * K)%R by (apply Rabs_le; lra).
        assert (Rabs (K - B2R d) * Rabs x <= 21 / 10 * u * K * X)%R by (apply Rmult_le_compat; auto; apply Rabs_pos).
        assert (0 <= K * X)%R by (apply Rmult_le_pos; lra). assert (u * u * (K * X) <= / 16777216 * u * (K * X))%R by (apply Rmult_le_compat_r; [lra|apply Rmult_le_compat_r; lra]).
        assert (0 <= u * (K * X))%R by (apply Rmult_le_pos; lra). lra. }
      apply Rmult_le_reg_r with (B2R d); [lra|]. rewrite Rmult_assoc, Rinv_l, Rmult_1_r by lra. eapply Rle_trans; [exact T|].
      assert (W0 : (0 <= 45 / 10 * u * X + 21 / 10 * (eta / K))%R). { assert (0 <= u * X)%R by (apply Rmult_le_pos; lra). assert (0 <= eta / K)%R by (apply Rmult_le_pos; [lra|left; apply Rinv_0_lt_compat; auto]). lra. }
      apply Rle_trans with ((45 / 10 * u * X + 21 / 10 * (eta / K)) * (9999 / 10000 * K))%R; [|apply Rmult_le_compat_l; lra].
      replace ((45 / 10 * u * X + 21 / 10 * (eta / K)) * (9999 / 10000 * K))%R with (9999 / 10000 * (45 / 10 * (u * (K * X)) + 21 / 10 * eta))%R by (field; lra).
      assert (0 <= u * (K * X))%R by (apply Rmult_le_pos; [lra|apply Rmult_le_pos; lra]). lra. }
    assert (UX : (u * X <= / 16777216 * X)%R) by (apply Rmult_le_compat_r; lra). assert (UX0 : (0 <= u * X)%R) by (apply Rmult_le_pos; lra).
    assert (EK0 : (0 <= eta / K)%R) by (apply Rmult_le_pos; [lra|left; apply Rinv_0_lt_compat; auto]).
    pose proof (Rabs_triang (B2R n / B2R d - x) x) as T. replace (B2R n / B2R d - x + x)%R with (B2R n / B2R d)%R in T by ring.
    assert (BB : (1 <= bpow radix2 (2 * h))%R) by (change 1%R with (bpow radix2 0); apply bpow_le; lia).
    assert (BF : bpow radix2 (2 * h + 2) = (4 * bpow radix2 (2 * h))%R) by (rewrite Z.add_comm, bpow_plus; reflexivity).
    destruct (div_r (prec := prec) (emax := emax) n d Fn DNZ (2 * h + 2) ltac:(lia)) as [F V]; [lra|]. split; auto. rewrite V.
    pose proof (rnd_rel (prec := prec) (emax := emax) (B2R n / B2R d)) as RR.
    assert (UR : (u * Rabs (B2R n / B2R d) <= u * (101 / 100 * X + 21 / 10 * (eta / K)))%R) by (apply Rmult_le_compat_l; lra).
    assert (UE : (u * (eta / K) <= / 16777216 * (eta / K))%R) by (apply Rmult_le_compat_r; lra).
    replace (rnd (B2R n / B2R d) - x)%R with ((rnd (B2R n / B2R d) - B2R n / B2R d) + (B2R n / B2R d - x))%R by ring. eapply Rle_trans; [apply Rabs_triang|]. unfold Rdiv in *. lra. }
  assert (XA : forall v, (Rabs v <= Rabs a + Rabs b -> Rabs (v / (2 * c)) <= X)%R).
  { intros v Hv. unfold X, Rdiv. rewrite Rabs_mult, Rabs_inv, Rabs_mult, (Rabs_pos_eq 2) by lra. apply Rmult_le_compat_r; [left; apply Rinv_0_lt_compat; lra|auto]. }
  destruct (Q (Bplus mode_NE p q) ((a + b) / (2 * c))%R F4) as [G1 D1]; [apply XA, Rabs_triang| |].
  { rewrite <- KX. apply (sum2 (prec := prec) (emax := emax)) with (x := B2R p) (y := B2R q); auto; [rewrite V4; apply rnd_rel|unfold K; field; auto|lra]. }
  destruct (Q (Bminus mode_NE q p) ((b - a) / (2 * c))%R F5) as [G2 D2]; [apply XA; unfold Rminus; eapply Rle_trans; [apply Rabs_triang|]; rewrite Rabs_Ropp; lra| |].
  { rewrite <- KX, (Rplus_comm (Rabs (a * c))), <- (Rabs_Ropp (a * c)). apply (sum2 (prec := prec) (emax := emax)) with (x := B2R q) (y := (- B2R p)%R); auto; [|rewrite V5; apply rnd_rel|unfold K; field; auto|lra].
    rewrite Rabs_Ropp. replace (- B2R p - - (a * c))%R with (- (B2R p - a * c))%R by ring. rewrite Rabs_Ropp. exact V1. }
  exists (mkC (Bdiv mode_NE (Bplus mode_NE p q) d) (Bdiv mode_NE (Bminus mode_NE q p) d)). split; [reflexivity|]. split; [split; auto|]. intros t. cbn [re im].
  assert (ET : (6 * u * X + 4 * eta / K + eta = t)%R). { unfold t, X, K. field. split; auto; lra. }
  rewrite <- ET. auto.
Qed.
(** a quotient of two reals comes out at half its value *)
Lemma div_real_half : forall (z w : Cartesian float) h, 0 <= h -> 2 * h + 3 < emax -> cfin z -> cfin w -> B2R (im z) = 0%R -> B2R (im w) = 0%R ->
  let a := B2R (re z) in let c := B2R (re w) in
  (bpow radix2 (- h) <= Rabs a <= bpow radix2 h)%R -> (bpow radix2 (- h) <= Rabs c <= bpow radix2 h)%R ->
  exists r, cartesian_div float_ops float_powi z w = Ok r /\ cfin r /\ (Rabs (B2R (re r) - a / c) >= 49 / 100 * Rabs (a / c))%R /\ (Rabs (B2R (im r)) >= 49 / 100 * Rabs (a / c))%R.
Proof using P24 E40.
  intros z w h H0 H Fz Fw Iz Iw a c A C. pose proof us as US. pose proof (bpow_gt_0 radix2 (- h)) as HN.
  destruct (div_float z w h H0 H Fz Fw) as (r & E & Fr & D1 & D2); try apply A; try apply C. { rewrite Iz, Rabs_R0. apply bpow_ge_0. }
  exists r. split; auto. split; auto. fold a c in D1, D2. rewrite Iz in D1, D2. rewrite Rabs_R0, !Rplus_0_r in D1. rewrite Rabs_R0, Rplus_0_r, Rminus_0_l in D2.
  assert (CNZ : c <> 0%R) by (intros E0; rewrite E0, Rabs_R0 in C; lra).
  assert (Q : (Rabs a / Rabs c = Rabs (a / c))%R) by (unfold Rdiv; rewrite Rabs_mult, Rabs_inv; reflexivity). rewrite Q in D1, D2.
  set (v := Rabs (a / c)) in *. assert (V0 : (bpow radix2 (- (2 * h)) <= v)%R).
  { rewrite <- Q. apply Rmult_le_reg_r with (Rabs c); [lra|]. unfold Rdiv. rewrite Rmult_assoc, Rinv_l, Rmult_1_r by lra.
    apply Rle_trans with (bpow radix2 (- (2 * h)) * bpow radix2 h)%R; [apply Rmult_le_compat_l; [apply bpow_ge_0|apply C]|]. rewrite <- bpow_plus. replace (- (2 * h) + h) with (- h) by lia. apply A. }
  assert (E1 : (eta <= u * v)%R). { replace (3 - emax - prec) with (- prec + (3 - emax)) by lia. rewrite bpow_plus. apply Rmult_le_compat_l; [lra|]. eapply Rle_trans; [|exact V0]. apply bpow_le. lia. }
  assert (E2 : (eta / (c * c) <= u * v)%R).
  { apply Rmult_le_reg_r with (c * c)%R; [nra|]. unfold Rdiv. rewrite Rmult_assoc, Rinv_l, Rmult_1_r by nra.
    replace (u * v * (c * c))%R with (u * (Rabs a * Rabs c))%R. 2:{ rewrite <- Q. replace (c * c)%R with (Rabs c * Rabs c)%R by (rewrite <- Rabs_mult; apply Rabs_pos_eq, Rle_0_sqr). field. lra. }
    replace (3 - emax - prec) with (- prec + (3 - emax)) by lia. rewrite bpow_plus. apply Rmult_le_compat_l; [lra|].
    apply Rle_trans with (bpow radix2 (- h) * bpow radix2 (- h))%R; [rewrite <- bpow_plus; apply bpow_le; lia|apply Rmult_le_compat; lra]. }
  assert (V1 : (0 < v)%R) by (eapply Rlt_le_trans; [apply bpow_gt_0|exact V0]). assert (UV : (u * v <= / 16777216 * v)%R) by (apply Rmult_le_compat_r; lra).
  replace (2 * eta / (c * c))%R with (2 * (eta / (c * c)))%R in D1, D2 by (unfold Rdiv; ring).
  assert (HF : (Rabs (a / (2 * c)) = v / 2)%R). { unfold v. replace (a / (2 * c))%R with (a / c * / 2)%R by (field; auto). rewrite Rabs_mult, (Rabs_pos_eq (/ 2)) by lra. reflexivity. }
  split.
  - pose proof (Rabs_triang_inv (a / c - a / (2 * c)) (B2R (re r) - a / (2 * c))) as T. replace (a / c - a / (2 * c) - (B2R (re r) - a / (2 * c)))%R with (- (B2R (re r) - a / c))%R in T by ring. rewrite Rabs_Ropp in T.
    replace (a / c - a / (2 * c))%R with (a / (2 * c))%R in T by (field; auto). lra.
  - pose proof (Rabs_triang_inv (- a / (2 * c)) (- (B2R (im r) - - a / (2 * c)))) as T. rewrite Rabs_Ropp in T.
    replace (- a / (2 * c) - - (B2R (im r) - - a / (2 * c)))%R with (B2R (im r)) in T by ring. replace (- a / (2 * c))%R with (- (a / (2 * c)))%R in T, D2 by (field; auto). rewrite Rabs_Ropp in T. lra.
Qed.
End Float.
