(** * When the fixed-point magnitude is zero (proofs for C60), and the float root of powers of four (C81). *)

From Coq Require Import ZArith Reals Lia Lra List Psatz.
From Flocq Require Import Core.Core IEEE754.BinarySingleNaN.
From Verif Require Import Base FloatBase Literals Traits Trig IntImpl FixedPrim FixedImpl FloatImpl Complex Spec
  Lemmas ScalarProofs ScalarProofs2 TrigProofs NiirfFixed NiirfFixed3 NiirfFixed4 NiirfFloat NiirfMore MagProofs.
Open Scope Z_scope.

Lemma fixed_mag_zero_iff : forall m f z, supported f = true -> fsigned f = true -> 2 <= ffrac f <= fwidth f - 4 ->
  let n := (fval f (re z) * fval f (re z) + fval f (im z) * fval f (im z))%R in
  (n <= fval f (fmax f))%R ->
  exists r, returns (fun fuel => fixed_mag m f fuel z) r /\ 0 <= r /\
    (r = 0 <-> (fval f (re z) * fval f (re z) < ulp f)%R /\ (fval f (im z) * fval f (im z) < ulp f)%R).
Proof.
  intros m f z Hf S F n N. pose proof (supported_fwf f Hf) as W. pose proof (fone_pos f (proj1 W)) as Q. pose proof (fone_IZR_pos f (proj1 W)) as QR.
  set (a := re z) in *. set (b := im z) in *.
  assert (EN : (n = IZR (a * a + b * b) / (IZR (fone f) * IZR (fone f)))%R).
  { unfold n. rewrite !fval_eq by apply W. rewrite plus_IZR, !mult_IZR. field. lra. }
  assert (ES : forall c, (fval f c * fval f c < ulp f)%R <-> c * c / fone f = 0).
  { intros c. rewrite fval_eq, ulp_eq by apply W. 
    assert (IP : (0 < / (IZR (fone f) * IZR (fone f)))%R) by (apply Rinv_0_lt_compat, Rmult_lt_0_compat; auto).
    assert (E : c * c / fone f = 0 <-> c * c < fone f).
    { rewrite Z.div_small_iff by lia. assert (0 <= c * c) by nia. lia. }
    rewrite E. replace (IZR c / IZR (fone f) * (IZR c / IZR (fone f)))%R with (IZR (c * c) * / (IZR (fone f) * IZR (fone f)))%R by (rewrite mult_IZR; field; lra).
    replace (/ IZR (fone f))%R with (IZR (fone f) * / (IZR (fone f) * IZR (fone f)))%R by (field; lra). split; intros H.
    - apply lt_IZR. eapply Rmult_lt_reg_r; [exact IP|exact H].
    - apply Rmult_lt_compat_r; auto. apply IZR_lt. exact H. }
  pose proof (ES a) as ESa. pose proof (ES b) as ESb. clear ES. set (q := IZR (fone f)) in *. set (x := a * a / fone f) in *. set (y := b * b / fone f) in *.
  assert (IQ : (0 < / q)%R) by (apply Rinv_0_lt_compat; auto).
  assert (X : fone f * x <= a * a) by (apply Z.mul_div_le; lia).
  assert (Y : fone f * y <= b * b) by (apply Z.mul_div_le; lia).
  assert (X0 : 0 <= x) by (apply Z.div_pos; nia). assert (Y0 : 0 <= y) by (apply Z.div_pos; nia).
  assert (TOP : x + y <= fmax f).
  { assert (L : (IZR (a * a + b * b) <= IZR (fmax f) * q)%R).
    { rewrite EN, fval_eq in N by apply W. fold q in N. apply Rmult_le_reg_r with (/ q * / q)%R; [apply Rmult_lt_0_compat; auto|].
      replace (IZR (fmax f) * q * (/ q * / q))%R with (IZR (fmax f) / q)%R by (field; lra).
      replace (IZR (a * a + b * b) * (/ q * / q))%R with (IZR (a * a + b * b) / (q * q))%R by (field; lra). exact N. }
    unfold q in L. rewrite <- mult_IZR in L. apply le_IZR in L. apply Z.mul_le_mono_pos_l with (fone f); auto. lia. }
  assert (EX : fx_mul m f a a = fx_fin m f x) by reflexivity. assert (EY : fx_mul m f b b = fx_fin m f y) by reflexivity.
  clearbody x y. pose proof TOP as TOP'. rewrite fmax_signed in TOP by auto.
  assert (VX : forall v, 0 <= v <= x + y -> fvalid f v) by (intros v V; rewrite fvalid_iff, S; lia).
  assert (C : exists r, returns (fun fuel => mixed_sqrt (fixed_sqrt m f fuel) (x + y)) r /\ 0 <= r /\ (r = 0 <-> x = 0 /\ y = 0)).
  { destruct (Z.eq_dec (x + y) 0) as [Z|Z].
    - exists 0. split; [|split; [lia|split; intros; lia]]. exists 0%nat. intros fuel _. rewrite Z. apply sqrt_zero_api; auto.
    - destruct (sqrt_positive m f Hf S F 2%N ltac:(lia) (x + y) (VX (x + y) ltac:(lia)) ltac:(lia)) as (r & R & P).
      exists r. split; [exact R|]. split; lia. }
  destruct C as (r & R & P0 & P). exists r. rewrite <- ESa, <- ESb in P. split; [|split; [exact P0|exact P]].
  destruct R as [n0 R]. exists n0. intros fuel L. rewrite fixed_mag_eq. fold a b. rewrite EX, EY.
  rewrite !fx_fin_ok by (apply VX; lia). cbn [bind]. unfold fx_add. rewrite fx_fin_ok by (apply VX; lia). cbn [bind]. apply R. exact L.
Qed.

(** ** powers of four *)
Lemma bpow_neg2 : bpow radix2 (-2) = (/ 4)%R. Proof. reflexivity. Qed.
Lemma pow4_norm : forall a k n t, a = bpow radix2 (2 * k) -> t = (a * bpow radix2 (-2 * n))%R -> (/ 4 <= t < 1)%R -> n = k + 1 /\ t = (/ 4)%R.
Proof.
  intros a k n t A T L. rewrite A, <- bpow_plus in T. rewrite T in L. rewrite <- bpow_neg2 in L. change 1%R with (bpow radix2 0) in L.
  destruct L as [L1 L2]. apply le_bpow in L1. apply lt_bpow in L2. assert (N : n = k + 1) by lia. split; auto. rewrite T, N, <- bpow_neg2. f_equal. lia.
Qed.
Lemma pos_strict : forall p e (t : binary_float p e), is_finite t = true -> (0 < B2R t)%R -> is_finite_strict t = true.
Proof. intros p e t F P. destruct t; auto. cbn in P. exfalso. apply (Rlt_irrefl 0). exact P. Qed.
Lemma pow4_f32 : forall m (x : f32) k, is_finite x = true -> B2R x = bpow radix2 (2 * k) -> exists r : f32,
  returns (fun fuel => niirf float_ops float_zero float_abs float_powi m fuel x 2) r /\ is_finite r = true /\ (10007 * bpow radix2 k < 10000 * B2R r)%R.
Proof.
  intros m x k F V. pose proof (bpow_gt_0 radix2 (2 * k)) as XP. pose proof (bpow_gt_0 radix2 k) as KP.
  destruct (niirf_float_form (prec := 24) (emax := 128) ltac:(lia) ltac:(lia) m x 2%N F ltac:(lra) ltac:(lia)) as (n & t & y & r & Ft & Vt & Lt & Ey & Rr & Fr & Vr).
  rewrite Rabs_pos_eq in Vt by lra. destruct (pow4_norm _ k n _ V Vt Lt) as [N T].
  set (q := @B754_finite 24 128 false 8388608 (-25) eq_refl). assert (Q : B2R q = (/ 4)%R) by (unfold q; cbn; unfold F2R; cbn; lra).
  assert (E : t = q) by (apply B2R_inj; [apply pos_strict; auto; lra|reflexivity|lra]).
  exists r. split; auto. split; auto. subst t. rewrite Vr, N, bpow_plus. change (bpow radix2 1) with 2%R.
  assert (C : map_res B2SF (niirf_iterate float_ops float_powi 2 q) = Ok (SpecFloat.S754_finite false 8394916 (-24))) by (vm_cast_no_check (eq_refl (Ok (SpecFloat.S754_finite false 8394916 (-24))))).
  assert (D : B2SF y = SpecFloat.S754_finite false 8394916 (-24)) by (rewrite Ey in C; clear - C; cbn [map_res bind] in C; injection C; auto).
  clear - D KP. rewrite <- SF2R_B2SF, D. cbn. unfold F2R; cbn. lra.
Qed.
Lemma pow4_f64 : forall m (x : f64) k, is_finite x = true -> B2R x = bpow radix2 (2 * k) -> exists r : f64,
  returns (fun fuel => niirf float_ops float_zero float_abs float_powi m fuel x 2) r /\ is_finite r = true /\ (10007 * bpow radix2 k < 10000 * B2R r)%R.
Proof.
  intros m x k F V. pose proof (bpow_gt_0 radix2 (2 * k)) as XP. pose proof (bpow_gt_0 radix2 k) as KP.
  destruct (niirf_float_form (prec := 53) (emax := 1024) ltac:(lia) ltac:(lia) m x 2%N F ltac:(lra) ltac:(lia)) as (n & t & y & r & Ft & Vt & Lt & Ey & Rr & Fr & Vr).
  rewrite Rabs_pos_eq in Vt by lra. destruct (pow4_norm _ k n _ V Vt Lt) as [N T].
  set (q := @B754_finite 53 1024 false 4503599627370496 (-54) eq_refl). assert (Q : B2R q = (/ 4)%R) by (unfold q; cbn; unfold F2R; cbn; lra).
  assert (E : t = q) by (apply B2R_inj; [apply pos_strict; auto; lra|reflexivity|lra]).
  exists r. split; auto. split; auto. subst t. rewrite Vr, N, bpow_plus. change (bpow radix2 1) with 2%R.
  assert (C : map_res B2SF (niirf_iterate float_ops float_powi 2 q) = Ok (SpecFloat.S754_finite false 4506985976459560 (-53))) by (vm_cast_no_check (eq_refl (Ok (SpecFloat.S754_finite false 4506985976459560 (-53))))).
  assert (D : B2SF y = SpecFloat.S754_finite false 4506985976459560 (-53)) by (rewrite Ey in C; clear - C; cbn [map_res bind] in C; injection C; auto).
  clear - D KP. rewrite <- SF2R_B2SF, D. cbn. unfold F2R; cbn. lra.
Qed.
