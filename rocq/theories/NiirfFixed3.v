(** * The NIIRF square root on fixed-point types: accuracy, panics, counterexamples. *)

From Coq Require Import ZArith Reals Lia Lra Psatz List Bool.
From Flocq Require Import Core.Core IEEE754.BinarySingleNaN.
From Verif Require Import Base FloatBase Literals Traits Trig IntImpl FixedPrim FixedImpl Spec
  Lemmas ScalarProofs ScalarProofs2 WrapProofs SqrtReal NiirfZ NiirfFixed NiirfFixed2.
Open Scope Z_scope.

Lemma pow_IZR2 : forall n, 0 <= n -> (IZR (4 ^ n) = IZR (2 ^ n) * IZR (2 ^ n))%R.
Proof. intros. rewrite <- mult_IZR, <- Z.pow_mul_l. reflexivity. Qed.

(** error of the rescaled result *)
Lemma acc_scaled : forall f X n X' y, 0 <= ffrac f -> 0 < X -> normed f X n X' -> acc (fone f) X' y -> small (fone f) y ->
  (Rabs (fval f (scaled n y) - sqrt (fval f X)) <= (/ 1000 + 5 * ulp f) * sqrt (fval f X) + 3 * ulp f)%R.
Proof.
  intros f X n X' y F X0 [N [L [U D]]] [A _] [Y0 _].
  pose proof (fone_IZR_pos f F) as QP. pose proof (fone_pos f F) as QZ.
  rewrite !fval_eq, ulp_eq by auto. unfold s in A. unfold Rdiv in *.
  set (Q := IZR (fone f)) in *. assert (UP : (0 < / Q)%R) by (apply Rinv_0_lt_compat; auto). set (u := (/ Q)%R) in *.
  set (S := sqrt (IZR X' * u)) in *. set (G := sqrt (IZR X * u)).
  assert (X'0 : 0 < X') by lia.
  assert (XR : (0 < IZR X)%R) by (apply IZR_lt; auto). assert (XR' : (0 < IZR X')%R) by (apply IZR_lt; auto).
  assert (SS : (S * S = IZR X' * u)%R) by (apply sqrt_sqrt; apply Rmult_le_pos; lra).
  assert (GG : (G * G = IZR X * u)%R) by (apply sqrt_sqrt; apply Rmult_le_pos; lra).
  assert (S0 : (0 <= S)%R) by apply sqrt_pos. assert (G0 : (0 <= G)%R) by apply sqrt_pos.
  apply Rabs_le_inv in A.
  destruct D as [[N0 D]|[N0 D]].
  - (* small argument *)
    unfold scaled. destruct (Z.leb_spec 0 n); [lia|]. set (j := - n) in *.
    assert (PZ : 0 < 2 ^ j) by (apply Z.pow_pos_nonneg; lia). assert (P : (1 <= IZR (2 ^ j))%R) by (apply IZR_le; lia).
    pose proof (div_real y (2 ^ j) PZ) as DR. set (r := IZR (y / 2 ^ j)) in *.
    assert (SG : S = (IZR (2 ^ j) * G)%R).
    { apply Rsqr_inj; auto; [apply Rmult_le_pos; lra|]. unfold Rsqr. rewrite SS, D, mult_IZR, pow_IZR2 by lia.
      replace (IZR (2 ^ j) * G * (IZR (2 ^ j) * G))%R with (IZR (2 ^ j) * IZR (2 ^ j) * (G * G))%R by ring. rewrite GG. ring. }
    rewrite SG in A. set (p := IZR (2 ^ j)) in *. assert (P' : (0 < / p)%R) by (apply Rinv_0_lt_compat; lra).
    assert (P1 : (/ p <= 1)%R) by (rewrite <- Rinv_1; apply Rinv_le_contravar; lra).
    assert (E : (IZR y * u - p * G = p * (IZR y / p * u - G))%R) by (field; lra). rewrite E in A.
    assert (B : (- (G / 1000 + 145 / 100 * u * / p) <= IZR y / p * u - G <= G / 1000 + 145 / 100 * u * / p)%R).
    { assert (T : (145 / 100 * u * / p * p = 145 / 100 * u)%R) by (field; lra). set (t := (145/100 * u * / p)%R) in *.
      split; (apply Rmult_le_reg_l with p; [lra|]); unfold Rdiv in *; nra. }
    assert (T2 : (145 / 100 * u * / p <= 145 / 100 * u)%R) by nra.
    assert (R1 : (IZR y / p * u - u <= r * u <= IZR y / p * u)%R) by nra.
    assert (0 <= 5 * u * G)%R by (apply Rmult_le_pos; lra).
    apply Rabs_le. lra.
  - (* large argument *)
    unfold scaled. destruct (Z.leb_spec 0 n); [|lia]. rewrite mult_IZR.
    assert (PZ : 0 < 2 ^ n) by (apply Z.pow_pos_nonneg; lia). assert (P : (1 <= IZR (2 ^ n))%R) by (apply IZR_le; lia).
    assert (P4 : 0 < 4 ^ n) by (apply Z.pow_pos_nonneg; lia).
    pose proof (div_real X (4 ^ n) P4) as DR. rewrite <- D, pow_IZR2 in DR by auto. set (p := IZR (2 ^ n)) in *.
    assert (DR' : (IZR X' * (p * p) <= IZR X <= (IZR X' + 1) * (p * p))%R).
    { assert (E : (IZR X / (p * p) * (p * p) = IZR X)%R) by (field; lra). assert (0 < p * p)%R by nra.
      set (t := (IZR X / (p * p))%R) in *. split; nra. }
    assert (HS : (1 / 2 <= S)%R).
    { apply sq_le; auto; [lra|]. rewrite SS. apply IZR_le in L. rewrite mult_IZR in L. fold Q in L.
      assert (E : (IZR X' * u * Q = IZR X')%R) by (unfold u; field; lra).
      apply Rmult_le_reg_r with Q; auto. lra. }
    assert (B1 : (p * S <= G)%R).
    { apply sq_le; auto; [nra|]. replace (p * S * (p * S))%R with (p * p * (S * S))%R by ring. rewrite SS, GG. nra. }
    assert (B2 : (G <= p * (S + u))%R).
    { apply sq_le; auto; [apply Rmult_le_pos; lra|]. replace (p * (S + u) * (p * (S + u)))%R with (p * p * (S * S + u * (2 * S + u)))%R by ring.
      rewrite SS, GG. apply Rle_trans with (((IZR X' + 1) * (p * p)) * u)%R; [apply Rmult_le_compat_r; lra|].
      replace ((IZR X' + 1) * (p * p) * u)%R with (p * p * (IZR X' * u + u))%R by ring.
      apply Rmult_le_compat_l; [nra|]. nra. }
    assert (C : (- (p * (S / 1000 + 145/100 * u)) <= IZR y * p * u - p * S <= p * (S / 1000 + 145/100 * u))%R) by (unfold Rdiv; split; nra).
    assert (PG : (p <= 2 * G)%R) by nra.
    assert (p * u <= 2 * G * u)%R by (apply Rmult_le_compat_r; lra).
    apply Rabs_le. lra.
Qed.

(** normalised arguments: no rescaling, and no need for the constant 4 *)
Section Norm.
Variables (m : mode) (f : fty).
Hypothesis W : fwf f.
Hypothesis F2 : 2 <= ffrac f.
Hypothesis W64 : fwidth f <= 64.
Notation q := (fone f).
Notation O := (fixed_ops m f).

Lemma norm_id : forall X fuel, q <= 4 * X -> X < q -> niirf_normalize O m (S fuel) (0, X) = Ok (0, X).
Proof.
  intros X fuel L U. unfold niirf_normalize. rewrite while_S. rewrite (quarter_bits m f W F2). cbn [bind fst snd].
  rewrite o_lt_spec. pose proof (q_quarter f F2). destruct (Z.ltb_spec X (2 ^ (ffrac f - 2))); [lia|]. cbn [bind].
  rewrite while_S. rewrite (one_bits m f W). cbn [bind fst snd]. rewrite o_le_spec. destruct (Z.leb_spec q X); [lia|]. reflexivity.
Qed.
Lemma denorm_id : forall y fuel, niirf_denormalize O m (S fuel) (0, y) = Ok (0, y).
Proof. intros. unfold niirf_denormalize. rewrite while_S. cbn [fst]. change (Z.abs 0) with 0. rewrite i32_small by lia. reflexivity. Qed.

Lemma fmin_neg : 0 < 2 ^ (fwidth f - 1). Proof. apply Z.pow_pos_nonneg; destruct W; lia. Qed.

Lemma niirf_norm : forall X it fuel, fsigned f = true -> q <= 4 * X -> X < q ->
  NI m f (S fuel) X it = Ok (ziter (it - 1) q (beta_bits f X) X (start f X)).
Proof.
  intros X it fuel S L U. pose proof (q_pos f W) as P. unfold NI, niirf. cbn [mixed_zero fixed_zero].
  rewrite fx_of_int_small by (auto; lia). cbn [bind].
  rewrite o_eq_spec. destruct (Z.eqb_spec X (0 * q)); [lia|]. 
  rewrite fixed_abs_spec; auto.
  - rewrite Z.abs_eq by lia. cbn [bind]. rewrite norm_id by auto. cbn [bind fst snd]. rewrite iterate_ok by auto. cbn [bind].
    rewrite denorm_id. reflexivity.
  - apply fv_small; auto. lia.
  - intros [_ E]. unfold fmin, imin in E. simpl in E. rewrite S in E. pose proof fmin_neg. lia.
Qed.
End Norm.

Lemma width64 : forall f, supported f = true -> fwidth f <= 64.
Proof. intros f S. apply supported_inv in S. lia. Qed.

Lemma sqrt_fixed_acc : forall m f, supported f = true -> fsigned f = true -> 2 <= ffrac f <= fwidth f - 4 ->
  forall it, (2 <= it)%N -> forall x, fvalid f x -> 0 <= x -> exists r,
  returns (fun fuel => NI m f fuel x it) r /\
  (Rabs (fval f r - sqrt (fval f x)) <= (/ 1000 + 5 * ulp f) * sqrt (fval f x) + 3 * ulp f)%R.
Proof.
  intros m f Sp Sg HF it Hit x V X0. pose proof (supported_fwf f Sp) as W. pose proof (width64 f Sp) as W64.
  destruct (Z.eq_dec x 0) as [->|Nz].
  - exists 0. split; [exists 0%nat; intros; apply niirf_zero; auto|].
    rewrite !fval_eq, ulp_eq by lia. unfold Rdiv. rewrite Rmult_0_l, sqrt_0, Rminus_0_r, Rabs_R0, Rmult_0_r.
    pose proof (fone_IZR_pos f ltac:(lia)). assert (0 < / IZR (fone f))%R by (apply Rinv_0_lt_compat; auto). lra.
  - assert (V4 : fvalid f (4 * fone f)).
    { apply fvalid_iff. rewrite Sg. pose proof (fone_pos f ltac:(lia)).
      assert (8 * fone f <= 2 ^ (fwidth f - 1)); [|lia].
      unfold fone. change 8 with (2 ^ 3). rewrite <- Z.pow_add_r by lia. apply Z.pow_le_mono_r; lia. }
    destruct (niirf_signed m f W ltac:(lia) V4 W64 x it Sg ltac:(lia) V) as [n [X' [N E]]].
    pose proof N as [_ [L [U _]]]. destruct (core f X' (it - 1) ltac:(lia) L U) as [Sm [A _]].
    eexists. split; [exists 101%nat; intros fuel Hf; apply E; lia|].
    eapply acc_scaled; eauto; try lia. apply A. lia.
Qed.

(** normalised range, as documented *)
Lemma quarter_range : forall f X, 0 <= ffrac f -> (/ 4 <= fval f X < 1)%R -> fone f <= 4 * X /\ X < fone f.
Proof.
  intros f X F H. rewrite fval_eq in H by auto. pose proof (fone_IZR_pos f F) as P.
  assert (E : (IZR X = IZR X / IZR (fone f) * IZR (fone f))%R) by (field; lra).
  set (t := (IZR X / IZR (fone f))%R) in *. split; [apply le_IZR; rewrite mult_IZR; nra | apply lt_IZR; nra].
Qed.
Lemma s_fval : forall f X, 0 <= ffrac f -> s (fone f) X = sqrt (fval f X).
Proof. intros f X F. unfold s. rewrite fval_eq by auto. reflexivity. Qed.

Lemma sqrt_fixed_norm : forall m f, supported f = true -> fsigned f = true -> 2 <= ffrac f ->
  forall it, (2 <= it)%N -> forall x, (/ 4 <= fval f x < 1)%R -> exists r,
  returns (fun fuel => NI m f fuel x it) r /\
  (Rabs (fval f r - sqrt (fval f x)) <= 703 / 1000000 + 145 / 100 * ulp f)%R /\
  ((3 <= it)%N -> (Rabs (fval f r - sqrt (fval f x)) <= 176 / 1000000 + 145 / 100 * ulp f)%R).
Proof.
  intros m f Sp Sg F2 it Hit x Hx. pose proof (supported_fwf f Sp) as W. 
  destruct (quarter_range f x ltac:(lia) Hx) as [L U].
  destruct (core f x (it - 1) F2 L U) as [Sm [A A2]]. set (y := ziter _ _ _ _ _) in *.
  exists y. split; [exists 1%nat; intros [|fuel] Hf; [lia|]; apply niirf_norm; auto|].
  rewrite <- s_fval by lia. rewrite fval_eq, ulp_eq by lia. split.
  - apply A. lia.
  - intros H3. apply A2. lia.
Qed.

(** the documented bound fails at x = 1/2 *)
Lemma half_err : forall t, (0 <= t)%R -> (t * t = 1 / 2)%R -> (err1 691406 t <= - 7 / 10000)%R.
Proof.
  intros t T0 T. unfold err1, e0i, bR. assert (Y : y0i t = (1 / 3 + 354167 / 1000000)%R) by (unfold y0i; rewrite T; lra). rewrite Y.
  assert (7071067 / 10000000 <= t)%R by (apply sq_le; lra).
  set (y := (1 / 3 + 354167 / 1000000)%R) in *. 
  replace ((y - t) * (1 - 691406 / 1000000 * (y + t)))%R with (y - t - 691406 / 1000000 * (y * y - t * t))%R by ring.
  rewrite T. unfold y. lra.
Qed.

Lemma sqrt_half_bad : forall m f, supported f = true -> fsigned f = true -> 13 <= ffrac f ->
  exists x r, (fval f x = 1 / 2)%R /\ returns (fun fuel => NI m f fuel x 2) r /\
  (5 / 10000 < Rabs (fval f r - sqrt (fval f x)))%R.
Proof.
  intros m f Sp Sg F. pose proof (supported_fwf f Sp) as W. pose proof (fone_IZR_pos f ltac:(lia)) as P.
  set (h := 2 ^ (ffrac f - 1)).
  assert (Qh : fone f = 2 * h). { unfold fone, h. rewrite <- Z.pow_succ_r by lia. f_equal. lia. }
  assert (h0 : 0 < h) by (apply Z.pow_pos_nonneg; lia).
  assert (Hv : (fval f h = 1 / 2)%R). { rewrite fval_eq by lia. rewrite Qh, mult_IZR in *. apply IZR_lt in h0. field. lra. }
  exists h, (ziter 1 (fone f) (beta_bits f h) h (start f h)). split; auto. split.
  { exists 1%nat; intros [|fuel] Hf; [lia|]. apply niirf_norm; auto; lia. }
  assert (Hq : 16 <= fone f). { unfold fone. change 16 with (2 ^ 4). apply Z.pow_le_mono_r; lia. }
  destruct (beta_region f h ltac:(lia) ltac:(lia) ltac:(lia)) as [k [be [I [K1 [K2 B]]]]].
  pose proof (region_of _ h k be Hq I K1 K2 ltac:(lia)) as R.
  assert (k = 8) by nia. subst k.
  assert (be = 691406). { clear - I. repeat (destruct I as [I|I]; [inversion I; auto|]). contradiction. }
  subst be.
  pose proof (start_real (fone f) Hq h ltac:(lia) _ (y0_real f ltac:(lia))) as St. fold (start f h) in St.
  rewrite <- s_fval by lia. rewrite fval_eq by lia. unfold ziter. change (N.iter 1 ?g ?x) with (g x).
  destruct (zstep_real (fone f) Hq h (beta_bits f h) ltac:(lia) 8 691406 R B (start f h)) as [rho [R1 R2]].
  unfold Rdiv at 2. rewrite R2.
  pose proof (u_pos (fone f) Hq) as U.
  assert (U13 : (/ IZR (fone f) <= / 8192)%R).
  { apply Rinv_le_contravar; [lra|]. apply IZR_le. unfold fone. change 8192 with (2 ^ 13). apply Z.pow_le_mono_r; lia. }
  destruct (niirf_first 8 691406 _ _ _ _ _ R St ltac:(lra) B ltac:(lra)) as [e [E1 [E2 _]]]. rewrite E1.
  assert (HE : (err1 691406 (s (fone f) h) <= - 7 / 10000)%R).
  { apply half_err; [apply sqrt_pos|]. rewrite s_sq by (auto; lia). rewrite fval_eq in Hv by lia. exact Hv. }
  apply Rabs_le_inv in E2, R1. rewrite Rabs_left; lra.
Qed.
