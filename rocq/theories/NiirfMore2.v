(** * The NIIRF square root on fixed-point types: convergence for every argument. *)

From Coq Require Import ZArith Reals Lia Lra Psatz List Bool.
From Flocq Require Import Core.Core IEEE754.BinarySingleNaN.
From Verif Require Import Base FloatBase Literals Traits Trig FixedPrim FixedImpl Spec
  Lemmas ScalarProofs ScalarProofs2 WrapProofs SqrtReal NiirfZ NiirfFixed NiirfFixed2 NiirfFixed3 NiirfFixed4 NiirfMore.
Import ListNotations.
Open Scope Z_scope.

(** error of the rescaled result *)
Lemma scaled_err : forall f X n X' y e, 0 <= ffrac f -> 0 < X -> normed f X n X' -> (0 <= e)%R ->
  (Rabs (IZR y * / IZR (fone f) - s (fone f) X') <= e * s (fone f) X' + 145 / 100 * / IZR (fone f))%R -> 
  (Rabs (fval f (scaled n y) - sqrt (fval f X)) <= (e + 5 * ulp f) * sqrt (fval f X) + 3 * ulp f)%R.
Proof.
  intros f X n X' y e F X0 [N [L [U D]]] Ep A.
  pose proof (fone_IZR_pos f F) as QP. pose proof (fone_pos f F) as QZ.
  rewrite !fval_eq, ulp_eq by auto. unfold s in A. unfold Rdiv in *.
  set (Q := IZR (fone f)) in *. assert (UP : (0 < / Q)%R) by (apply Rinv_0_lt_compat; auto). set (u := (/ Q)%R) in *.
  set (S := sqrt (IZR X' * u)) in *. set (G := sqrt (IZR X * u)).
  assert (X'0 : 0 < X') by lia.
  assert (XR : (0 < IZR X)%R) by (apply IZR_lt; auto). assert (XR' : (0 < IZR X')%R) by (apply IZR_lt; auto).
  assert (SS : (S * S = IZR X' * u)%R) by (apply sqrt_sqrt; apply Rmult_le_pos; lra).
  assert (GG : (G * G = IZR X * u)%R) by (apply sqrt_sqrt; apply Rmult_le_pos; lra).
  assert (S0 : (0 <= S)%R) by apply sqrt_pos. assert (G0 : (0 <= G)%R) by apply sqrt_pos.
  apply Rabs_le_inv in A.
  destruct D as [[N0 D]|[N0 D]].
  - (* small argument *)
    unfold scaled. destruct (Z.leb_spec 0 n); [lia|]. set (j := - n) in *.
    assert (PZ : 0 < 2 ^ j) by (apply Z.pow_pos_nonneg; lia). assert (P : (1 <= IZR (2 ^ j))%R) by (apply IZR_le; lia).
    pose proof (div_real y (2 ^ j) PZ) as DR. set (r := IZR (y / 2 ^ j)) in *.
    assert (SG : S = (IZR (2 ^ j) * G)%R).
    { apply Rsqr_inj; auto; [apply Rmult_le_pos; lra|]. unfold Rsqr. rewrite SS, D, mult_IZR, pow_IZR2 by lia.
      replace (IZR (2 ^ j) * G * (IZR (2 ^ j) * G))%R with (IZR (2 ^ j) * IZR (2 ^ j) * (G * G))%R by ring. rewrite GG. ring. }
    rewrite SG in A. set (p := IZR (2 ^ j)) in *. assert (P' : (0 < / p)%R) by (apply Rinv_0_lt_compat; lra).
    assert (P1 : (/ p <= 1)%R) by (rewrite <- Rinv_1; apply Rinv_le_contravar; lra).
    assert (E : (IZR y * u - p * G = p * (IZR y / p * u - G))%R) by (field; lra). rewrite E in A.
    assert (B : (- (e * G + 145 / 100 * u * / p) <= IZR y / p * u - G <= e * G + 145 / 100 * u * / p)%R).
    { assert (T : (145 / 100 * u * / p * p = 145 / 100 * u)%R) by (field; lra). set (t := (145/100 * u * / p)%R) in *.
      split; (apply Rmult_le_reg_l with p; [lra|]); unfold Rdiv in *; nra. }
    assert (T2 : (145 / 100 * u * / p <= 145 / 100 * u)%R) by nra.
    assert (R1 : (IZR y / p * u - u <= r * u <= IZR y / p * u)%R) by nra.
    assert (0 <= 5 * u * G)%R by (apply Rmult_le_pos; lra).
    apply Rabs_le. lra.
  - (* large argument *)
    unfold scaled. destruct (Z.leb_spec 0 n); [|lia]. rewrite mult_IZR.
    assert (PZ : 0 < 2 ^ n) by (apply Z.pow_pos_nonneg; lia). assert (P : (1 <= IZR (2 ^ n))%R) by (apply IZR_le; lia).
    assert (P4 : 0 < 4 ^ n) by (apply Z.pow_pos_nonneg; lia).
    pose proof (div_real X (4 ^ n) P4) as DR. rewrite <- D, pow_IZR2 in DR by auto. set (p := IZR (2 ^ n)) in *.
    assert (DR' : (IZR X' * (p * p) <= IZR X <= (IZR X' + 1) * (p * p))%R).
    { assert (E : (IZR X / (p * p) * (p * p) = IZR X)%R) by (field; lra). assert (0 < p * p)%R by nra.
      set (t := (IZR X / (p * p))%R) in *. split; nra. }
    assert (HS : (1 / 2 <= S)%R).
    { apply sq_le; auto; [lra|]. rewrite SS. apply IZR_le in L. rewrite mult_IZR in L. fold Q in L.
      assert (E : (IZR X' * u * Q = IZR X')%R) by (unfold u; field; lra).
      apply Rmult_le_reg_r with Q; auto. lra. }
    assert (B1 : (p * S <= G)%R).
    { apply sq_le; auto; [nra|]. replace (p * S * (p * S))%R with (p * p * (S * S))%R by ring. rewrite SS, GG. nra. }
    assert (B2 : (G <= p * (S + u))%R).
    { apply sq_le; auto; [apply Rmult_le_pos; lra|]. replace (p * (S + u) * (p * (S + u)))%R with (p * p * (S * S + u * (2 * S + u)))%R by ring.
      rewrite SS, GG. apply Rle_trans with (((IZR X' + 1) * (p * p)) * u)%R; [apply Rmult_le_compat_r; lra|].
      replace ((IZR X' + 1) * (p * p) * u)%R with (p * p * (IZR X' * u + u))%R by ring.
      apply Rmult_le_compat_l; [nra|]. nra. }
    assert (C : (- (p * (e * S + 145/100 * u)) <= IZR y * p * u - p * S <= p * (e * S + 145/100 * u))%R) by (unfold Rdiv; split; nra).
    assert (PG : (p <= 2 * G)%R) by nra.
    assert (p * u <= 2 * G * u)%R by (apply Rmult_le_compat_r; lra).
    assert (e * (p * S) <= e * G)%R by (apply Rmult_le_compat_l; lra).
    apply Rabs_le. lra.
Qed.

Lemma sqrt_converges_all : forall m f, supported f = true -> fsigned f = true -> 2 <= ffrac f <= fwidth f - 4 ->
  forall n x, fvalid f x -> 0 <= x -> exists r, returns (fun fuel => NI m f fuel x (N.of_nat (n + 2))) r /\
  (Rabs (fval f r - sqrt (fval f x)) <= (1406 / 1000000 * (/ 4) ^ n + 5 * ulp f) * sqrt (fval f x) + 3 * ulp f)%R.
Proof.
  intros m f Sp Sg F n x V X0. pose proof (supported_fwf f Sp) as W. pose proof (four_ok f Sp Sg ltac:(lia)) as V4.
  assert (P : (0 < (/ 4) ^ n)%R) by (apply pow_lt; lra).
  destruct (Z.eq_dec x 0) as [->|XN].
  { exists 0. split; [exists 0%nat; intros; apply niirf_zero; auto|]. rewrite !fval_eq, ulp_eq by lia. unfold Rdiv. rewrite Rmult_0_l, sqrt_0, Rminus_0_r, Rabs_R0, Rmult_0_r.
    pose proof (fone_IZR_pos f ltac:(lia)). assert (0 < / IZR (fone f))%R by (apply Rinv_0_lt_compat; auto). lra. }
  destruct (niirf_signed m f W ltac:(lia) V4 (width64 f Sp) x (N.of_nat (n + 2)) Sg ltac:(lia) V) as (k & X' & N & E).
  eexists. split; [exists 101%nat; intros; apply E; lia|].
  apply scaled_err with X'; [lia|lia|exact N|lra|].
  destruct N as [_ [L [U _]]]. replace (N.of_nat (n + 2) - 1)%N with (N.of_nat (S n)) by lia.
  assert (S0 : (0 <= s (fone f) X')%R) by apply sqrt_pos.
  destruct (Z_lt_le_dec (ffrac f) 4) as [F3|F4].
  - destruct (core_small f X' ltac:(lia) L U) as [E1 T]. rewrite ziter_fix by auto. pose proof (fone_pos f ltac:(lia)).
    destruct (acc_test_err (fone f) X' (start f X') ltac:(lia) ltac:(lia) T) as [B _].
    assert (0 < / IZR (fone f))%R by (apply Rinv_0_lt_compat; apply IZR_lt; auto). nra.
  - assert (Hq : 16 <= fone f). { unfold fone. change 16 with (2 ^ 4). apply Z.pow_le_mono_r; lia. }
    destruct (beta_region f X' F4 L U) as [j [be [I [K1 [K2 B]]]]].
    pose proof (region_of _ X' j be Hq I K1 K2 ltac:(lia)) as R.
    pose proof (start_real (fone f) Hq X' ltac:(lia) _ (y0_real f ltac:(lia))) as St. fold (start f X') in St.
    pose proof (ziter_conv (fone f) Hq X' _ ltac:(lia) j be R B _ St n) as C. pose proof (region_s _ _ _ R) as RS.
    eapply Rle_trans; [exact C|]. set (p := ((/ 4) ^ n)%R) in *. clearbody p. nra.
Qed.
