(** * Accuracy of the decibel conversions. *)

From Coq Require Import ZArith Reals Lia Lra Psatz.
From Flocq Require Import Core.Core Relative IEEE754.BinarySingleNaN.
From Verif Require Import Base FloatBase Traits FloatImpl FloatLemmas FloatKit FloatProofs MagProofs SpecDb.
Open Scope Z_scope.

Lemma ln_mono : forall a b, (0 < a -> a <= b -> ln a <= ln b)%R.
Proof. intros a b A [B| ->]; [left; apply ln_increasing; auto | right; auto]. Qed.
Lemma exp_mono : forall a b, (a <= b -> exp a <= exp b)%R.
Proof. intros a b [B| ->]; [left; apply exp_increasing; auto | right; auto]. Qed.
Lemma exp_double : forall a b, (0 <= b -> b <= exp a -> b * b <= exp (2 * a))%R.
Proof. intros a b B A. replace (2 * a)%R with (a + a)%R by ring. rewrite exp_plus. nra. Qed.
Lemma ln10_bounds : (2 <= ln 10 <= 24 / 10)%R.
Proof.
  split.
  - rewrite <- (ln_exp 2). apply ln_mono; [apply exp_pos|].
    replace 2%R with (1 + 1)%R by ring. rewrite exp_plus. pose proof exp_le_3. pose proof (exp_pos 1). nra.
  - rewrite <- (ln_exp (24 / 10)). apply ln_mono; [lra|].
    pose proof (exp_ineq1_le (24 / 640)) as E0.
    assert (E1 : (1037 / 1000 * (1037 / 1000) <= exp (24 / 320))%R) by (replace (24 / 320)%R with (2 * (24 / 640))%R by lra; apply exp_double; lra).
    assert (E2 : (1075 / 1000 * (1075 / 1000) <= exp (24 / 160))%R) by (replace (24 / 160)%R with (2 * (24 / 320))%R by lra; apply exp_double; lra).
    assert (E3 : (1155 / 1000 * (1155 / 1000) <= exp (24 / 80))%R) by (replace (24 / 80)%R with (2 * (24 / 160))%R by lra; apply exp_double; lra).
    assert (E4 : (1334 / 1000 * (1334 / 1000) <= exp (24 / 40))%R) by (replace (24 / 40)%R with (2 * (24 / 80))%R by lra; apply exp_double; lra).
    assert (E5 : (1779 / 1000 * (1779 / 1000) <= exp (24 / 20))%R) by (replace (24 / 20)%R with (2 * (24 / 40))%R by lra; apply exp_double; lra).
    assert (E6 : (3164 / 1000 * (3164 / 1000) <= exp (24 / 10))%R) by (replace (24 / 10)%R with (2 * (24 / 20))%R by lra; apply exp_double; lra).
    lra.
Qed.

Lemma pow10_pos : forall v, (0 < pow10 v)%R.
Proof. intros. apply exp_pos. Qed.
Lemma pow10_log10 : forall v, (0 < v -> pow10 (log10 v) = v)%R.
Proof. intros v V. unfold pow10, log10. pose proof ln10_bounds. rewrite <- (exp_ln v V) at 2. f_equal. field. lra. Qed.
Lemma log10_pow10 : forall v, log10 (pow10 v) = v.
Proof. intros v. unfold pow10, log10. pose proof ln10_bounds. rewrite ln_exp. field. lra. Qed.
Lemma pow10_plus : forall a b, pow10 (a + b) = (pow10 a * pow10 b)%R.
Proof. intros. unfold pow10. rewrite Rmult_plus_distr_r. apply exp_plus. Qed.
Lemma log10_mult : forall a b, (0 < a -> 0 < b -> log10 (a * b) = log10 a + log10 b)%R.
Proof. intros a b A B. unfold log10. rewrite ln_mult by auto. pose proof ln10_bounds. field. lra. Qed.

(** [10^a] near 1 for small [a] *)
Lemma pow10_small : forall a, (Rabs a <= / 20 -> Rabs (pow10 a - 1) <= 3 * Rabs a)%R.
Proof.
  intros a A. pose proof ln10_bounds as L. unfold pow10.
  assert (T : (Rabs (a * ln 10) <= 24 / 10 * Rabs a)%R) by (rewrite Rabs_mult, (Rabs_pos_eq (ln 10)) by lra; pose proof (Rabs_pos a); nra).
  set (t := (a * ln 10)%R) in *. pose proof (exp_ineq1_le t) as E1. pose proof (exp_ineq1_le (- t)) as E2.
  assert (E3 : (exp t * exp (- t) = 1)%R) by (rewrite <- exp_plus, Rplus_opp_r; apply exp_0).
  pose proof (exp_pos t). pose proof (exp_pos (- t)). set (b := Rabs a) in *.
  apply Rabs_le_inv in T. assert (B0 : (0 <= b)%R) by apply Rabs_pos.
  assert (U : (exp t * (1 - t) <= 1)%R) by nra.
  assert (U2 : (exp t * (1 - 24 / 10 * b) <= 1)%R) by nra.
  apply Rabs_le. split; [lra|].
  assert (K : (1 <= (1 + 3 * b) * (1 - 24 / 10 * b))%R) by nra.
  assert (K2 : (exp t * (1 - 24 / 10 * b) <= (1 + 3 * b) * (1 - 24 / 10 * b))%R) by lra.
  apply Rmult_le_reg_r in K2; lra.
Qed.
Lemma pow10_near : forall a b, (Rabs (a - b) <= / 20 -> Rabs (pow10 a - pow10 b) <= 3 * Rabs (a - b) * pow10 b)%R.
Proof.
  intros a b H. replace a with (b + (a - b))%R at 1 by ring. rewrite pow10_plus.
  replace (pow10 b * pow10 (a - b) - pow10 b)%R with (pow10 b * (pow10 (a - b) - 1))%R by ring.
  rewrite Rabs_mult, (Rabs_pos_eq (pow10 b)) by (left; apply pow10_pos).
  pose proof (pow10_small _ H). pose proof (pow10_pos b). nra.
Qed.
(** logarithms of neighbours *)
Lemma log10_near : forall v w d, (0 < w -> 0 <= d <= / 100 -> Rabs (v - w) <= d * w -> 0 < v /\ Rabs (log10 v - log10 w) <= 51 / 100 * d)%R.
Proof.
  intros v w d W D H. apply Rabs_le_inv in H. assert (V : (0 < v)%R) by nra. split; auto.
  pose proof ln10_bounds as L. unfold log10. replace (ln v / ln 10 - ln w / ln 10)%R with ((ln v - ln w) / ln 10)%R by (field; lra).
  assert (Q : (Rabs (ln v - ln w) <= 102 / 100 * d)%R).
  { replace (ln v - ln w)%R with (ln (v / w)).
    2:{ replace (ln v) with (ln (v / w * w)) by (f_equal; field; lra). rewrite ln_mult; [ring | apply Rdiv_lt_0_compat; auto | auto]. }
    assert (Hq : (1 - d <= v / w <= 1 + d)%R).
    { split; [apply Rmult_le_reg_r with w | apply Rmult_le_reg_r with w]; auto; unfold Rdiv; rewrite Rmult_assoc, Rinv_l by lra; lra. }
    apply Rabs_le. split.
    - rewrite <- (ln_exp (- (102 / 100 * d))). apply ln_mono; [apply exp_pos|].
      pose proof (exp_ineq1_le (102 / 100 * d)) as E. rewrite exp_Ropp. pose proof (exp_pos (102 / 100 * d)).
      apply Rmult_le_reg_r with (exp (102 / 100 * d)); auto. rewrite Rinv_l by lra.
      apply Rle_trans with ((1 - d) * (1 + 102 / 100 * d))%R; [nra|]. apply Rmult_le_compat; nra.
    - rewrite <- (ln_exp (102 / 100 * d)). apply ln_mono; [apply Rdiv_lt_0_compat; auto|].
      pose proof (exp_ineq1_le (102 / 100 * d)). lra. }
  unfold Rdiv at 1. rewrite Rabs_mult, Rabs_inv, (Rabs_pos_eq (ln 10)) by lra.
  apply Rmult_le_reg_r with (ln 10); [lra|]. rewrite Rmult_assoc, Rinv_l, Rmult_1_r by lra. nra.
Qed.

(** logarithms of powers of two *)
Lemma log10_bpow : forall k v, 0 <= k -> (bpow radix2 (- k) <= v <= bpow radix2 k -> Rabs (log10 v) <= IZR k)%R.
Proof.
  intros k v K [A B]. pose proof ln10_bounds as L. assert (V : (0 < v)%R) by (pose proof (bpow_gt_0 radix2 (- k)); lra).
  assert (LB : forall j, ln (bpow radix2 j) = (IZR j * ln 2)%R).
  { intros j. rewrite bpow_exp. change (IZR radix2) with 2%R. apply ln_exp. }
  apply ln_mono in A; [|apply bpow_gt_0]. apply ln_mono in B; auto. rewrite LB in A, B. rewrite opp_IZR in A.
  assert (L2 : (0 < ln 2 <= 1)%R).
  { split; [rewrite <- ln_1; apply ln_increasing; lra|]. rewrite <- (ln_exp 1). apply ln_mono; [lra|]. pose proof (exp_ineq1_le 1). lra. }
  apply IZR_le in K. unfold log10, Rdiv. rewrite Rabs_mult, Rabs_inv, (Rabs_pos_eq (ln 10)) by lra.
  apply Rmult_le_reg_r with (ln 10); [lra|]. rewrite Rmult_assoc, Rinv_l, Rmult_1_r by lra.
  apply Rabs_le. nra.
Qed.

Section Db.
Context {prec emax : Z} {Hp : Prec_gt_0 prec} {He : Prec_lt_emax prec emax}.
Notation float := (binary_float prec emax).
Notation fexp := (SpecFloat.fexp prec emax).
Notation rnd := (round radix2 fexp ZnearestE).
Hypothesis P24 : 24 <= prec.
Hypothesis E128 : 128 <= emax.
Hypothesis EP : prec + 20 <= emax.
Hypothesis EM : emax + prec <= 1100.
Notation u := (bpow radix2 (- prec)).
Notation eta := (bpow radix2 (2 - emax - prec)).
Let Vexp : Valid_exp fexp := fexp_correct prec emax _.

Lemma u_small : (0 < u <= / 10000000)%R.
Proof using P24.
  split; [apply bpow_gt_0|]. apply Rle_trans with (bpow radix2 (-24)); [apply bpow_le; lia|]. change (bpow radix2 (-24)) with (/ 16777216)%R. lra.
Qed.
Lemma eta_small : (0 < eta <= / 1000000 * u)%R.
Proof using E128.
  split; [apply bpow_gt_0|]. replace (2 - emax - prec) with ((2 - emax) + - prec) by ring. rewrite bpow_plus. pose proof (bpow_gt_0 radix2 (- prec)).
  apply Rmult_le_compat_r; [lra|]. apply Rle_trans with (bpow radix2 (-24)); [apply bpow_le; lia|]. change (bpow radix2 (-24)) with (/ 16777216)%R. lra.
Qed.
Lemma int_mul_rel : forall (c : Z) (l : float), (Rabs (rnd (IZR c * B2R l) - IZR c * B2R l) <= u * Rabs (IZR c * B2R l))%R.
Proof using Hp.
  intros c l. destruct (B2R_FIX l) as [k Ek].
  pose proof (relative_error_N_FLT_F2R_emin radix2 (3 - emax - prec) prec (prec_gt_0 prec) (fun x => negb (Z.even x)) (c * k)) as H. cbv zeta in H.
  replace (F2R (Float radix2 (c * k) (3 - emax - prec))) with (IZR c * B2R l)%R in H.
  2:{ unfold F2R. cbn [Fnum Fexp]. rewrite mult_IZR, Ek. unfold SpecFloat.emin. ring. }
  eapply Rle_trans; [exact H|]. apply Rmult_le_compat_r; [apply Rabs_pos|].
  replace (- prec + 1) with (1 + - prec) by ring. rewrite bpow_plus. change (bpow radix2 1) with 2%R. lra.
Qed.

(** every positive float has a moderate logarithm *)
Lemma log10_any : forall x : float, (0 < B2R x)%R -> (Rabs (log10 (B2R x)) <= 1100)%R.
Proof using E128 EM P24.
  intros x X. apply Rle_trans with (IZR (emax + prec)); [apply log10_bpow; [lia|] | apply IZR_le; lia].
  destruct (B2R_FIX x) as [k Ek]. split.
  - rewrite Ek in *. assert (K : 1 <= k).
    { apply Z.nlt_ge. intros Kn. assert (K0 : k <= 0) by lia. apply IZR_le in K0.
      pose proof (bpow_gt_0 radix2 (SpecFloat.emin prec emax)). nra. }
    apply IZR_le in K. apply Rle_trans with (bpow radix2 (SpecFloat.emin prec emax)).
    + apply bpow_le. unfold SpecFloat.emin. lia.
    + pose proof (bpow_gt_0 radix2 (SpecFloat.emin prec emax)). nra.
  - left. apply Rlt_le_trans with (bpow radix2 emax); [|apply bpow_le; lia].
    eapply Rle_lt_trans; [apply Rle_abs | apply abs_B2R_lt_emax].
Qed.

Variable c : Z.
Hypothesis C : 10 <= c <= 20.

(** value to decibels *)
Lemma to_db : forall (l : float) lam d, is_finite l = true -> (Rabs lam <= 1100 -> 0 <= d <= 1 -> Rabs (B2R l - lam) <= d * Rabs lam ->
  is_finite (Bmult mode_NE (float_of_Z prec emax c) l) = true /\
  Rabs (B2R (Bmult mode_NE (float_of_Z prec emax c) l) - IZR c * lam) <= (d + u + d * u) * (IZR c * Rabs lam))%R.
Proof using C E128 EP P24 Vexp.
  intros l lam d F LL D H. destruct (small_int P24 c) as [Vc Fc]; [lia|]. pose proof u_small as U.
  assert (C' : (10 <= IZR c <= 20)%R) by (split; apply IZR_le; lia). pose proof (Rabs_pos lam) as P0.
  assert (LB : (Rabs (B2R l) <= (1 + d) * Rabs lam)%R).
  { replace (B2R l) with ((B2R l - lam) + lam)%R by ring. eapply Rle_trans; [apply Rabs_triang|]. lra. }
  assert (CL : (Rabs (IZR c * B2R l) <= IZR c * ((1 + d) * Rabs lam))%R).
  { rewrite Rabs_mult, (Rabs_pos_eq (IZR c)) by lra. apply Rmult_le_compat_l; lra. }
  destruct (mult_r (float_of_Z prec emax c) l Fc F 20) as [FM VM]; [lia | |].
  { rewrite Vc. change (bpow radix2 20) with 1048576%R. assert (IZR c * ((1 + d) * Rabs lam) <= 20 * (2 * 1100))%R; [|lra].
    apply Rmult_le_compat; try lra; [apply Rmult_le_pos; lra | apply Rmult_le_compat; lra]. }
  split; auto. rewrite VM, Vc. pose proof (int_mul_rel c l) as E.
  replace (rnd (IZR c * B2R l) - IZR c * lam)%R with ((rnd (IZR c * B2R l) - IZR c * B2R l) + IZR c * (B2R l - lam))%R by ring.
  eapply Rle_trans; [apply Rabs_triang|]. rewrite (Rabs_mult (IZR c)), (Rabs_pos_eq (IZR c)) by lra.
  apply Rle_trans with (u * (IZR c * ((1 + d) * Rabs lam)) + IZR c * (d * Rabs lam))%R; [|right; ring].
  apply Rplus_le_compat; [|apply Rmult_le_compat_l; lra].
  eapply Rle_trans; [exact E|]. apply Rmult_le_compat_l; lra.
Qed.

(** decibels to value *)
Lemma div_db : forall x : float, is_finite x = true -> (Rabs (B2R x / IZR c) <= 4096)%R ->
  is_finite (Bdiv mode_NE x (float_of_Z prec emax c)) = true /\
  (Rabs (B2R (Bdiv mode_NE x (float_of_Z prec emax c)) - B2R x / IZR c) <= u * Rabs (B2R x / IZR c) + eta)%R.
Proof using C E128 EP P24 Vexp.
  intros x F B. destruct (small_int P24 c) as [Vc Fc]; [lia|].
  assert (C' : (10 <= IZR c <= 20)%R) by (split; apply IZR_le; lia).
  destruct (div_r x (float_of_Z prec emax c) F) with (e := 12) as [FD VD]; [rewrite Vc; lra | lia | rewrite Vc; exact B |].
  split; auto. rewrite VD, Vc. pose proof (rnd_rel (prec := prec) (emax := emax) (B2R x / IZR c)) as E.
  eapply Rle_trans; [exact E|]. apply Rplus_le_compat; [apply Rle_refl|].
  replace (3 - emax - prec) with (1 + (2 - emax - prec)) by ring. rewrite bpow_plus. change (bpow radix2 1) with 2%R. lra.
Qed.
Lemma pow10_range : forall v, (bpow radix2 (4 - emax) <= pow10 v <= bpow radix2 (emax - 2) -> Rabs v <= 1100)%R.
Proof using EM E128 P24.
  intros v [A B]. rewrite <- (log10_pow10 v). apply Rle_trans with (IZR emax); [apply log10_bpow; [lia|] | apply IZR_le; lia].
  split; [apply Rle_trans with (2 := A) | apply Rle_trans with (1 := B)]; apply bpow_le; lia.
Qed.
Lemma from_db : forall (E : MixedExp10 float) d (x : float), (0 <= d <= / 1000000)%R -> exp10_within d E -> is_finite x = true ->
  (bpow radix2 (4 - emax) <= pow10 (B2R x / IZR c) <= bpow radix2 (emax - 2))%R ->
  exists r, mixed_exp10 E (Bdiv mode_NE x (float_of_Z prec emax c)) = Ok r /\ is_finite r = true /\
    (Rabs (B2R r - pow10 (B2R x / IZR c)) <= (d + 31 / 10 * (u * Rabs (B2R x / IZR c) + eta)) * pow10 (B2R x / IZR c))%R.
Proof using C E128 EM EP P24 Vexp.
  intros E d x D HE F R. pose proof u_small as U. pose proof eta_small as Et.
  pose proof (pow10_range _ R) as VB. set (v := (B2R x / IZR c)%R) in *.
  destruct (div_db x F) as [FD ED]; [fold v; lra|]. fold v in ED. set (q := Bdiv mode_NE x _) in *.
  pose proof (pow10_pos v) as PV. pose proof (Rabs_pos v) as V0.
  set (g := (u * Rabs v + eta)%R) in *. assert (G : (0 <= g <= / 1000)%R).
  { unfold g. split; [apply Rplus_le_le_0_compat; [apply Rmult_le_pos; lra | lra]|].
    assert (u * Rabs v <= / 10000000 * 1100)%R by (apply Rmult_le_compat; lra). lra. }
  pose proof (pow10_near (B2R q) v ltac:(lra)) as N.
  assert (N' : (Rabs (pow10 (B2R q) - pow10 v) <= 3 * g * pow10 v)%R).
  { eapply Rle_trans; [exact N|]. apply Rmult_le_compat_r; lra. }
  assert (HR : (bpow radix2 (3 - emax) <= pow10 (B2R q) <= bpow radix2 (emax - 1))%R).
  { apply Rabs_le_inv in N'. assert (3 * g * pow10 v <= / 2 * pow10 v)%R by (apply Rmult_le_compat_r; lra).
    replace (3 - emax) with ((4 - emax) + -1) by ring. replace (emax - 1) with ((emax - 2) + 1) by ring. rewrite !bpow_plus.
    change (bpow radix2 1) with 2%R. change (bpow radix2 (-1)) with (/ 2)%R. lra. }
  destruct (HE q FD HR) as (r & Er & Fr & Ar). exists r. split; [exact Er|]. split; [exact Fr|].
  replace (B2R r - pow10 v)%R with ((B2R r - pow10 (B2R q)) + (pow10 (B2R q) - pow10 v))%R by ring.
  eapply Rle_trans; [apply Rabs_triang|].
  assert (PQ : (pow10 (B2R q) <= (1 + 3 * g) * pow10 v)%R) by (apply Rabs_le_inv in N'; lra).
  assert (d * pow10 (B2R q) <= d * ((1 + 3 * g) * pow10 v))%R by (apply Rmult_le_compat_l; lra).
  assert (d * (3 * g) <= / 1000000 * (3 * g))%R by (apply Rmult_le_compat_r; lra).
  replace (d * ((1 + 3 * g) * pow10 v))%R with ((d + d * (3 * g)) * pow10 v)%R in * by ring.
  assert ((d + d * (3 * g)) * pow10 v <= (d + / 10 * g) * pow10 v)%R by (apply Rmult_le_compat_r; lra).
  lra.
Qed.

(** there and back *)
Lemma db_round_trip : forall (E : MixedExp10 float) d (x l : float), (0 <= d <= / 1000000)%R -> exp10_within d E ->
  is_finite l = true -> (bpow radix2 (5 - emax) <= B2R x <= bpow radix2 (emax - 3))%R ->
  (Rabs (B2R l - log10 (B2R x)) <= d * Rabs (log10 (B2R x)))%R ->
  exists r, mixed_exp10 E (Bdiv mode_NE (Bmult mode_NE (float_of_Z prec emax c) l) (float_of_Z prec emax c)) = Ok r /\ is_finite r = true /\
    (Rabs (B2R r - B2R x) <= (101 / 100 * d + 32 / 10 * (d + 2 * u) * Rabs (log10 (B2R x)) + 4 * eta) * B2R x)%R.
Proof using C E128 EM EP P24 Vexp.
  intros E d x l D HE Fl R HL. pose proof u_small as U. pose proof eta_small as Et.
  assert (X : (0 < B2R x)%R) by (pose proof (bpow_gt_0 radix2 (5 - emax)); lra).
  pose proof (log10_any x X) as LB. set (lam := log10 (B2R x)) in *. pose proof (Rabs_pos lam) as L0.
  assert (C' : (10 <= IZR c <= 20)%R) by (split; apply IZR_le; lia).
  destruct (to_db l lam d Fl LB ltac:(lra) HL) as [FY AY]. set (y := Bmult mode_NE _ l) in *.
  set (v := (B2R y / IZR c)%R).
  assert (DU : (0 <= d * u <= / 10000000 * d)%R) by (split; [apply Rmult_le_pos | rewrite (Rmult_comm _ d); apply Rmult_le_compat_l]; lra).
  assert (AV : (Rabs (v - lam) <= (d + u + d * u) * Rabs lam)%R).
  { unfold v. replace (B2R y / IZR c - lam)%R with ((B2R y - IZR c * lam) / IZR c)%R by (field; lra).
    unfold Rdiv. rewrite Rabs_mult, Rabs_inv, (Rabs_pos_eq (IZR c)) by lra.
    apply Rmult_le_reg_r with (IZR c); [lra|]. rewrite Rmult_assoc, Rinv_l, Rmult_1_r by lra. eapply Rle_trans; [exact AY|]. right. ring. }
  set (a := ((d + u + d * u) * Rabs lam)%R) in *.
  assert (A0 : (0 <= a <= 13 / 10000)%R).
  { unfold a. split; [apply Rmult_le_pos; lra|]. apply Rle_trans with ((/ 1000000 + / 10000000 + / 10000000 * / 1000000) * 1100)%R; [apply Rmult_le_compat; lra | lra]. }
  pose proof (pow10_near v lam ltac:(lra)) as N. replace (pow10 lam) with (B2R x) in N by (symmetry; apply pow10_log10; auto).
  set (X0 := B2R x) in *.
  assert (N' : (Rabs (pow10 v - X0) <= 3 * a * X0)%R) by (eapply Rle_trans; [exact N|]; apply Rmult_le_compat_r; lra).
  assert (NS : (3 * a * X0 <= 4 / 1000 * X0)%R) by (apply Rmult_le_compat_r; lra).
  assert (RV : (bpow radix2 (4 - emax) <= pow10 v <= bpow radix2 (emax - 2))%R).
  { apply Rabs_le_inv in N'. replace (4 - emax) with ((5 - emax) + -1) by ring. replace (emax - 2) with ((emax - 3) + 1) by ring. rewrite !bpow_plus.
    change (bpow radix2 1) with 2%R. change (bpow radix2 (-1)) with (/ 2)%R. lra. }
  destruct (from_db E d y D HE FY RV) as (r & Er & Fr & Ar). fold v in Ar. exists r. split; [exact Er|]. split; [exact Fr|].
  assert (VL : (Rabs v <= 1002 / 1000 * Rabs lam)%R).
  { replace v with ((v - lam) + lam)%R by ring. eapply Rle_trans; [apply Rabs_triang|].
    assert (a <= 2 / 1000 * Rabs lam)%R by (unfold a; apply Rmult_le_compat_r; lra). lra. }
  assert (PV : (pow10 v <= 1004 / 1000 * X0)%R) by (apply Rabs_le_inv in N'; lra).
  pose proof (pow10_pos v) as PP.
  set (g := (u * Rabs v + eta)%R) in *.
  assert (G : (0 <= g <= u * (1002 / 1000 * Rabs lam) + eta)%R).
  { unfold g. pose proof (Rabs_pos v). split; [apply Rplus_le_le_0_compat; [apply Rmult_le_pos; lra | lra]|]. apply Rplus_le_compat_r, Rmult_le_compat_l; lra. }
  replace (B2R r - X0)%R with ((B2R r - pow10 v) + (pow10 v - X0))%R by ring.
  eapply Rle_trans; [apply Rabs_triang|].
  apply Rle_trans with ((d + 31 / 10 * g) * (1004 / 1000 * X0) + 3 * a * X0)%R.
  { apply Rplus_le_compat; [|exact N']. eapply Rle_trans; [exact Ar|]. apply Rmult_le_compat_l; lra. }
  replace ((d + 31 / 10 * g) * (1004 / 1000 * X0) + 3 * a * X0)%R with ((1004 / 1000 * (d + 31 / 10 * g) + 3 * a) * X0)%R by ring.
  apply Rmult_le_compat_r; [lra|].
  assert (a <= (10001 / 10000 * d + u) * Rabs lam)%R by (unfold a; apply Rmult_le_compat_r; lra).
  set (ul := (u * Rabs lam)%R). set (dl := (d * Rabs lam)%R).
  assert (0 <= ul)%R by (apply Rmult_le_pos; lra). assert (0 <= dl)%R by (apply Rmult_le_pos; lra).
  replace (32 / 10 * (d + 2 * u) * Rabs lam)%R with (32 / 10 * dl + 64 / 10 * ul)%R by (unfold dl, ul; lra).
  replace ((10001 / 10000 * d + u) * Rabs lam)%R with (10001 / 10000 * dl + ul)%R in * by (unfold dl, ul; lra).
  replace (u * (1002 / 1000 * Rabs lam))%R with (1002 / 1000 * ul)%R in * by (unfold ul; lra).
  lra.
Qed.

Lemma db_round_trip2 : forall (E : MixedExp10 float) (L : Mixedlog10 float) d (x : float), (0 <= d <= / 1000000)%R ->
  log10_within d L -> exp10_within d E -> is_finite x = true ->
  (bpow radix2 (4 - emax) <= pow10 (B2R x / IZR c) <= bpow radix2 (emax - 2))%R ->
  exists r l, mixed_exp10 E (Bdiv mode_NE x (float_of_Z prec emax c)) = Ok r /\ mixed_log10 L r = Ok l /\
    is_finite (Bmult mode_NE (float_of_Z prec emax c) l) = true /\
    (Rabs (B2R (Bmult mode_NE (float_of_Z prec emax c) l) - B2R x) <= IZR c * (6 / 10 * d + 16 / 10 * eta) + (11 / 10 * d + 27 / 10 * u) * Rabs (B2R x))%R.
Proof using C E128 EM EP P24 Vexp.
  intros E L d x D HL HE F R. pose proof u_small as U. pose proof eta_small as Et.
  destruct (from_db E d x D HE F R) as (r & Er & Fr & Ar). pose proof (pow10_range _ R) as VB.
  assert (C' : (10 <= IZR c <= 20)%R) by (split; apply IZR_le; lia).
  set (v := (B2R x / IZR c)%R) in *. pose proof (Rabs_pos v) as V0.
  assert (XV : (Rabs (B2R x) = IZR c * Rabs v)%R).
  { unfold v, Rdiv. rewrite Rabs_mult, Rabs_inv, (Rabs_pos_eq (IZR c)) by lra. field. lra. }
  set (D' := (d + 31 / 10 * (u * Rabs v + eta))%R) in *.
  assert (UV : (0 <= u * Rabs v <= 11 / 100000)%R).
  { split; [apply Rmult_le_pos; lra|]. apply Rle_trans with (/ 10000000 * 1100)%R; [apply Rmult_le_compat; lra | lra]. }
  destruct (log10_near (B2R r) (pow10 v) D') as [R0 LN]; [apply pow10_pos | unfold D'; lra | exact Ar |].
  rewrite log10_pow10 in LN. destruct (HL r Fr R0) as (l & El & Fl & Al). exists r, l. split; [exact Er|]. split; [exact El|].
  pose proof (log10_any r R0) as LB. destruct (to_db l _ d Fl LB ltac:(lra) Al) as [FY AY]. split; [exact FY|].
  set (y := Bmult mode_NE _ l) in *. set (lam := log10 (B2R r)) in *.
  replace (B2R y - B2R x)%R with ((B2R y - IZR c * lam) + IZR c * (lam - v))%R by (unfold v; field; lra).
  eapply Rle_trans; [apply Rabs_triang|]. rewrite (Rabs_mult (IZR c)), (Rabs_pos_eq (IZR c)) by lra. rewrite XV.
  assert (LV : (Rabs lam <= Rabs v + 51 / 100 * D')%R).
  { replace lam with (v + (lam - v))%R by ring. eapply Rle_trans; [apply Rabs_triang|]. lra. }
  assert (DU : (0 <= d * u <= / 10000000 * d)%R) by (split; [apply Rmult_le_pos | rewrite (Rmult_comm _ d); apply Rmult_le_compat_l]; lra).
  apply Rle_trans with (IZR c * ((d + u + d * u) * (Rabs v + 51 / 100 * D') + 51 / 100 * D'))%R.
  { rewrite Rmult_plus_distr_l. apply Rplus_le_compat; [|apply Rmult_le_compat_l; lra].
    eapply Rle_trans; [exact AY|]. replace (IZR c * ((d + u + d * u) * (Rabs v + 51 / 100 * D')))%R with ((d + u + d * u) * (IZR c * (Rabs v + 51 / 100 * D')))%R by ring.
    apply Rmult_le_compat_l; [lra|]. apply Rmult_le_compat_l; lra. }
  replace (IZR c * (6 / 10 * d + 16 / 10 * eta) + (11 / 10 * d + 27 / 10 * u) * (IZR c * Rabs v))%R with
    (IZR c * ((6 / 10 * d + 16 / 10 * eta) + (11 / 10 * d + 27 / 10 * u) * Rabs v))%R by ring.
  apply Rmult_le_compat_l; [lra|].
  assert (D0 : (0 <= D')%R) by (unfold D'; lra).
  assert (Q1 : ((d + u + d * u) * (51 / 100 * D') <= / 100000 * D')%R).
  { replace ((d + u + d * u) * (51 / 100 * D'))%R with ((51 / 100 * (d + u + d * u)) * D')%R by ring. apply Rmult_le_compat_r; lra. }
  assert (Q2 : ((d + u + d * u) * Rabs v <= (10001 / 10000 * d + u) * Rabs v)%R) by (apply Rmult_le_compat_r; lra).
  assert (0 <= d * Rabs v)%R by (apply Rmult_le_pos; lra).
  rewrite Rmult_plus_distr_l. unfold D' in *. lra.
Qed.

(** decibels of a product *)
Lemma db_product : forall (L : Mixedlog10 float) d (x y : float), (0 <= d <= / 1000000)%R -> log10_within d L ->
  is_finite x = true -> is_finite y = true -> (0 < B2R x -> 0 < B2R y -> bpow radix2 (3 - emax) <= B2R x * B2R y <= bpow radix2 (emax - 1) ->
  exists a b r, mixed_log10 L x = Ok a /\ mixed_log10 L y = Ok b /\ mixed_log10 L (Bmult mode_NE x y) = Ok r /\
    is_finite (Bmult mode_NE (float_of_Z prec emax c) r) = true /\
    Rabs (B2R (Bmult mode_NE (float_of_Z prec emax c) r) - (B2R (Bmult mode_NE (float_of_Z prec emax c) a) + B2R (Bmult mode_NE (float_of_Z prec emax c) b)))
      <= IZR c * (6 / 10 * u + 21 / 10 * (d + u) * (Rabs (log10 (B2R x)) + Rabs (log10 (B2R y)))))%R.
Proof using C E128 EM EP P24 Vexp.
  intros L d x y D HL Fx Fy X Y R. pose proof u_small as U.
  assert (C' : (10 <= IZR c <= 20)%R) by (split; apply IZR_le; lia).
  assert (P0 : (0 < B2R x * B2R y)%R) by (apply Rmult_lt_0_compat; auto).
  destruct (mult_r x y Fx Fy (emax - 1)) as [FM VM]; [lia | rewrite Rabs_pos_eq; lra |].
  assert (EP' : (Rabs (B2R (Bmult mode_NE x y) - B2R x * B2R y) <= u * (B2R x * B2R y))%R).
  { rewrite VM. pose proof (relative_error_N_FLT radix2 (3 - emax - prec) prec (prec_gt_0 prec) (fun x => negb (Z.even x)) (B2R x * B2R y)) as H.
    rewrite (Rabs_pos_eq (B2R x * B2R y)) in H by lra. eapply Rle_trans; [apply H|].
    - apply Rle_trans with (2 := proj1 R). apply bpow_le. lia.
    - apply Rmult_le_compat_r; [lra|]. replace (- prec + 1) with (1 + - prec) by ring. rewrite bpow_plus. change (bpow radix2 1) with 2%R. lra. }
  set (z := Bmult mode_NE x y) in *.
  destruct (log10_near (B2R z) (B2R x * B2R y) u) as [Z0 LN]; [auto | lra | exact EP' |].
  rewrite log10_mult in LN by auto.
  destruct (HL x Fx X) as (a & Ea & Fa & Aa). destruct (HL y Fy Y) as (b & Eb & Fb & Ab). destruct (HL z FM Z0) as (r & Er & Fr & Ar).
  exists a, b, r. split; [exact Ea|]. split; [exact Eb|]. split; [exact Er|].
  destruct (to_db a _ d Fa (log10_any x X) ltac:(lra) Aa) as [_ Ya]. destruct (to_db b _ d Fb (log10_any y Y) ltac:(lra) Ab) as [_ Yb].
  destruct (to_db r _ d Fr (log10_any z Z0) ltac:(lra) Ar) as [FR Yr]. split; [exact FR|].
  set (A := B2R (Bmult mode_NE _ a)) in *. set (B := B2R (Bmult mode_NE _ b)) in *. set (Q := B2R (Bmult mode_NE _ r)) in *.
  set (lx := log10 (B2R x)) in *. set (ly := log10 (B2R y)) in *. set (lz := log10 (B2R z)) in *.
  pose proof (Rabs_pos lx) as P1. pose proof (Rabs_pos ly) as P2.
  assert (LZ : (Rabs lz <= Rabs lx + Rabs ly + 51 / 100 * u)%R).
  { replace lz with ((lx + ly) + (lz - (lx + ly)))%R by ring. eapply Rle_trans; [apply Rabs_triang|]. pose proof (Rabs_triang lx ly). lra. }
  assert (DU : (0 <= d * u <= / 10000000 * d)%R) by (split; [apply Rmult_le_pos | rewrite (Rmult_comm _ d); apply Rmult_le_compat_l]; lra).
  set (h := (d + u + d * u)%R) in *. assert (H : (0 <= h <= 10001 / 10000 * (d + u) /\ h <= / 100000)%R) by (unfold h; lra).
  set (s := (Rabs lx + Rabs ly)%R) in *. assert (S0 : (0 <= s)%R) by (unfold s; lra).
  replace (Q - (A + B))%R with ((Q - IZR c * lz) + - (A - IZR c * lx) + - (B - IZR c * ly) + IZR c * (lz - (lx + ly)))%R by ring.
  eapply Rle_trans; [apply Rabs_triang|]. eapply Rle_trans; [apply Rplus_le_compat_r, Rabs_triang|].
  eapply Rle_trans; [apply Rplus_le_compat_r, Rplus_le_compat_r, Rabs_triang|].
  rewrite !Rabs_Ropp, (Rabs_mult (IZR c)), (Rabs_pos_eq (IZR c)) by lra.
  apply Rle_trans with (h * (IZR c * (s + 51 / 100 * u)) + h * (IZR c * Rabs lx) + h * (IZR c * Rabs ly) + IZR c * (51 / 100 * u))%R.
  { apply Rplus_le_compat; [|apply Rmult_le_compat_l; lra]. apply Rplus_le_compat; [|exact Yb]. apply Rplus_le_compat; [|exact Ya].
    eapply Rle_trans; [exact Yr|]. apply Rmult_le_compat_l; [lra|]. apply Rmult_le_compat_l; [lra|]. exact LZ. }
  replace (h * (IZR c * (s + 51 / 100 * u)) + h * (IZR c * Rabs lx) + h * (IZR c * Rabs ly) + IZR c * (51 / 100 * u))%R
    with (IZR c * (2 * h * s + (h * 51 / 100 + 51 / 100) * u))%R by (unfold s; field).
  apply Rmult_le_compat_l; [lra|].
  assert (2 * h * s <= 21 / 10 * (d + u) * s)%R by (apply Rmult_le_compat_r; lra).
  assert ((h * 51 / 100 + 51 / 100) * u <= 6 / 10 * u)%R by (apply Rmult_le_compat_r; lra). lra.
Qed.

(** order *)
Lemma to_db_rises : forall a b : float, is_finite a = true -> is_finite b = true -> (Rabs (B2R a) <= 4096 -> Rabs (B2R b) <= 4096 -> B2R a <= B2R b ->
  B2R (Bmult mode_NE (float_of_Z prec emax c) a) <= B2R (Bmult mode_NE (float_of_Z prec emax c) b))%R.
Proof using C E128 EP P24 Vexp.
  intros a b Fa Fb A B AB. destruct (small_int P24 c) as [Vc Fc]; [lia|].
  assert (C' : (10 <= IZR c <= 20)%R) by (split; apply IZR_le; lia).
  destruct (mult_r (float_of_Z prec emax c) a Fc Fa 20) as [_ VA]; [lia | |].
  { rewrite Vc, Rabs_mult, (Rabs_pos_eq (IZR c)) by lra. change (bpow radix2 20) with 1048576%R. pose proof (Rabs_pos (B2R a)). nra. }
  destruct (mult_r (float_of_Z prec emax c) b Fc Fb 20) as [_ VB]; [lia | |].
  { rewrite Vc, Rabs_mult, (Rabs_pos_eq (IZR c)) by lra. change (bpow radix2 20) with 1048576%R. pose proof (Rabs_pos (B2R b)). nra. }
  rewrite VA, VB, Vc. apply round_le; auto; [apply valid_rnd_N|]. apply Rmult_le_compat_l; lra.
Qed.
Lemma from_db_rises : forall a b : float, is_finite a = true -> is_finite b = true -> (B2R a <= B2R b)%R ->
  is_finite (Bdiv mode_NE a (float_of_Z prec emax c)) = true /\ is_finite (Bdiv mode_NE b (float_of_Z prec emax c)) = true /\
  (B2R (Bdiv mode_NE a (float_of_Z prec emax c)) <= B2R (Bdiv mode_NE b (float_of_Z prec emax c)))%R.
Proof using C E128 EP P24 Vexp.
  intros a b Fa Fb AB. destruct (small_int P24 c) as [Vc Fc]; [lia|].
  assert (C' : (10 <= IZR c <= 20)%R) by (split; apply IZR_le; lia).
  assert (K : forall a : float, (Rabs (B2R a / IZR c) <= bpow radix2 (emax - 1))%R).
  { intros q. unfold Rdiv. rewrite Rabs_mult, Rabs_inv, (Rabs_pos_eq (IZR c)) by lra.
    pose proof (abs_B2R_lt_emax prec emax q) as Q. replace emax with ((emax - 1) + 1) in Q at 2 by ring. rewrite bpow_plus in Q. change (bpow radix2 1) with 2%R in Q.
    apply Rmult_le_reg_r with (IZR c); [lra|]. rewrite Rmult_assoc, Rinv_l, Rmult_1_r by lra. pose proof (bpow_gt_0 radix2 (emax - 1)). nra. }
  assert (N0 : B2R (float_of_Z prec emax c) <> 0%R) by (rewrite Vc; lra).
  destruct (div_r a _ Fa N0 (emax - 1)) as [FA VA]; [lia | rewrite Vc; apply K |].
  destruct (div_r b _ Fb N0 (emax - 1)) as [FB VB]; [lia | rewrite Vc; apply K |].
  split; [exact FA|]. split; [exact FB|]. rewrite VA, VB, Vc. apply round_le; auto; [apply valid_rnd_N|].
  apply Rmult_le_compat_r; auto. left. apply Rinv_0_lt_compat. lra.
Qed.
(** zero *)
Lemma db_zero : Bmult mode_NE (float_of_Z prec emax c) (B754_infinity true) = B754_infinity true /\
  Bdiv mode_NE (B754_infinity true) (float_of_Z prec emax c) = B754_infinity true.
Proof using C P24.
  destruct (small_int P24 c) as [Vc Fc]; [lia|].
  assert (C' : (10 <= IZR c <= 20)%R) by (split; apply IZR_le; lia).
  destruct (finite_pos_shape _ Fc) as (m & e & B & S); [rewrite Vc; lra|]. rewrite S. split; reflexivity.
Qed.
End Db.

(** The API. *)
Section Api.
Context {p e : Z} {Hp : Prec_gt_0 p} {He : Prec_lt_emax p e}.
Notation float := (binary_float p e).
Hypothesis P24 : 24 <= p.
Hypothesis E128 : 128 <= e.
Hypothesis EP : p + 20 <= e.
Hypothesis EM : e + p <= 1100.
Notation u := (bpow radix2 (- p)).
Notation eta := (bpow radix2 (2 - e - p)).

Lemma decibel_shape : forall (L : Mixedlog10 float) E c up down, decibel L E c up down -> 10 <= c <= 20 /\
  (forall x, up x = bind (mixed_log10 L x) (fun l => Ok (Bmult mode_NE (float_of_Z p e c) l))) /\
  (forall x, down x = mixed_exp10 E (Bdiv mode_NE x (float_of_Z p e c))).
Proof. intros L E c up down [(-> & -> & ->)|(-> & -> & ->)]; (split; [lia|]; split; reflexivity). Qed.

Lemma db_accurate : forall (L : Mixedlog10 float) E c up down, decibel L E c up down -> forall d x, (0 <= d <= 1)%R -> log10_within d L ->
  is_finite x = true -> (0 < B2R x)%R -> exists r, up x = Ok r /\ is_finite r = true /\
  (Rabs (B2R r - IZR c * log10 (B2R x)) <= (d + u + d * u) * (IZR c * Rabs (log10 (B2R x))))%R.
Proof using P24 E128 EP EM.
  intros L E c up down DB d x D HL F X. destruct (decibel_shape _ _ _ _ _ DB) as (C & U & _).
  destruct (HL x F X) as (l & El & Fl & Al). destruct (to_db P24 E128 EP c C l _ d Fl (log10_any P24 E128 EM x X) D Al) as [A B].
  exists (Bmult mode_NE (float_of_Z p e c) l). rewrite U, El. cbn [bind]. auto.
Qed.
Lemma db_inverse_accurate : forall (L : Mixedlog10 float) E c up down, decibel L E c up down -> forall d x, (0 <= d <= / 1000000)%R -> exp10_within d E ->
  is_finite x = true -> (bpow radix2 (4 - e) <= pow10 (B2R x / IZR c) <= bpow radix2 (e - 2))%R -> exists r, down x = Ok r /\ is_finite r = true /\
  (Rabs (B2R r - pow10 (B2R x / IZR c)) <= (d + 31 / 10 * (u * Rabs (B2R x / IZR c) + eta)) * pow10 (B2R x / IZR c))%R.
Proof using P24 E128 EP EM.
  intros L E c up down DB d x D HE F X. destruct (decibel_shape _ _ _ _ _ DB) as (C & _ & U). rewrite U. apply from_db; auto.
Qed.
Lemma db_there_and_back : forall (L : Mixedlog10 float) E c up down, decibel L E c up down -> forall d x, (0 <= d <= / 1000000)%R -> 
  log10_within d L -> exp10_within d E -> is_finite x = true -> (bpow radix2 (5 - e) <= B2R x <= bpow radix2 (e - 3))%R ->
  exists r, bind (up x) down = Ok r /\ is_finite r = true /\
  (Rabs (B2R r - B2R x) <= (101 / 100 * d + 32 / 10 * (d + 2 * u) * Rabs (log10 (B2R x)) + 4 * eta) * B2R x)%R.
Proof using P24 E128 EP EM.
  intros L E c up down DB d x D HL HE F X. destruct (decibel_shape _ _ _ _ _ DB) as (C & U & V).
  assert (X0 : (0 < B2R x)%R) by (pose proof (bpow_gt_0 radix2 (5 - e)); lra).
  destruct (HL x F X0) as (l & El & Fl & Al). rewrite U, El. cbn [bind]. rewrite V. apply db_round_trip; auto.
Qed.
Lemma db_back_and_there : forall (L : Mixedlog10 float) E c up down, decibel L E c up down -> forall d x, (0 <= d <= / 1000000)%R -> 
  log10_within d L -> exp10_within d E -> is_finite x = true -> (bpow radix2 (4 - e) <= pow10 (B2R x / IZR c) <= bpow radix2 (e - 2))%R ->
  exists r, bind (down x) up = Ok r /\ is_finite r = true /\
  (Rabs (B2R r - B2R x) <= IZR c * (6 / 10 * d + 16 / 10 * eta) + (11 / 10 * d + 27 / 10 * u) * Rabs (B2R x))%R.
Proof using P24 E128 EP EM.
  intros L E c up down DB d x D HL HE F X. destruct (decibel_shape _ _ _ _ _ DB) as (C & U & V).
  destruct (db_round_trip2 P24 E128 EP EM c C E L d x D HL HE F X) as (r & l & Er & El & Fy & Ay).
  exists (Bmult mode_NE (float_of_Z p e c) l). rewrite V, Er. cbn [bind]. rewrite U, El. cbn [bind]. auto.
Qed.
Lemma db_of_product : forall (L : Mixedlog10 float) E c up down, decibel L E c up down -> forall d x y, (0 <= d <= / 1000000)%R -> log10_within d L ->
  is_finite x = true -> is_finite y = true -> (0 < B2R x -> 0 < B2R y -> bpow radix2 (3 - e) <= B2R x * B2R y <= bpow radix2 (e - 1) ->
  exists a b r, up x = Ok a /\ up y = Ok b /\ up (Bmult mode_NE x y) = Ok r /\ is_finite r = true /\
  Rabs (B2R r - (B2R a + B2R b)) <= IZR c * (6 / 10 * u + 21 / 10 * (d + u) * (Rabs (log10 (B2R x)) + Rabs (log10 (B2R y)))))%R.
Proof using P24 E128 EP EM.
  intros L E c up down DB d x y D HL Fx Fy X Y R. destruct (decibel_shape _ _ _ _ _ DB) as (C & U & _).
  destruct (db_product P24 E128 EP EM c C L d x y D HL Fx Fy X Y R) as (a & b & r & Ea & Eb & Er & H).
  do 3 eexists. rewrite !U, Ea, Eb, Er. cbn [bind]. do 3 (split; [reflexivity|]). exact H.
Qed.
Lemma db_keeps_order : forall (L : Mixedlog10 float) E c up down, decibel L E c up down ->
  (forall d x y, (0 <= d <= 1)%R -> log10_within d L -> log10_rises L -> is_finite x = true -> is_finite y = true -> (0 < B2R x <= B2R y)%R ->
    exists a b, up x = Ok a /\ up y = Ok b /\ (B2R a <= B2R b)%R) /\
  (forall x y, exp10_rises E -> is_finite x = true -> is_finite y = true -> (B2R x <= B2R y)%R ->
    exists a b, down x = Ok a /\ down y = Ok b /\ Bleb a b = true).
Proof using P24 E128 EP EM.
  intros L E c up down DB. destruct (decibel_shape _ _ _ _ _ DB) as (C & U & V). split.
  - intros d x y D HL RL Fx Fy XY. assert (Y : (0 < B2R y)%R) by lra.
    destruct (HL x Fx (proj1 XY)) as (a & Ea & Fa & Aa). destruct (HL y Fy Y) as (b & Eb & Fb & Ab).
    do 2 eexists. rewrite !U, Ea, Eb. cbn [bind]. do 2 (split; [reflexivity|]).
    assert (K : forall (l : float) lam, (Rabs lam <= 1100 -> Rabs (B2R l - lam) <= d * Rabs lam -> Rabs (B2R l) <= 4096)%R).
    { intros l lam A B. replace (B2R l) with ((B2R l - lam) + lam)%R by ring. eapply Rle_trans; [apply Rabs_triang|].
      pose proof (Rabs_pos lam). assert (d * Rabs lam <= 1 * Rabs lam)%R by (apply Rmult_le_compat_r; lra). lra. }
    apply to_db_rises; auto.
    + eapply K; [|exact Aa]. apply log10_any; auto. apply XY.
    + eapply K; [|exact Ab]. apply log10_any; auto.
    + apply (RL x y); auto.
  - intros x y RE Fx Fy XY. rewrite !V. destruct (from_db_rises P24 E128 EP c C x y Fx Fy XY) as (A & B & G). apply RE; auto.
Qed.
Lemma db_of_zero : forall (L : Mixedlog10 float) E c up down, decibel L E c up down -> forall s,
  (mixed_log10 L (B754_zero s) = Ok (B754_infinity true) -> up (B754_zero s) = Ok (B754_infinity true)) /\
  down (B754_infinity true) = mixed_exp10 E (B754_infinity true).
Proof using P24.
  intros L E c up down DB s. destruct (decibel_shape _ _ _ _ _ DB) as (C & U & V). destruct (db_zero P24 c C) as [A B]. split.
  - intros H. rewrite U, H. cbn [bind]. rewrite A. reflexivity.
  - rewrite V, B. reflexivity.
Qed.
End Api.

(** Correctly rounded routines meet every requirement. *)
Section Best.
Context {p e : Z} {Hp : Prec_gt_0 p} {He : Prec_lt_emax p e}.
Notation float := (binary_float p e).
Notation fexp := (SpecFloat.fexp p e).
Notation rnd := (round radix2 fexp ZnearestE).
Hypothesis P24 : 24 <= p.
Hypothesis E128 : 128 <= e.
Hypothesis EP : p + 20 <= e.
Hypothesis EM : e + p <= 1100.
Notation u := (bpow radix2 (- p)).
Let Vexp : Valid_exp fexp := fexp_correct p e _.

Lemma nearest_ok : forall v, if Rlt_bool (Rabs (rnd v)) (bpow radix2 e)
  then is_finite (nearest_float v : float) = true /\ B2R (nearest_float v : float) = rnd v
  else (nearest_float v : float) = B754_infinity (Rlt_bool (rnd v) 0).
Proof using Vexp.
  intros v. unfold nearest_float.
  pose proof (binary_normalize_correct p e Hp He mode_NE (ZnearestE (scaled_mantissa radix2 fexp v)) (cexp radix2 fexp v) false) as H. cbv zeta in H.
  change (round_mode mode_NE) with ZnearestE in H.
  change (F2R (Float radix2 (ZnearestE (scaled_mantissa radix2 fexp v)) (cexp radix2 fexp v))) with (rnd v) in H.
  rewrite (round_generic radix2 fexp ZnearestE (rnd v)) in H by (apply generic_format_round; [auto | apply valid_rnd_N]).
  destruct (Rlt_bool_spec (Rabs (rnd v)) (bpow radix2 e)) as [A|A]; [tauto|].
  apply B2SF_inj. rewrite H. destruct (Rlt_bool (rnd v) 0); reflexivity.
Qed.
Lemma normal_rel : forall v, (bpow radix2 (2 - e) <= Rabs v -> Rabs (rnd v - v) <= u * Rabs v)%R.
Proof using Vexp.
  intros v V. pose proof (relative_error_N_FLT radix2 (3 - e - p) p (prec_gt_0 p) (fun x => negb (Z.even x)) v) as H.
  eapply Rle_trans; [apply H|].
  - apply Rle_trans with (2 := V). apply bpow_le. lia.
  - apply Rmult_le_compat_r; [apply Rabs_pos|]. replace (- p + 1) with (1 + - p) by ring. rewrite bpow_plus. change (bpow radix2 1) with 2%R. lra.
Qed.
Lemma ln_below : forall y, (0 < y -> ln y <= y - 1)%R.
Proof. intros y Y. pose proof (exp_ineq1_le (ln y)) as E. rewrite exp_ln in E by auto. lra. Qed.
Lemma log10_away : forall x : float, (0 < B2R x)%R -> B2R x = 1%R \/ (bpow radix2 (- p - 3) <= Rabs (log10 (B2R x)))%R.
Proof using P24 EP Hp.
  intros x X. set (v := B2R x) in *. destruct (Req_dec v 1) as [V1|V1]; [auto|right].
  assert (S : forall w, (0 < w -> 3 * bpow radix2 (- p - 3) <= Rabs (ln w) -> bpow radix2 (- p - 3) <= Rabs (log10 w))%R).
  { intros w W Q. unfold log10, Rdiv. pose proof ln10_bounds as L. rewrite Rabs_mult, Rabs_inv, (Rabs_pos_eq (ln 10)) by lra.
    apply Rmult_le_reg_r with (ln 10); [lra|]. rewrite Rmult_assoc, Rinv_l, Rmult_1_r by lra. pose proof (bpow_gt_0 radix2 (- p - 3)). nra. }
  apply S; auto. clear S.
  assert (B : (bpow radix2 (- p) = 8 * bpow radix2 (- p - 3))%R).
  { replace (- p) with (3 + (- p - 3)) at 1 by ring. rewrite bpow_plus. change (bpow radix2 3) with 8%R. reflexivity. }
  assert (B4 : (bpow radix2 (- p) <= / 8)%R).
  { apply Rle_trans with (bpow radix2 (-3)); [apply bpow_le; lia|]. change (bpow radix2 (-3)) with (/ 8)%R. lra. }
  pose proof (bpow_gt_0 radix2 (- p - 3)) as B0. set (h := bpow radix2 (- p - 3)) in *.
  assert (LU : (ln v <= v - 1)%R) by (apply ln_below; auto).
  assert (LD : (1 - / v <= ln v)%R).
  { pose proof (ln_below (/ v) ltac:(apply Rinv_0_lt_compat; auto)) as Q. rewrite ln_Rinv in Q by auto. lra. }
  destruct (Rlt_or_le v (/ 2)) as [V2|V2].
  - rewrite Rabs_left1 by lra. lra.
  - assert (G : exists k, v = (IZR k * bpow radix2 (- p))%R).
    { pose proof (generic_format_B2R p e x) as G. fold v in G. unfold generic_format in G.
      set (M := Ztrunc _) in G. set (q := cexp _ _ _) in G.
      assert (Q : - p <= q).
      { unfold q, cexp, SpecFloat.fexp. assert (0 <= Raux.mag radix2 v); [|lia].
        apply mag_ge_bpow. change (bpow radix2 (0 - 1)) with (/ 2)%R. rewrite Rabs_pos_eq; lra. }
      exists (M * 2 ^ (q + p)). rewrite G at 1. unfold F2R. cbn [Fnum Fexp]. rewrite mult_IZR, (IZR_Zpower radix2) by lia.
      rewrite Rmult_assoc, <- bpow_plus. f_equal. f_equal. ring. }
    destruct G as [k K].
    assert (One : (1 = IZR (2 ^ p) * bpow radix2 (- p))%R).
    { rewrite (IZR_Zpower radix2) by lia. rewrite <- bpow_plus. replace (p + - p) with 0 by ring. reflexivity. }
    assert (N : k <> 2 ^ p) by (intros ->; apply V1; lra).
    destruct (Z_lt_le_dec k (2 ^ p)) as [T|T].
    + assert (T' : k + 1 <= 2 ^ p) by lia. apply IZR_le in T'. rewrite plus_IZR in T'.
      assert (v + bpow radix2 (- p) <= 1)%R by (rewrite K, One; pose proof (bpow_gt_0 radix2 (- p)); nra).
      rewrite Rabs_left1 by lra. lra.
    + assert (T' : 2 ^ p + 1 <= k) by lia. apply IZR_le in T'. rewrite plus_IZR in T'.
      assert (V3 : (1 + bpow radix2 (- p) <= v)%R) by (rewrite K, One; pose proof (bpow_gt_0 radix2 (- p)); nra).
      assert (IV : (3 * h <= 1 - / v)%R).
      { apply Rmult_le_reg_r with v; auto. rewrite Rmult_minus_distr_r, Rinv_l, Rmult_1_l by lra.
        destruct (Rle_or_lt v 2); [nra|]. assert (3 * h <= / 8)%R by lra. nra. }
      rewrite Rabs_pos_eq by lra. lra.
Qed.
Lemma best_log10_ok : log10_within u (best_log10 (p := p) (e := e)) /\ log10_rises (best_log10 (p := p) (e := e)).
Proof using EM EP E128 P24 Vexp.
  assert (K : forall x : float, is_finite x = true -> (0 < B2R x)%R ->
    is_finite (nearest_float (log10 (B2R x)) : float) = true /\ B2R (nearest_float (log10 (B2R x)) : float) = rnd (log10 (B2R x))).
  { intros x F X. pose proof (nearest_ok (log10 (B2R x))) as N. rewrite Rlt_bool_true in N; auto.
    apply (rnd_fits (log10 (B2R x)) 11); [|lia]. pose proof (log10_any P24 E128 EM x X). change (bpow radix2 11) with 2048%R. lra. }
  split.
  - intros x F X. destruct (K x F X) as [A B]. eexists. split; [reflexivity|]. split; [exact A|]. rewrite B.
    destruct (log10_away x X) as [Q|Q].
    + rewrite Q. unfold log10. rewrite ln_1. unfold Rdiv. rewrite Rmult_0_l, round_0 by apply valid_rnd_N. rewrite Rminus_0_r, Rabs_R0. lra.
    + apply normal_rel. apply Rle_trans with (2 := Q). apply bpow_le. lia.
  - intros x y a b Fx Fy XY Ea Eb. cbn in Ea, Eb. injection Ea as <-. injection Eb as <-.
    destruct (K x Fx ltac:(lra)) as [_ ->]. destruct (K y Fy ltac:(lra)) as [_ ->]. apply round_le; auto; [apply valid_rnd_N|].
    unfold log10. pose proof ln10_bounds. apply Rmult_le_compat_r; [left; apply Rinv_0_lt_compat; lra|]. apply ln_mono; lra.
Qed.
Lemma best_exp10_ok : exp10_within u (best_exp10 (p := p) (e := e)) /\ exp10_rises (best_exp10 (p := p) (e := e)).
Proof using EP E128 P24 Vexp.
  split.
  - intros x F X. pose proof (nearest_ok (pow10 (B2R x))) as N. pose proof (pow10_pos (B2R x)) as P0. rewrite Rlt_bool_true in N.
    2:{ apply (rnd_fits _ (e - 1)); [rewrite Rabs_pos_eq; lra | lia]. }
    destruct N as [A B]. eexists. split; [reflexivity|]. split; [exact A|]. rewrite B.
    rewrite <- (Rabs_pos_eq (pow10 (B2R x))) at 3 by lra. apply normal_rel. rewrite Rabs_pos_eq by lra. apply Rle_trans with (2 := proj1 X). apply bpow_le. lia.
  - intros x y Fx Fy XY. do 2 eexists. split; [reflexivity|]. split; [reflexivity|].
    assert (M : (rnd (pow10 (B2R x)) <= rnd (pow10 (B2R y)))%R).
    { apply round_le; auto; [apply valid_rnd_N|]. unfold pow10. apply exp_mono. pose proof ln10_bounds. apply Rmult_le_compat_r; lra. }
    assert (Z0 : (0 <= rnd (pow10 (B2R x)))%R).
    { rewrite <- (round_0 radix2 fexp ZnearestE). apply round_le; auto; [apply valid_rnd_N|]. left. apply pow10_pos. }
    pose proof (nearest_ok (pow10 (B2R x))) as NX. pose proof (nearest_ok (pow10 (B2R y))) as NY.
    rewrite Rabs_pos_eq, (Rlt_bool_false (rnd (pow10 (B2R x))) 0) in NX by lra. rewrite Rabs_pos_eq, (Rlt_bool_false (rnd (pow10 (B2R y))) 0) in NY by lra.
    destruct (Rlt_bool_spec (rnd (pow10 (B2R y))) (bpow radix2 e)) as [A|A].
    + rewrite Rlt_bool_true in NX by lra. destruct NX as [FX VX], NY as [FY VY]. rewrite Bleb_correct by auto. apply Rle_bool_true. lra.
    + rewrite NY. destruct (Rlt_bool_spec (rnd (pow10 (B2R x))) (bpow radix2 e)) as [B|B].
      * destruct NX as [FX _]. destruct (nearest_float (pow10 (B2R x)) : float) as [[]|[]| |[] ? ? ?]; try discriminate; reflexivity.
      * rewrite NX. reflexivity.
Qed.
End Best.
