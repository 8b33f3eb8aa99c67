(** * Accuracy of conversions to and from polar form on floats (proofs for C86, C87). *)

From Coq Require Import ZArith Reals Lia Lra Psatz List Bool.
From Flocq Require Import Core.Core IEEE754.BinarySingleNaN.
From Flocq Require Import Relative.
From Verif Require Import Base FloatBase Literals Traits Trig FixedPrim FloatImpl Complex Spec SpecAngle SpecFloatPolar
  Lemmas FloatLemmas FloatKit FloatWrap FloatWrap2 WrapProofs2 SinReal AtanReal MagProofs PolarProofs FloatArith.
Open Scope Z_scope.

Section FP.
Context {prec emax : Z} {Hp : Prec_gt_0 prec} {He : Prec_lt_emax prec emax}.
Notation float := (binary_float prec emax).
Notation rnd := (round radix2 (SpecFloat.fexp prec emax) ZnearestE).
Notation u := (bpow radix2 (- prec)).
Notation eta := (bpow radix2 (3 - emax - prec)).
Hypothesis P24 : 24 <= prec.
Hypothesis E4 : prec + 40 < emax.
Variables pf tau : float.
Hypothesis Hpi : float_of_float prec emax lit_pi = pf.
Hypothesis Htau : Bmult mode_NE (float_of_Z prec emax 2) pf = tau.
Hypothesis Fpf : is_finite pf = true.
Hypothesis Ftau : is_finite tau = true.
Hypothesis Vpf : (3 <= B2R pf <= 22 / 7)%R.
Hypothesis Vtau : (B2R tau = 2 * B2R pf)%R.
Hypothesis Vpi : (Rabs (B2R pf - PI) <= 3 / 2 * u)%R.

Lemma scaled_err : forall (g c : float) t w d, is_finite g = true -> is_finite c = true -> (Rabs t <= 1)%R -> (0 <= d <= 1)%R ->
  (Rabs (B2R g) <= bpow radix2 (emax - 2))%R -> (Rabs (B2R c - t) <= d)%R -> forall v, (Rabs (t - v) <= w)%R ->
  is_finite (Bmult mode_NE g c) = true /\
  (Rabs (B2R (Bmult mode_NE g c) - B2R g * v) <= Rabs (B2R g) * (d + w + u * (1 + d)) + eta)%R.
Proof using P24 E4.
  intros g c t w d Fg Fc T D G C v V. pose proof (Rabs_pos (B2R g)) as G0. pose proof (bpow_gt_0 radix2 (3 - emax - prec)) as H0.
  assert (C1 : (Rabs (B2R c) <= 1 + d)%R). { replace (B2R c) with ((B2R c - t) + t)%R by ring. eapply Rle_trans; [apply Rabs_triang|]. lra. }
  assert (M : (Rabs (B2R g * B2R c) <= Rabs (B2R g) * (1 + d))%R) by (rewrite Rabs_mult; apply Rmult_le_compat_l; auto).
  destruct (mult_r g c Fg Fc (emax - 1)) as [Fm Vm].
  { lia. }
  { eapply Rle_trans; [exact M|]. replace (emax - 1) with ((emax - 2) + 1) by ring. rewrite bpow_plus. change (bpow radix2 1) with 2%R. 
    apply Rmult_le_compat; lra. }
  split; auto. rewrite Vm. pose proof (rnd_rel (prec := prec) (emax := emax) (B2R g * B2R c)) as R.
  pose proof (bpow_gt_0 radix2 (- prec)) as U0.
  replace (rnd (B2R g * B2R c) - B2R g * v)%R with ((rnd (B2R g * B2R c) - B2R g * B2R c) + (B2R g * (B2R c - t) + B2R g * (t - v)))%R by ring.
  eapply Rle_trans; [apply Rabs_triang|]. assert (X : (Rabs (B2R g * (B2R c - t) + B2R g * (t - v)) <= Rabs (B2R g) * d + Rabs (B2R g) * w)%R).
  { eapply Rle_trans; [apply Rabs_triang|]. rewrite !Rabs_mult. apply Rplus_le_compat; apply Rmult_le_compat_l; auto. }
  apply (Rmult_le_compat_l u) in M; [|lra]. lra.
Qed.

Definition tc (Sn : MixedSin float) (q : Polar float) (fuel : nat) : res (Cartesian float) := polar_to_cartesian float_ops (float_wrap_phase fuel) Sn q.
Lemma tc_float : forall Sn d, accurate_sincos_float 4 d Sn -> (0 <= d <= 1)%R -> forall q : Polar float,
  is_finite (mag q) = true -> is_finite (ang q) = true -> (Rabs (B2R (mag q)) <= bpow radix2 (emax - 2))%R -> (Rabs (B2R (ang q)) < bpow radix2 prec)%R ->
  exists z, returns (tc Sn q) z /\ cfin z /\
  let g := B2R (mag q) in let a := B2R (ang q) in
  (let B := Rabs g * (d + (a * a / 3 + Rabs a) * u + u * (1 + d)) + eta in
   Rabs (B2R (re z) - g * Rtrigo_def.cos a) <= B /\ Rabs (B2R (im z) - g * Rtrigo_def.sin a) <= B)%R /\
  ((Rabs a <= 4 * B2R pf)%R -> let B := Rabs g * (d + Rabs a * u + u * (1 + d)) + eta in
   Rabs (B2R (re z) - g * Rtrigo_def.cos a) <= B /\ Rabs (B2R (im z) - g * Rtrigo_def.sin a) <= B)%R.
Proof using All.
  intros Sn d AS D q Fm Fa G L. assert (P5 : 5 <= prec) by lia. assert (E4' : prec + 4 < emax) by lia.
  destruct (wrap_pi P5 E4' pf tau Hpi Htau Fpf Ftau Vpf Vtau Vpi (ang q) Fa L) as (r & k & [n0 R] & Fr & Rr & K & _ & W1 & W2).
  destruct (AS r Fr ltac:(apply Rabs_le; lra)) as (s & c & E & Fs & Fc & Es & Ec).
  pose proof (bpow_gt_0 radix2 (- prec)) as U0.
  exists (mkC (Bmult mode_NE (mag q) c) (Bmult mode_NE (mag q) s)). cbv zeta. cbn [re im].
  split. { exists n0. intros n Hn. unfold tc, polar_to_cartesian, ops_to_cartesian. rewrite (R n Hn). cbn [bind]. rewrite E. reflexivity. }
  set (g := B2R (mag q)) in *. set (a := B2R (ang q)) in *.
  assert (Q : forall w, (Rabs (B2R r - (a - IZR k * (2 * PI))) <= w)%R ->
    (is_finite (Bmult mode_NE (mag q) c) = true /\ (Rabs (B2R (Bmult mode_NE (mag q) c) - g * Rtrigo_def.cos a) <= Rabs g * (d + w + u * (1 + d)) + eta)%R) /\
    (is_finite (Bmult mode_NE (mag q) s) = true /\ (Rabs (B2R (Bmult mode_NE (mag q) s) - g * Rtrigo_def.sin a) <= Rabs g * (d + w + u * (1 + d)) + eta)%R)).
  { intros w H. destruct (trig_err a (B2R r) k w) as [Ts Tc]. { replace (B2R r + 2 * IZR k * PI - a)%R with (B2R r - (a - IZR k * (2 * PI)))%R by ring. auto. }
    split; [apply (scaled_err (mag q) c (Rtrigo_def.cos (B2R r)) w d); auto; apply abs_cos | apply (scaled_err (mag q) s (Rtrigo_def.sin (B2R r)) w d); auto; apply abs_sin]. }
  destruct (Q _ W2) as [[F1 A1] [F2 A2]]. split; [split; auto|]. split; [auto|]. intros H. specialize (W1 H).
  destruct (Q (Rabs a * u)%R) as [[_ A3] [_ A4]]; [|auto]. eapply Rle_trans; [exact W1|].
  replace (Rabs a * u)%R with (Rabs a / 3 * (3 * u))%R by field. apply Rmult_le_compat_r; lra.
Qed.

Lemma angle_polar : forall x y th, is_angle y x th -> let n := (x * x + y * y)%R in (0 < n /\ x = sqrt n * Rtrigo_def.cos th /\ y = sqrt n * Rtrigo_def.sin th)%R.
Proof.
  intros x y th [_ [rho [R [X Y]]]] n. assert (N : n = (rho * rho)%R).
  { unfold n. rewrite X, Y. pose proof (sin2_cos2 th) as S. unfold Rsqr in S.
    replace (rho * Rtrigo_def.cos th * (rho * Rtrigo_def.cos th) + rho * Rtrigo_def.sin th * (rho * Rtrigo_def.sin th))%R with (rho * rho * (Rtrigo_def.sin th * Rtrigo_def.sin th + Rtrigo_def.cos th * Rtrigo_def.cos th))%R by ring. rewrite S. ring. }
  rewrite N, sqrt_square by lra. split; [nra|auto].
Qed.

Lemma roundtrip_float : forall m Sn ds libm_sqrt A da, accurate_sincos_float 4 ds Sn -> (0 <= ds <= / 4)%R -> (forall x, libm_sqrt x = Bsqrt mode_NE x) ->
  accurate_atan2_float da A -> (da <= / 4)%R ->
  forall (z : Cartesian float) k, cfin z -> 2 * k + 3 < emax ->
  let M := Rmax (Rabs (B2R (re z))) (Rabs (B2R (im z))) in
  (bpow radix2 (13 - emax) <= M * M)%R -> (M <= bpow radix2 k)%R ->
  exists w, returns (fun fuel => q <- cartesian_to_polar float_ops (float_sqrt m libm_sqrt fuel) float_powi A z ;; tc Sn q fuel) w /\ cfin w /\
  let n := (B2R (re z) * B2R (re z) + B2R (im z) * B2R (im z))%R in
  (Rabs (B2R (re w) - B2R (re z)) <= (da + 101 / 100 * ds + 9 * u) * sqrt n)%R /\ (Rabs (B2R (im w) - B2R (im z)) <= (da + 101 / 100 * ds + 9 * u) * sqrt n)%R.
Proof using All.
  intros m Sn ds sq A da AS D SQ AA DA z k [Fx Fy] K M L U. cbv zeta.
  set (x := B2R (re z)) in *. set (y := B2R (im z)) in *. set (n := (x * x + y * y)%R).
  pose proof (bpow_gt_0 radix2 (13 - emax)) as B13. pose proof (ep_small P24) as EP.
  assert (NZ : x <> 0%R \/ y <> 0%R).
  { destruct (Req_dec x 0) as [X|X]; auto. destruct (Req_dec y 0) as [Y|Y]; auto. exfalso. unfold M in L. rewrite X, Y, Rabs_R0, Rmax_left in L; lra. }
  pose proof (angle_spec x y NZ) as AN. set (th := angle y x) in *.
  destruct (angle_polar x y th AN) as (N0 & Ex & Ey). fold n in N0, Ex, Ey. set (rho := sqrt n) in *.
  destruct (AA (im z) (re z) th Fy Fx AN) as (an & Ea & Fan & Van0).
  assert (TW : exists t, (- PI <= t <= PI)%R /\ Rtrigo_def.cos t = Rtrigo_def.cos th /\ Rtrigo_def.sin t = Rtrigo_def.sin th /\ (Rabs (B2R an - t) <= da)%R).
  { destruct AN as [TH0 _]. pose proof PI_RGT_0. destruct Van0 as [V|(_ & -> & V)]; [exists th; repeat split; auto; lra|].
    exists (- PI)%R. rewrite cos_neg, sin_neg, sin_PI. split; [lra|]. split; [reflexivity|]. split; [lra|]. replace (B2R an - - PI)%R with (B2R an + PI)%R by ring. exact V. }
  destruct TW as (t & TH & Tc & Ts & Van). rewrite <- Tc in Ex. rewrite <- Ts in Ey. clear Tc Ts AN Van0. clearbody th. clear th. rename t into th.
  assert (R0 : (0 < rho)%R) by (apply sqrt_lt_R0; auto).
  assert (MP : (0 <= M)%R) by (unfold M; eapply Rle_trans; [apply (Rabs_pos x)|apply Rmax_l]).
  assert (SA : (x * x = Rabs x * Rabs x)%R) by (rewrite <- Rabs_mult, Rabs_right; [auto | apply Rle_ge, Rle_0_sqr]).
  assert (SB : (y * y = Rabs y * Rabs y)%R) by (rewrite <- Rabs_mult, Rabs_right; [auto | apply Rle_ge, Rle_0_sqr]).
  assert (MN : (M * M <= n <= 2 * (M * M))%R).
  { pose proof (Rle_0_sqr x) as X0. pose proof (Rle_0_sqr y) as Y0. unfold Rsqr in X0, Y0. pose proof (Rabs_pos x). pose proof (Rabs_pos y).
    unfold n, M. destruct (Rle_dec (Rabs x) (Rabs y)); [rewrite Rmax_right by auto | rewrite Rmax_left by lra]; split; try lra.
    - assert (Rabs x * Rabs x <= Rabs y * Rabs y)%R by (apply Rmult_le_compat; auto). lra.
    - assert (Rabs y * Rabs y <= Rabs x * Rabs x)%R by (apply Rmult_le_compat; lra). lra. }
  assert (KL : 13 - emax <= 2 * k). { apply (le_bpow radix2). replace (2 * k) with (k + k) by ring. rewrite bpow_plus. eapply Rle_trans; [exact L|]. apply Rmult_le_compat; auto. }
  assert (E40 : 40 <= emax) by lia. assert (K1 : 2 * k + 1 < emax) by lia.
  destruct (float_mag_acc P24 E40 m 0%nat z sq SQ k K1 Fx Fy L U) as (mg & Em & Fmg & Am).
  fold x y n rho in Am. 
  assert (RK : (rho <= bpow radix2 (k + 1))%R).
  { apply Rsqr_incr_0_var; [|apply Rlt_le, bpow_gt_0]. unfold Rsqr, rho. rewrite sqrt_sqrt by lra. rewrite bpow_plus. change (bpow radix2 1) with 2%R.
    assert (M * M <= bpow radix2 k * bpow radix2 k)%R by (apply Rmult_le_compat; auto). lra. }
  assert (ER : (0 <= u * rho <= / 1000000 * rho)%R) by (split; [apply Rmult_le_pos | apply Rmult_le_compat_r]; lra).
  assert (MG : (Rabs (B2R mg) <= (1 + / 1000) * rho)%R).
  { replace (B2R mg) with ((B2R mg - rho) + rho)%R by ring. eapply Rle_trans; [apply Rabs_triang|]. rewrite (Rabs_pos_eq rho) by lra. lra. }
  assert (MB : (Rabs (B2R mg) <= bpow radix2 (emax - 2))%R).
  { eapply Rle_trans; [exact MG|]. apply Rle_trans with (bpow radix2 ((k + 1) + 1)); [rewrite bpow_plus; change (bpow radix2 1) with 2%R; lra|apply bpow_le; lia]. }
  pose proof pi_bounds as PB. apply Rabs_le_inv in Van.
  assert (A4 : (Rabs (B2R an) <= 7 / 2)%R) by (apply Rabs_le; lra).
  destruct (tc_float Sn ds AS ltac:(lra) (mkP mg an) Fmg Fan MB) as (w & [n0 Rw] & Fw & _ & H).
  { cbn [ang]. eapply Rle_lt_trans; [exact A4|]. apply Rlt_le_trans with (bpow radix2 3); [change (bpow radix2 3) with 8%R; lra|apply bpow_le; lia]. }
  cbn [ang Complex.mag] in H. cbv zeta in H. destruct (H ltac:(lra)) as [H1 H2]. clear H.
  exists w. split; [|split; [exact Fw|]].
  { exists n0. intros fuel Hf. unfold cartesian_to_polar, ops_to_polar. change (ops_abs float_ops (float_sqrt m sq fuel) float_powi z) with (float_mag m sq fuel z).
    rewrite float_mag_eq in Em |- *. rewrite Em. cbn [bind]. rewrite Ea. cbn [bind]. apply Rw. exact Hf. }
  assert (TH2 : (eta <= / 1000 * (u * rho))%R).
  { assert (T1 : (bpow radix2 (13 - emax) <= rho)%R).
    { apply Rsqr_incr_0_var; [|lra]. unfold Rsqr, rho. rewrite sqrt_sqrt by lra. apply Rle_trans with (M * M)%R; [|lra]. eapply Rle_trans; [|exact L].
      rewrite <- bpow_plus. apply bpow_le. lia. }
    replace (3 - emax - prec) with (- prec + ((13 - emax) + -10)) by ring. rewrite !bpow_plus. change (bpow radix2 (-10)) with (/ 1024)%R.
    rewrite (Rmult_comm (/ 1000)), Rmult_assoc. apply Rmult_le_compat_l; lra. }
  set (B := (Rabs (B2R mg) * (ds + Rabs (B2R an) * u + u * (1 + ds)) + eta)%R) in *.
  assert (UD : (0 <= ds * u <= / 4 * u)%R) by (split; [apply Rmult_le_pos | apply Rmult_le_compat_r]; lra).
  assert (AU : (Rabs (B2R an) * u <= 7 / 2 * u)%R) by (apply Rmult_le_compat_r; lra).
  assert (BB : (B <= 101 / 100 * ds * rho + 6 * (u * rho))%R).
  { unfold B. assert (Q : (ds + Rabs (B2R an) * u + u * (1 + ds) <= ds + 19 / 4 * u)%R) by lra.
    assert (Q0 : (0 <= ds + 19 / 4 * u)%R) by lra.
    assert (Q1 : (Rabs (B2R mg) * (ds + Rabs (B2R an) * u + u * (1 + ds)) <= (1 + / 1000) * rho * (ds + 19 / 4 * u))%R).
    { apply Rmult_le_compat; auto using Rabs_pos. pose proof (Rabs_pos (B2R an)). assert (0 <= Rabs (B2R an) * u)%R by (apply Rmult_le_pos; lra). lra. }
    replace ((1 + / 1000) * rho * (ds + 19 / 4 * u))%R with ((1 + / 1000) * (ds * rho) + (1 + / 1000) * (19 / 4) * (u * rho))%R in Q1 by ring.
    assert (0 <= ds * rho)%R by (apply Rmult_le_pos; lra). lra. }
  assert (ANG : forall t v, (Rabs (t - v) <= da -> Rabs t <= 1 -> Rabs (B2R mg * t - rho * v) <= 9 / 4 * (u * rho) + da * rho)%R).
  { intros t v T1 T2. replace (B2R mg * t - rho * v)%R with ((B2R mg - rho) * t + rho * (t - v))%R by ring. eapply Rle_trans; [apply Rabs_triang|]. rewrite !Rabs_mult, (Rabs_pos_eq rho) by lra.
    assert (Rabs (B2R mg - rho) * Rabs t <= 9 / 4 * u * rho * 1)%R by (apply Rmult_le_compat; auto using Rabs_pos).
    assert (rho * Rabs (t - v) <= rho * da)%R by (apply Rmult_le_compat_l; lra). lra. }
  assert (VA : (Rabs (B2R an - th) <= da)%R) by (apply Rabs_le; lra).
  split.
  - rewrite Ex. replace (B2R (re w) - rho * Rtrigo_def.cos th)%R with ((B2R (re w) - B2R mg * Rtrigo_def.cos (B2R an)) + (B2R mg * Rtrigo_def.cos (B2R an) - rho * Rtrigo_def.cos th))%R by ring.
    eapply Rle_trans; [apply Rabs_triang|]. specialize (ANG (Rtrigo_def.cos (B2R an)) (Rtrigo_def.cos th)). pose proof (cos_lipschitz (B2R an) th). pose proof (abs_cos (B2R an)).
    specialize (ANG ltac:(lra) ltac:(lra)). lra.
  - rewrite Ey. replace (B2R (im w) - rho * Rtrigo_def.sin th)%R with ((B2R (im w) - B2R mg * Rtrigo_def.sin (B2R an)) + (B2R mg * Rtrigo_def.sin (B2R an) - rho * Rtrigo_def.sin th))%R by ring.
    eapply Rle_trans; [apply Rabs_triang|]. specialize (ANG (Rtrigo_def.sin (B2R an)) (Rtrigo_def.sin th)). pose proof (sin_lipschitz (B2R an) th). pose proof (abs_sin (B2R an)).
    specialize (ANG ltac:(lra) ltac:(lra)). lra.
Qed.
End FP.

(** ** The specifications of the libm routines can be met *)
Section Ideal.
Context {prec emax : Z} {Hp : Prec_gt_0 prec} {He : Prec_lt_emax prec emax}.
Notation float := (binary_float prec emax).
Notation u := (bpow radix2 (- prec)).
Hypothesis P24 : 24 <= prec.
Hypothesis E4 : prec + 40 < emax.

Lemma ideal_float_err : forall v, (Rabs v <= 4)%R -> is_finite (ideal_float v : float) = true /\ (Rabs (B2R (ideal_float v : float) - v) <= 8 * u)%R.
Proof using All.
  intros v V. unfold ideal_float. set (n := Zfloor (v * bpow radix2 prec)).
  pose proof (binary_normalize_correct prec emax Hp He mode_NE n (- prec) false) as C. cbn [round_mode] in C.
  set (x := F2R (Float radix2 n (- prec))) in *. pose proof (bpow_gt_0 radix2 (- prec)) as U0. pose proof (ep_small P24) as EP.
  assert (X : (Rabs (x - v) <= u)%R).
  { unfold x, F2R. cbn [Fnum Fexp]. pose proof (Zfloor_lb (v * bpow radix2 prec)). pose proof (Zfloor_ub (v * bpow radix2 prec)). fold n in H, H0.
    replace v with (v * bpow radix2 prec * u)%R at 1 by (rewrite Rmult_assoc, <- bpow_plus; replace (prec + - prec) with 0 by ring; simpl; ring).
    rewrite <- Rmult_minus_distr_r, Rabs_mult, (Rabs_pos_eq u) by lra. rewrite <- (Rmult_1_l u) at 2. apply Rmult_le_compat_r; [lra|]. apply Rabs_le. lra. }
  assert (X5 : (Rabs x <= 5)%R). { replace x with ((x - v) + v)%R by ring. eapply Rle_trans; [apply Rabs_triang|]. lra. }
  pose proof (rnd_rel (prec := prec) (emax := emax) x) as R. set (y := round _ _ _ x) in *.
  assert (ETA : (bpow radix2 (3 - emax - prec) <= u)%R) by (apply bpow_le; lia).
  assert (UX : (u * Rabs x <= 5 * u)%R) by (rewrite (Rmult_comm 5); apply Rmult_le_compat_l; lra).
  assert (Y : (Rabs (y - v) <= 8 * u)%R). { replace (y - v)%R with ((y - x) + (x - v))%R by ring. eapply Rle_trans; [apply Rabs_triang|]. lra. }
  rewrite Rlt_bool_true in C.
  - destruct C as (-> & -> & _). auto.
  - apply Rle_lt_trans with 8%R.
    + replace y with ((y - v) + v)%R by ring. eapply Rle_trans; [apply Rabs_triang|]. lra.
    + change 8%R with (bpow radix2 3). apply bpow_lt. lia.
Qed.
Lemma ideal_sin_ok : forall b, accurate_sincos_float b (8 * u) (ideal_sin_float (prec := prec) (emax := emax)).
Proof using All.
  intros b a Fa _. exists (ideal_float (Rtrigo_def.sin (B2R a))), (ideal_float (Rtrigo_def.cos (B2R a))). split; [reflexivity|].
  pose proof (abs_sin (B2R a)) as S. pose proof (abs_cos (B2R a)) as C.
  destruct (ideal_float_err (Rtrigo_def.sin (B2R a)) ltac:(lra)) as [F1 V1], (ideal_float_err (Rtrigo_def.cos (B2R a)) ltac:(lra)) as [F2 V2]. auto.
Qed.
Lemma ideal_atan_ok : accurate_atan2_float (8 * u) (ideal_atan_float (prec := prec) (emax := emax) angle).
Proof using All.
  intros y x th Fy Fx A. exists (ideal_float (angle (B2R y) (B2R x))). split; [reflexivity|]. rewrite <- (angle_is _ _ _ A).
  destruct (ideal_float_err th) as [F V]; [|auto]. destruct A as [T _]. pose proof pi_bounds. apply Rabs_le. lra.
Qed.
End Ideal.

(** ** The two float types *)
Lemma wrap_f32 : forall phi : f32, is_finite phi = true -> (Rabs (B2R phi) < bpow radix2 24)%R -> exists (r : f32) k,
  returns (fun fuel => mixed_wrap_phase (float_wrap_phase fuel) phi) r /\ is_finite r = true /\ (Rabs (IZR k) <= Rabs (B2R phi) / 3)%R /\
  ((Rabs (B2R phi) <= 4 * B2R f32_pi)%R -> B2R r = (B2R phi - IZR k * (2 * B2R f32_pi))%R) /\
  (Rabs (B2R r - (B2R phi - IZR k * (2 * PI))) <= (B2R phi * B2R phi / 3 + Rabs (B2R phi)) * bpow radix2 (-24))%R.
Proof.
  intros phi F L. destruct (@wrap_pi 24 128 _ _ ltac:(lia) ltac:(lia) f32_pi f32_tau eq_refl eq_refl eq_refl eq_refl f32_pi_bounds f32_tau_two f32_pi_err phi F L) as (r & k & A & B & _ & C & D & _ & E).
  exists r, k. auto.
Qed.
Lemma wrap_f64 : forall phi : f64, is_finite phi = true -> (Rabs (B2R phi) < bpow radix2 53)%R -> exists (r : f64) k,
  returns (fun fuel => mixed_wrap_phase (float_wrap_phase fuel) phi) r /\ is_finite r = true /\ (Rabs (IZR k) <= Rabs (B2R phi) / 3)%R /\
  ((Rabs (B2R phi) <= 4 * B2R f64_pi)%R -> B2R r = (B2R phi - IZR k * (2 * B2R f64_pi))%R) /\
  (Rabs (B2R r - (B2R phi - IZR k * (2 * PI))) <= (B2R phi * B2R phi / 3 + Rabs (B2R phi)) * bpow radix2 (-53))%R.
Proof.
  intros phi F L. destruct (@wrap_pi 53 1024 _ _ ltac:(lia) ltac:(lia) f64_pi f64_tau eq_refl eq_refl eq_refl eq_refl f64_pi_bounds f64_tau_two f64_pi_err phi F L) as (r & k & A & B & _ & C & D & _ & E).
  exists r, k. auto.
Qed.
Lemma tc_f32 : forall Sn d, accurate_sincos_float 4 d Sn -> (0 <= d <= 1)%R -> forall q : Polar f32,
  is_finite (mag q) = true -> is_finite (ang q) = true -> (Rabs (B2R (mag q)) <= bpow radix2 126)%R -> (Rabs (B2R (ang q)) < bpow radix2 24)%R ->
  exists z, returns (fun fuel => polar_to_cartesian float_ops (float_wrap_phase fuel) Sn q) z /\ is_finite (re z) = true /\ is_finite (im z) = true /\
  let g := B2R (mag q) in let a := B2R (ang q) in
  let B := (Rabs g * (d + (a * a / 3 + Rabs a + 1 + d) * bpow radix2 (-24)) + bpow radix2 (-149))%R in
  (Rabs (B2R (re z) - g * Rtrigo_def.cos a) <= B /\ Rabs (B2R (im z) - g * Rtrigo_def.sin a) <= B)%R.
Proof.
  intros Sn d AS D q Fm Fa G L. destruct (@tc_float 24 128 _ _ ltac:(lia) ltac:(lia) f32_pi f32_tau eq_refl eq_refl eq_refl eq_refl f32_pi_bounds f32_tau_two f32_pi_err Sn d AS D q Fm Fa G L) as (z & R & [F1 F2] & (A & B) & _).
  change (3 - 128 - 24) with (-149) in A, B. change (- (24)) with (-24) in A, B.
  exists z. split; [exact R|]. split; [exact F1|]. split; [exact F2|]. cbv zeta. split; (eapply Rle_trans; [first [exact A|exact B]|]; apply Req_le; ring).
Qed.
Lemma tc_f64 : forall Sn d, accurate_sincos_float 4 d Sn -> (0 <= d <= 1)%R -> forall q : Polar f64,
  is_finite (mag q) = true -> is_finite (ang q) = true -> (Rabs (B2R (mag q)) <= bpow radix2 1022)%R -> (Rabs (B2R (ang q)) < bpow radix2 53)%R ->
  exists z, returns (fun fuel => polar_to_cartesian float_ops (float_wrap_phase fuel) Sn q) z /\ is_finite (re z) = true /\ is_finite (im z) = true /\
  let g := B2R (mag q) in let a := B2R (ang q) in
  let B := (Rabs g * (d + (a * a / 3 + Rabs a + 1 + d) * bpow radix2 (-53)) + bpow radix2 (-1074))%R in
  (Rabs (B2R (re z) - g * Rtrigo_def.cos a) <= B /\ Rabs (B2R (im z) - g * Rtrigo_def.sin a) <= B)%R.
Proof.
  intros Sn d AS D q Fm Fa G L. destruct (@tc_float 53 1024 _ _ ltac:(lia) ltac:(lia) f64_pi f64_tau eq_refl eq_refl eq_refl eq_refl f64_pi_bounds f64_tau_two f64_pi_err Sn d AS D q Fm Fa G L) as (z & R & [F1 F2] & (A & B) & _).
  change (3 - 1024 - 53) with (-1074) in A, B. change (- (53)) with (-53) in A, B.
  exists z. split; [exact R|]. split; [exact F1|]. split; [exact F2|]. cbv zeta. split; (eapply Rle_trans; [first [exact A|exact B]|]; apply Req_le; ring).
Qed.
Lemma roundtrip_f32 : forall m Sn ds libm_sqrt A da, accurate_sincos_float 4 ds Sn -> (0 <= ds <= / 4)%R -> (forall x, libm_sqrt x = Bsqrt mode_NE x) ->
  accurate_atan2_float da A -> (da <= / 4)%R ->
  forall z : Cartesian f32, is_finite (re z) = true -> is_finite (im z) = true ->
  let M := Rmax (Rabs (B2R (re z))) (Rabs (B2R (im z))) in
  (bpow radix2 (-57) <= M <= bpow radix2 62)%R ->
  exists w, returns (fun fuel => q <- cartesian_to_polar float_ops (float_sqrt m libm_sqrt fuel) float_powi A z ;; polar_to_cartesian float_ops (float_wrap_phase fuel) Sn q) w /\
  is_finite (re w) = true /\ is_finite (im w) = true /\
  let B := ((da + 101 / 100 * ds + 9 * bpow radix2 (-24)) * sqrt (B2R (re z) * B2R (re z) + B2R (im z) * B2R (im z)))%R in
  (Rabs (B2R (re w) - B2R (re z)) <= B /\ Rabs (B2R (im w) - B2R (im z)) <= B)%R.
Proof.
  intros m Sn ds sq A da AS D SQ AA DA z F1 F2 M [L U].
  assert (LL : (bpow radix2 (13 - 128) <= M * M)%R).
  { apply Rle_trans with (bpow radix2 (-57) * bpow radix2 (-57))%R; [rewrite <- bpow_plus; apply bpow_le; lia|]. apply Rmult_le_compat; auto; apply bpow_ge_0. }
  destruct (@roundtrip_float 24 128 _ _ ltac:(lia) ltac:(lia) f32_pi f32_tau eq_refl eq_refl eq_refl eq_refl f32_pi_bounds f32_tau_two f32_pi_err m Sn ds sq A da AS D SQ AA DA z 62 (conj F1 F2) ltac:(lia) LL U) as (w & R & [G1 G2] & H1 & H2).
  exists w. split; [exact R|]. auto.
Qed.
Lemma roundtrip_f64 : forall m Sn ds libm_sqrt A da, accurate_sincos_float 4 ds Sn -> (0 <= ds <= / 4)%R -> (forall x, libm_sqrt x = Bsqrt mode_NE x) ->
  accurate_atan2_float da A -> (da <= / 4)%R ->
  forall z : Cartesian f64, is_finite (re z) = true -> is_finite (im z) = true ->
  let M := Rmax (Rabs (B2R (re z))) (Rabs (B2R (im z))) in
  (bpow radix2 (-505) <= M <= bpow radix2 510)%R ->
  exists w, returns (fun fuel => q <- cartesian_to_polar float_ops (float_sqrt m libm_sqrt fuel) float_powi A z ;; polar_to_cartesian float_ops (float_wrap_phase fuel) Sn q) w /\
  is_finite (re w) = true /\ is_finite (im w) = true /\
  let B := ((da + 101 / 100 * ds + 9 * bpow radix2 (-53)) * sqrt (B2R (re z) * B2R (re z) + B2R (im z) * B2R (im z)))%R in
  (Rabs (B2R (re w) - B2R (re z)) <= B /\ Rabs (B2R (im w) - B2R (im z)) <= B)%R.
Proof.
  intros m Sn ds sq A da AS D SQ AA DA z F1 F2 M [L U].
  assert (LL : (bpow radix2 (13 - 1024) <= M * M)%R).
  { apply Rle_trans with (bpow radix2 (-505) * bpow radix2 (-505))%R; [rewrite <- bpow_plus; apply bpow_le; lia|]. apply Rmult_le_compat; auto; apply bpow_ge_0. }
  destruct (@roundtrip_float 53 1024 _ _ ltac:(lia) ltac:(lia) f64_pi f64_tau eq_refl eq_refl eq_refl eq_refl f64_pi_bounds f64_tau_two f64_pi_err m Sn ds sq A da AS D SQ AA DA z 510 (conj F1 F2) ltac:(lia) LL U) as (w & R & [G1 G2] & H1 & H2).
  exists w. split; [exact R|]. auto.
Qed.
