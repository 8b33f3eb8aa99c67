(** * Real-number facts for the two-argument arctangent: the angle of a point and
      the distance between the arctangent and the rational function of the code. *)

From Coq Require Import Reals Lra Psatz ZArith.
From Verif Require Import SpecAngle SinReal.
Open Scope R_scope.

(** ** the rational function *)
Definition ratk (c t : R) : R := t / (1 + c * (t * t)).
Definition rat : R -> R := ratk (9 / 32).
Definition gap (t : R) : R := rat t - atan t.
Definition gap' (t : R) : R := t * t * (160 - 369 * (t * t)) / (1024 * ((1 + 9 / 32 * (t * t)) * (1 + 9 / 32 * (t * t))) * (1 + t * t)).

Lemma den_pos : forall c t, 0 <= c -> 1 <= 1 + c * (t * t).
Proof. intros. pose proof (Rle_0_sqr t). unfold Rsqr in *. assert (0 <= c * (t * t)) by (apply Rmult_le_pos; auto). lra. Qed.

Lemma gap_deriv : forall t, derivable_pt_lim gap t (gap' t).
Proof.
  intros t. pose proof (den_pos (9 / 32) t ltac:(lra)) as D. pose proof (den_pos 1 t ltac:(lra)) as D1.
  assert (A : derivable_pt_lim rat t ((1 * (1 + 9 / 32 * (t * t)) - (0 + 9 / 32 * (1 * t + t * 1)) * t) / Rsqr (1 + 9 / 32 * (t * t)))).
  { apply (derivable_pt_lim_div id (fun t => 1 + 9 / 32 * (t * t)) t 1 (0 + 9 / 32 * (1 * t + t * 1))).
    - apply derivable_pt_lim_id.
    - apply (derivable_pt_lim_plus (fct_cte 1) (mult_real_fct (9 / 32) (mult_fct id id))).
      + apply derivable_pt_lim_const.
      + apply derivable_pt_lim_scal. apply derivable_pt_lim_mult; apply derivable_pt_lim_id.
    - cbv beta. lra. }
  pose proof (derivable_pt_lim_minus _ _ _ _ _ A (derivable_pt_lim_atan t)) as M.
  replace (gap' t) with ((1 * (1 + 9 / 32 * (t * t)) - (0 + 9 / 32 * (1 * t + t * 1)) * t) / (1 + 9 / 32 * (t * t))² - / (1 + t ^ 2)).
  - exact M.
  - unfold gap', Rsqr. field. split; nra.
Qed.

Lemma gap'_sign : forall t, (t * t <= 160 / 369 -> 0 <= gap' t) /\ (160 / 369 <= t * t -> gap' t <= 0).
Proof.
  intros t. unfold gap', Rdiv. pose proof (den_pos (9 / 32) t ltac:(lra)) as D. pose proof (den_pos 1 t ltac:(lra)) as D1.
  pose proof (Rle_0_sqr t) as S. unfold Rsqr in S.
  assert (I : 0 < / (1024 * ((1 + 9 * / 32 * (t * t)) * (1 + 9 * / 32 * (t * t))) * (1 + t * t))).
  { apply Rinv_0_lt_compat. apply Rmult_lt_0_compat; [apply Rmult_lt_0_compat; [lra | apply Rmult_lt_0_compat; lra] | lra]. }
  split; intros H.
  - apply Rmult_le_pos; [|lra]. apply Rmult_le_pos; lra.
  - assert (0 <= t * t * (369 * (t * t) - 160) * / (1024 * ((1 + 9 * / 32 * (t * t)) * (1 + 9 * / 32 * (t * t))) * (1 + t * t))).
    { apply Rmult_le_pos; [|lra]. apply Rmult_le_pos; lra. } lra.
Qed.

Lemma gap_incr : forall a b, 0 <= a <= b -> b * b <= 160 / 369 -> gap a <= gap b.
Proof.
  intros a b [A [B|B]] H; [|subst; lra]. destruct (MVT_cor2 gap gap' a b B) as [c [E C]]; [intros; apply gap_deriv|].
  assert (0 <= gap' c) by (apply gap'_sign; nra). assert (0 <= gap' c * (b - a)) by (apply Rmult_le_pos; lra). lra.
Qed.
Lemma gap_decr : forall a b, 0 <= a <= b -> 160 / 369 <= a * a -> gap b <= gap a.
Proof.
  intros a b [A [B|B]] H; [|subst; lra]. destruct (MVT_cor2 gap gap' a b B) as [c [E C]]; [intros; apply gap_deriv|].
  assert (gap' c <= 0) by (apply gap'_sign; nra). assert (0 <= - gap' c * (b - a)) by (apply Rmult_le_pos; lra). lra.
Qed.

Lemma turning_point : exists s, 65847 / 100000 <= s <= 65850 / 100000 /\ s * s = 160 / 369.
Proof.
  exists (sqrt (160 / 369)). assert (E : sqrt (160 / 369) * sqrt (160 / 369) = 160 / 369) by (apply sqrt_def; lra).
  pose proof (sqrt_pos (160 / 369)). split; auto. split; apply Rnot_lt_le; intros L; nra.
Qed.

Lemma cos_5823 : 835199 / 1000000 <= cos (5823 / 10000).
Proof.
  destruct (pre_cos_bound (5823 / 10000) 1 ltac:(lra) ltac:(lra)) as [L _]. eapply Rle_trans; [|exact L].
  unfold cos_approx, cos_term. cbn [sum_f_R0 Nat.mul Nat.add fact]. cbn [pow].
  repeat (rewrite ?plus_INR, ?mult_INR; cbn [INR]). lra.
Qed.
Lemma sin_5823 : sin (5823 / 10000) <= 54995 / 100000.
Proof.
  pose proof (taylor_pos (5823 / 10000) ltac:(lra)) as [_ H]. unfold P9 in H. cbn [pow] in H. lra.
Qed.
Lemma atan_65847 : 5823 / 10000 <= atan (65847 / 100000).
Proof.
  pose proof pi_bounds as P. replace (5823 / 10000) with (atan (tan (5823 / 10000))) by (apply atan_tan; lra).
  assert (C := cos_5823). assert (S := sin_5823).
  assert (T : tan (5823 / 10000) <= 65847 / 100000).
  { unfold tan. apply Rmult_le_reg_r with (cos (5823 / 10000)); [lra|]. unfold Rdiv at 1. rewrite Rmult_assoc, Rinv_l by lra. lra. }
  destruct T as [T|T]; [left; apply atan_increasing; auto | rewrite T; lra].
Qed.

Lemma rat_incr : forall c a b, 0 <= c <= 1 -> 0 <= a <= b -> b <= 1 -> ratk c a <= ratk c b.
Proof.
  intros c a b C A B. unfold ratk. pose proof (den_pos c a ltac:(lra)) as D. pose proof (den_pos c b ltac:(lra)) as D'.
  apply Rmult_le_reg_r with (1 + c * (a * a)); [lra|]. unfold Rdiv. rewrite Rmult_assoc, Rinv_l by lra.
  apply Rmult_le_reg_r with (1 + c * (b * b)); [lra|].
  replace (b * / (1 + c * (b * b)) * (1 + c * (a * a)) * (1 + c * (b * b))) with (b * (1 + c * (a * a))) by (field; lra).
  assert (0 <= (b - a) * (1 - c * (a * b))); [|nra]. apply Rmult_le_pos; [lra|].
  assert (0 <= a * b <= 1) by nra. nra.
Qed.

Lemma gap_pos : forall t, 0 <= t <= 1 -> - (491036 / 100000000) <= gap t <= 464 / 100000.
Proof.
  intros t T. destruct turning_point as [s [S E]]. pose proof pi_bounds as P.
  assert (G0 : gap 0 = 0) by (unfold gap, rat, ratk; rewrite atan_0; field).
  assert (G1 : - (491036 / 100000000) <= gap 1) by (unfold gap, rat, ratk; rewrite atan_1; lra).
  assert (GS : gap s <= 464 / 100000).
  { unfold gap. pose proof (rat_incr (9 / 32) s (65850 / 100000) ltac:(lra) ltac:(lra) ltac:(lra)) as R.
    fold rat in R. assert (rat (65850 / 100000) <= 58694 / 100000) by (unfold rat, ratk; lra).
    pose proof atan_65847. assert (atan (65847 / 100000) <= atan s); [|lra].
    destruct (proj1 S) as [L|L]; [left; apply atan_increasing; auto | rewrite L; lra]. }
  destruct (Rle_dec t s) as [L|L].
  - pose proof (gap_incr 0 t ltac:(lra) ltac:(nra)). pose proof (gap_incr t s ltac:(lra) ltac:(lra)). lra.
  - pose proof (gap_decr s t ltac:(lra) ltac:(lra)). pose proof (gap_decr t 1 ltac:(lra) ltac:(nra)). lra.
Qed.

Lemma ratk_opp : forall c t, ratk c (- t) = - ratk c t.
Proof. intros. unfold ratk. replace (- t * - t) with (t * t) by ring. unfold Rdiv. ring. Qed.

(** the largest error of the approximation, attained at 1 *)
Lemma gap_bound : forall t, -1 <= t <= 1 -> Rabs (rat t - atan t) <= 491036 / 100000000.
Proof.
  intros t T. fold (gap t). destruct (Rle_dec 0 t).
  - pose proof (gap_pos t ltac:(lra)). apply Rabs_le. lra.
  - pose proof (gap_pos (- t) ltac:(lra)) as G. unfold gap in *. unfold rat in *. rewrite ratk_opp, atan_opp in G. apply Rabs_le. lra.
Qed.
(** for ratios up to 0.21 the error stays below the documented 0.028 degrees *)
Lemma atan_21 : 20696 / 100000 <= atan (21 / 100).
Proof.
  pose proof pi_bounds as P. replace (20696 / 100000) with (atan (tan (20696 / 100000))) by (apply atan_tan; lra).
  assert (C : 97866 / 100000 <= cos (20696 / 100000)).
  { destruct (pre_cos_bound (20696 / 100000) 1 ltac:(lra) ltac:(lra)) as [L _]. eapply Rle_trans; [|exact L].
    unfold cos_approx, cos_term. cbn [sum_f_R0 Nat.mul Nat.add fact]. cbn [pow]. repeat (rewrite ?plus_INR, ?mult_INR; cbn [INR]). lra. }
  assert (S : sin (20696 / 100000) <= 20549 / 100000).
  { pose proof (taylor_pos (20696 / 100000) ltac:(lra)) as [_ H]. unfold P9 in H. cbn [pow] in H. lra. }
  assert (T : tan (20696 / 100000) <= 21 / 100).
  { unfold tan. apply Rmult_le_reg_r with (cos (20696 / 100000)); [lra|]. unfold Rdiv at 1. rewrite Rmult_assoc, Rinv_l by lra. lra. }
  destruct T as [T|T]; [left; apply atan_increasing; auto | rewrite T; lra].
Qed.
Lemma gap_small : forall t, - (21 / 100) <= t <= 21 / 100 -> Rabs (rat t - atan t) <= 47 / 100000.
Proof.
  assert (P : forall t, 0 <= t <= 21 / 100 -> 0 <= gap t <= 47 / 100000).
  { intros t T. assert (G0 : gap 0 = 0) by (unfold gap, rat, ratk; rewrite atan_0; field).
    pose proof (gap_incr 0 t ltac:(lra) ltac:(nra)). pose proof (gap_incr t (21 / 100) ltac:(lra) ltac:(lra)) as H1.
    unfold gap in H1 at 2. pose proof atan_21. assert (rat (21 / 100) <= 20743 / 100000) by (unfold rat, ratk; lra). lra. }
  intros t T. fold (gap t). destruct (Rle_dec 0 t).
  - pose proof (P t ltac:(lra)). apply Rabs_le. lra.
  - pose proof (P (- t) ltac:(lra)) as G. unfold gap in *. unfold rat in *. rewrite ratk_opp, atan_opp in G. apply Rabs_le. lra.
Qed.
Lemma gap_one : gap 1 < - (491 / 100000).
Proof. unfold gap, rat, ratk. rewrite atan_1. pose proof pi_bounds. lra. Qed.

(** a different coefficient *)
Lemma ratk_coef : forall c c' t, 0 <= c -> 0 <= c' -> -1 <= t <= 1 -> Rabs (ratk c t - ratk c' t) <= Rabs (c - c').
Proof.
  intros c c' t C C' T. pose proof (den_pos c t C) as D. pose proof (den_pos c' t C') as D'. unfold ratk.
  replace (t / (1 + c * (t * t)) - t / (1 + c' * (t * t))) with
    ((c' - c) * (t * t * t * / ((1 + c * (t * t)) * (1 + c' * (t * t))))) by (field; lra).
  rewrite Rabs_mult, (Rabs_minus_sym c c'). rewrite <- Rmult_1_r. apply Rmult_le_compat_l; [apply Rabs_pos|].
  rewrite Rabs_mult. assert (I : 0 < / ((1 + c * (t * t)) * (1 + c' * (t * t))) <= 1).
  { split; [apply Rinv_0_lt_compat; nra|]. rewrite <- Rinv_1. apply Rinv_le_contravar; nra. }
  rewrite (Rabs_pos_eq (/ _)) by lra. assert (Rabs (t * t * t) <= 1) by (apply Rabs_le; nra).
  pose proof (Rabs_pos (t * t * t)). nra.
Qed.
Lemma ratk_abs : forall c t, 0 <= c -> Rabs (ratk c t) <= Rabs t.
Proof.
  intros c t C. pose proof (den_pos c t C) as D. unfold ratk, Rdiv. rewrite Rabs_mult. rewrite <- (Rmult_1_r (Rabs t)) at 2.
  apply Rmult_le_compat_l; [apply Rabs_pos|]. rewrite Rabs_pos_eq by (apply Rlt_le, Rinv_0_lt_compat; lra).
  rewrite <- Rinv_1. apply Rinv_le_contravar; lra.
Qed.

(** ** complementary arguments *)
Lemma atan_compl_pos : forall a, 0 < a -> atan (/ a) = PI / 2 - atan a.
Proof. intros. apply atan_inv; auto. Qed.
Lemma atan_compl_neg : forall a, a < 0 -> atan (/ a) = - (PI / 2) - atan a.
Proof.
  intros a H. pose proof (atan_inv (- a) ltac:(lra)) as A. rewrite Rinv_opp, !atan_opp in A by lra. lra.
Qed.

(** ** the angle of a point *)
Definition angle (y x : R) : R :=
  if Rlt_dec 0 x then atan (y / x)
  else if Rlt_dec x 0 then if Rle_dec 0 y then PI + atan (y / x) else - PI + atan (y / x)
  else if Rlt_dec 0 y then PI / 2 else - (PI / 2).

Lemma polar_atan : forall x y, x <> 0 -> exists rho, 0 < rho /\ Rabs x = rho * cos (atan (y / x)) /\ y / x * Rabs x = rho * sin (atan (y / x)).
Proof.
  intros x y H. exists (Rabs x * sqrt (1 + (y / x)²)).
  assert (P : 0 < sqrt (1 + (y / x)²)) by (apply sqrt_lt_R0; pose proof (Rle_0_sqr (y / x)); lra).
  assert (A : 0 < Rabs x) by (apply Rabs_pos_lt; auto).
  rewrite cos_atan, sin_atan. split; [apply Rmult_lt_0_compat; auto|]. split; field; lra.
Qed.

Lemma angle_spec : forall x y, (x <> 0 \/ y <> 0) -> is_angle y x (angle y x).
Proof.
  intros x y N. pose proof PI_RGT_0 as P. unfold angle, is_angle.
  destruct (Rlt_dec 0 x) as [X|X]; [|destruct (Rlt_dec x 0) as [X'|X']; [destruct (Rle_dec 0 y) as [Y|Y]|]].
  - pose proof (atan_bound (y / x)). split; [lra|]. destruct (polar_atan x y ltac:(lra)) as [rho [R [E1 E2]]].
    exists rho. rewrite Rabs_pos_eq in * by lra. repeat split; auto. rewrite <- E2. field. lra.
  - pose proof (atan_bound (y / x)).
    assert (y / x <= 0). { assert (0 <= y * - / x); [|unfold Rdiv; lra]. apply Rmult_le_pos; auto. apply Rinv_lt_0_compat in X'. lra. }
    assert (atan (y / x) <= 0). { rewrite <- atan_0. destruct (Rle_lt_or_eq_dec _ _ H0) as [L|L]; [left; apply atan_increasing; auto | rewrite L; lra]. }
    split; [lra|]. destruct (polar_atan x y ltac:(lra)) as [rho [R [E1 E2]]]. exists rho. rewrite Rabs_left in * by lra.
    rewrite (Rplus_comm PI), neg_cos, neg_sin. split; auto. split; [lra|]. assert (Ey : y = - (y / x * - x)) by (field; lra). rewrite E2 in Ey. lra.
  - pose proof (atan_bound (y / x)).
    assert (0 < y / x). { assert (0 < - y * - / x); [|unfold Rdiv; lra]. apply Rmult_lt_0_compat; [lra|]. apply Rinv_lt_0_compat in X'. lra. }
    assert (0 < atan (y / x)) by (rewrite <- atan_0; apply atan_increasing; auto).
    split; [lra|]. destruct (polar_atan x y ltac:(lra)) as [rho [R [E1 E2]]]. exists rho. rewrite Rabs_left in * by lra.
    replace (- PI + atan (y / x)) with (- (- atan (y / x) + PI)) by ring. rewrite cos_neg, sin_neg, neg_cos, neg_sin, cos_neg, sin_neg.
    split; auto. split; [lra|]. assert (Ey : y = - (y / x * - x)) by (field; lra). rewrite E2 in Ey. lra.
  - assert (x = 0) by lra. subst. destruct (Rlt_dec 0 y) as [Y|Y].
    + split; [lra|]. exists y. rewrite cos_PI2, sin_PI2. lra.
    + split; [lra|]. exists (- y). rewrite cos_neg, sin_neg, cos_PI2, sin_PI2. destruct N; lra.
Qed.

Lemma cos_one : forall z, - (2 * PI) < z < 2 * PI -> cos z = 1 -> z = 0.
Proof.
  intros z B E. replace z with (2 * (z / 2)) in E by field. rewrite cos_2a_sin in E.
  assert (S : sin (z / 2) = 0) by nra. destruct (Rlt_dec 0 (z / 2)) as [L|L].
  - pose proof (sin_gt_0 (z / 2) L ltac:(lra)). lra.
  - destruct (Rlt_dec (z / 2) 0) as [L'|L']; [|lra].
    pose proof (sin_gt_0 (- (z / 2)) ltac:(lra) ltac:(lra)) as G. rewrite sin_neg in G. lra.
Qed.

Lemma angle_unique : forall x y a b, is_angle y x a -> is_angle y x b -> a = b.
Proof.
  intros x y a b [A [r [R [X Y]]]] [B [s [S [X' Y']]]]. pose proof PI_RGT_0.
  assert (Q : r * r = s * s).
  { pose proof (sin2_cos2 a) as E1. pose proof (sin2_cos2 b) as E2. unfold Rsqr in *.
    assert (x * x + y * y = r * r) by (rewrite X, Y; replace (r * cos a * (r * cos a) + r * sin a * (r * sin a)) with (r * r * (sin a * sin a + cos a * cos a)) by ring; rewrite E1; ring).
    assert (x * x + y * y = s * s) by (rewrite X', Y'; replace (s * cos b * (s * cos b) + s * sin b * (s * sin b)) with (s * s * (sin b * sin b + cos b * cos b)) by ring; rewrite E2; ring).
    lra. }
  assert (r = s) by nra. subst s.
  assert (C : cos a = cos b) by (apply Rmult_eq_reg_l with r; lra).
  assert (N : sin a = sin b) by (apply Rmult_eq_reg_l with r; lra).
  assert (a - b = 0); [|lra]. apply cos_one; [lra|]. rewrite cos_minus, C, N. pose proof (sin2_cos2 b). unfold Rsqr in *. lra.
Qed.

(** the angle is the one of [angle] *)
Lemma angle_is : forall x y th, is_angle y x th -> th = angle y x.
Proof.
  intros x y th H. apply (angle_unique x y); auto. apply angle_spec.
  destruct H as [_ [r [R [X Y]]]]. destruct (Req_dec x 0) as [E|E]; auto. destruct (Req_dec y 0) as [E'|E']; auto.
  exfalso. pose proof (sin2_cos2 th) as S. unfold Rsqr in S.
  assert (cos th = 0) by (apply Rmult_eq_reg_l with r; lra). assert (sin th = 0) by (apply Rmult_eq_reg_l with r; lra). nra.
Qed.

(** ** the eight octants *)
Lemma angle_x : forall x y, Rabs y < Rabs x -> angle y x =
  (if Rlt_dec 0 x then 0 else if Rle_dec 0 y then PI else - PI) + atan (y / x).
Proof.
  intros x y H. unfold angle. destruct (Rlt_dec 0 x); [ring|]. destruct (Rlt_dec x 0); [destruct (Rle_dec 0 y); ring|].
  assert (x = 0) by lra. subst. rewrite Rabs_R0 in H. pose proof (Rabs_pos y). lra.
Qed.
Lemma angle_y : forall x y, Rabs x <= Rabs y -> y <> 0 -> angle y x =
  (if Rlt_dec 0 y then PI / 2 else - (PI / 2)) - atan (x / y).
Proof.
  intros x y H N. unfold angle. destruct (Rlt_dec 0 x) as [X|X]; [|destruct (Rlt_dec x 0) as [X'|X']].
  - destruct (Rlt_dec 0 y) as [Y|Y].
    + assert (0 < x / y) by (apply Rdiv_lt_0_compat; auto). replace (y / x) with (/ (x / y)) by (field; lra). rewrite atan_compl_pos by auto. ring.
    + assert (x / y < 0). { assert (0 < x * - / y); [|unfold Rdiv; lra]. apply Rmult_lt_0_compat; auto. assert (/ y < 0) by (apply Rinv_lt_0_compat; lra). lra. }
      replace (y / x) with (/ (x / y)) by (field; lra). rewrite atan_compl_neg by auto. ring.
  - destruct (Rle_dec 0 y) as [Y|Y]; destruct (Rlt_dec 0 y) as [Y'|Y']; try lra.
    + assert (x / y < 0). { assert (0 < - x * / y); [|unfold Rdiv; lra]. apply Rmult_lt_0_compat; [lra|]. apply Rinv_0_lt_compat; lra. }
      replace (y / x) with (/ (x / y)) by (field; lra). rewrite atan_compl_neg by auto. lra.
    + assert (0 < x / y). { assert (0 < - x * - / y); [|unfold Rdiv; lra]. apply Rmult_lt_0_compat; [lra|]. assert (/ y < 0) by (apply Rinv_lt_0_compat; lra). lra. }
      replace (y / x) with (/ (x / y)) by (field; lra). rewrite atan_compl_pos by auto. lra.
  - assert (x = 0) by lra. subst. replace (0 / y) with 0 by (field; auto). rewrite atan_0. destruct (Rlt_dec 0 y); lra.
Qed.

(** ** the same eight octants with another function in place of the arctangent *)
Definition octant (A : R -> R) (y x : R) : R :=
  if Rlt_dec (Rabs y) (Rabs x) then (if Rlt_dec 0 x then 0 else if Rle_dec 0 y then PI else - PI) + A (y / x)
  else (if Rlt_dec 0 y then PI / 2 else - (PI / 2)) - A (x / y).
Lemma octant_x : forall A x y, Rabs y < Rabs x -> octant A y x =
  (if Rlt_dec 0 x then 0 else if Rle_dec 0 y then PI else - PI) + A (y / x).
Proof. intros. unfold octant. destruct (Rlt_dec (Rabs y) (Rabs x)); [reflexivity | contradiction]. Qed.
Lemma octant_y : forall A x y, Rabs x <= Rabs y -> y <> 0 -> octant A y x =
  (if Rlt_dec 0 y then PI / 2 else - (PI / 2)) - A (x / y).
Proof. intros. unfold octant. destruct (Rlt_dec (Rabs y) (Rabs x)); [lra | reflexivity]. Qed.
Lemma angle_octant : forall x y, (x <> 0 \/ y <> 0) -> angle y x = octant atan y x.
Proof.
  intros x y H. destruct (Rlt_or_le (Rabs y) (Rabs x)) as [L|L].
  - rewrite angle_x, octant_x by auto. reflexivity.
  - assert (y <> 0). { destruct H; auto. intros E. subst y. rewrite Rabs_R0 in L. apply Rabs_no_R0 in H. pose proof (Rabs_pos x). lra. }
    rewrite angle_y, octant_y by auto. reflexivity.
Qed.
