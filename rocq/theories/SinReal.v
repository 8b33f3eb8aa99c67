(** * Real-number facts for the sine: digits of pi, the Taylor remainder. *)

From Coq Require Import Reals Lra ZArith.
From Coq Require Import Machin.
From Flocq Require Import Core.Core.
Open Scope R_scope.

Lemma pi_bounds : 3141592653589793238 / 1000000000000000000 < PI < 3141592653589793239 / 1000000000000000000.
Proof.
  pose proof (PI_2_3_7_ineq 9) as H.
  unfold PI_2_3_7_tg, tg_alt, Ratan_seq in H.
  cbn [sum_f_R0 Nat.mul Nat.add] in H. cbn [pow INR] in H. split; lra.
Qed.

Definition P9 (x : R) : R := x - x ^ 3 / 6 + x ^ 5 / 120 - x ^ 7 / 5040 + x ^ 9 / 362880.

Lemma P9_opp : forall x, P9 (- x) = - P9 x.
Proof. intros. unfold P9. field. Qed.

Lemma fact_3 : INR (fact 3) = 6.  Proof. simpl. ring. Qed.
Lemma fact_5 : INR (fact 5) = 120.
Proof. change (fact 5) with (5 * (4 * fact 3))%nat. rewrite !mult_INR, fact_3. simpl. ring. Qed.
Lemma fact_7 : INR (fact 7) = 5040.
Proof. change (fact 7) with (7 * (6 * fact 5))%nat. rewrite !mult_INR, fact_5. simpl. ring. Qed.
Lemma fact_9 : INR (fact 9) = 362880.
Proof. change (fact 9) with (9 * (8 * fact 7))%nat. rewrite !mult_INR, fact_7. simpl. ring. Qed.
Lemma fact_11 : INR (fact 11) = 39916800.
Proof. change (fact 11) with (11 * (10 * fact 9))%nat. rewrite !mult_INR, fact_9. simpl. ring. Qed.

Lemma taylor_pos : forall x, 0 <= x <= 4 -> P9 x - x ^ 11 / 39916800 <= sin x <= P9 x.
Proof.
  intros x [H0 H4]. split.
  - destruct (pre_sin_bound x 2 H0 H4) as [L _]. eapply Rle_trans; [|exact L].
    unfold sin_approx, sin_term. cbn [sum_f_R0 Nat.mul Nat.add].
    rewrite fact_3, fact_5, fact_7, fact_9, fact_11. unfold P9. change (INR (fact 1)) with 1. apply Req_le. field.
  - destruct (pre_sin_bound x 1 H0 H4) as [_ L]. eapply Rle_trans; [exact L|].
    unfold sin_approx, sin_term. cbn [sum_f_R0 Nat.mul Nat.add].
    rewrite fact_3, fact_5, fact_7, fact_9. unfold P9. change (INR (fact 1)) with 1. apply Req_le. field.
Qed.

Lemma pow_bound : forall x n, 0 <= x <= 15711 / 10000 -> 0 <= x ^ n <= (15711 / 10000) ^ n.
Proof. intros x n H. split; [apply pow_le; lra | apply pow_incr; lra]. Qed.

Lemma taylor : forall x, Rabs x <= 15711 / 10000 -> Rabs (P9 x - sin x) <= 362 / 100000000.
Proof.
  assert (A : forall x, 0 <= x <= 15711 / 10000 -> Rabs (P9 x - sin x) <= 362 / 100000000).
  { intros x H. pose proof (taylor_pos x ltac:(lra)). pose proof (pow_bound x 11 H) as [B0 B1].
    apply Rabs_le. assert ((15711 / 10000) ^ 11 <= 1444 / 10) by (cbn [pow]; lra). lra. }
  intros x H. destruct (Rle_dec 0 x) as [P|P].
  - apply A. rewrite Rabs_pos_eq in H by auto. lra.
  - rewrite Rabs_left in H by lra. replace (P9 x - sin x) with (- (P9 (- x) - sin (- x))) by (rewrite P9_opp, sin_neg; ring).
    rewrite Rabs_Ropp. apply A. lra.
Qed.

(** the sine is 1-Lipschitz *)
Lemma sin_lipschitz : forall x y, Rabs (sin x - sin y) <= Rabs (x - y).
Proof.
  assert (A : forall x y, x < y -> Rabs (sin y - sin x) <= y - x).
  { intros x y L. destruct (MVT_cor2 sin cos x y L) as [c [E _]].
    - intros. apply derivable_pt_lim_sin.
    - rewrite E, Rabs_mult, (Rabs_pos_eq (y - x)) by lra.
      rewrite <- (Rmult_1_l (y - x)) at 2. apply Rmult_le_compat_r; [lra|].
      apply Rabs_le. apply COS_bound. }
  intros x y. destruct (Rtotal_order x y) as [L|[L|L]].
  - rewrite Rabs_minus_sym, (Rabs_minus_sym x y), (Rabs_pos_eq (y - x)) by lra. apply A; auto.
  - subst. rewrite !Rminus_diag_eq by auto. rewrite Rabs_R0. lra.
  - rewrite (Rabs_pos_eq (x - y)) by lra. apply A; auto.
Qed.
