(** * The NIIRF iteration on scaled integers: accuracy of the rounded iteration. *)

From Coq Require Import ZArith Reals Lia Lra Psatz List.
From Flocq Require Import Core.Core.
From Verif Require Import SqrtReal.
Open Scope Z_scope.

Definition zstep (q b X y : Z) : Z := b * (X - y * y / q) / q + y.
Definition ziter (n : N) (q b X y : Z) : Z := N.iter n (zstep q b X) y.

Lemma ziter_succ : forall n q b X y, ziter (N.succ n) q b X y = zstep q b X (ziter n q b X y).
Proof. intros. unfold ziter. apply N.iter_succ. Qed.
Lemma ziter_fix : forall n q b X y, zstep q b X y = y -> ziter n q b X y = y.
Proof. intros n q b X y E. induction n using N.peano_ind; auto. rewrite ziter_succ, IHn. auto. Qed.

Lemma div_real : forall a b, 0 < b -> (IZR a / IZR b - 1 < IZR (a / b) <= IZR a / IZR b)%R.
Proof.
  intros a b B. pose proof (Z.div_mod a b ltac:(lia)) as E. pose proof (Z.mod_pos_bound a b B) as M.
  assert (Bp : (0 < IZR b)%R) by (apply IZR_lt; auto).
  assert (E' : (IZR a = IZR b * IZR (a / b) + IZR (a mod b))%R) by (rewrite <- mult_IZR, <- plus_IZR; f_equal; auto).
  destruct M as [M1 M2]. apply IZR_le in M1. apply IZR_lt in M2.
  split.
  - apply Rmult_lt_reg_r with (IZR b); auto. unfold Rdiv. rewrite Rmult_minus_distr_r, Rmult_assoc, Rinv_l by lra. lra.
  - apply Rmult_le_reg_r with (IZR b); auto. unfold Rdiv. rewrite Rmult_assoc, Rinv_l by lra. lra.
Qed.

Section Q.
Variable q : Z.
Hypothesis Hq : 16 <= q.
Notation Q := (IZR q).
Notation u := (/ IZR q)%R.
Lemma Q_ge : (16 <= Q)%R. Proof. apply IZR_le; auto. Qed.
Lemma u_pos : (0 < u <= /16)%R.
Proof. pose proof Q_ge. split; [apply Rinv_0_lt_compat; lra | apply Rinv_le_contravar; lra]. Qed.
Lemma uQ : (u * Q = 1)%R. Proof. pose proof Q_ge. apply Rinv_l. lra. Qed.

Variables X b : Z.
Definition s : R := sqrt (IZR X * u).
Hypothesis HX : 0 <= X.
Lemma s_sq : (s * s = IZR X * u)%R.
Proof. apply sqrt_sqrt. apply Rmult_le_pos; [apply IZR_le; auto | pose proof u_pos; lra]. Qed.

Variables (k be : Z).
Hypothesis Rg : region k be s.
Hypothesis Hb : (Rabs (IZR b * u - bR be) <= u / 2 + / 1000000000000000)%R.

Lemma bb_bounds : (0 <= IZR b * u < 1)%R.
Proof. pose proof (region_b _ _ _ Rg). pose proof u_pos. apply Rabs_le_inv in Hb. lra. Qed.

Lemma zstep_real : forall y, exists rho, (Rabs rho <= u /\
  IZR (zstep q b X y) * u - s = (IZR y * u - s) * (1 - IZR b * u * (IZR y * u + s)) + rho)%R.
Proof.
  intros y. unfold zstep. pose proof u_pos as U. pose proof bb_bounds as BB. pose proof uQ as UQ.
  set (g := y * y / q). pose proof (div_real (y * y) q ltac:(lia)) as D1. fold g in D1.
  set (h := b * (X - g) / q). pose proof (div_real (b * (X - g)) q ltac:(lia)) as D2. fold h in D2.
  rewrite plus_IZR. rewrite !mult_IZR in D1, D2. rewrite minus_IZR in D2. unfold Rdiv in *.
  set (Y := IZR y) in *. set (B := IZR b) in *. set (G := IZR g) in *. set (H := IZR h) in *.
  exists (H * u - B * (IZR X - G) * u * u + B * u * (Y * Y * u * u - G * u))%R. split.
  2:{ pose proof s_sq as SS. 
      transitivity (H * u + Y * u - s + B * u * (s * s - IZR X * u))%R; [rewrite SS; ring | ring]. }
  assert (A1 : (0 <= Y * Y * u - G <= 1)%R) by lra.
  assert (A2 : (-1 <= H - B * (IZR X - G) * u <= 0)%R) by lra.
  replace (H * u - B * (IZR X - G) * u * u + B * u * (Y * Y * u * u - G * u))%R with
    (u * ((H - B * (IZR X - G) * u) + B * u * (Y * Y * u - G)))%R by ring.
  rewrite Rabs_mult, (Rabs_pos_eq u) by lra. apply Rle_trans with (u * 1)%R; [|lra]. apply Rmult_le_compat_l; [lra|].
  assert (0 <= B * u * (Y * Y * u - G) <= 1)%R by nra.
  apply Rabs_le. lra.
Qed.

Definition good (y : Z) : Prop :=
  (Rabs (IZR y * u - s) <= s / 1000 + 145 / 100 * u /\ Rabs (IZR y * u - s) <= 703 / 1000000 + 145 / 100 * u)%R.

Lemma first_good : forall y, (Rabs (IZR y * u - y0i s) <= 3 / 2 * u + / 1000000000000000)%R -> good (zstep q b X y).
Proof.
  intros y Hy. pose proof u_pos as U. pose proof (region_s _ _ _ Rg) as Sr.
  destruct (zstep_real y) as [rho [R1 R2]].
  destruct (niirf_first k be s (IZR y * u) (IZR b * u) _ _ Rg Hy ltac:(lra) Hb ltac:(lra)) as [e [E1 [E2 _]]].
  destruct (err1_bounds _ _ _ Rg) as [B1 B2].
  unfold good. rewrite R2, E1. 
  split; (eapply Rle_trans; [apply add_bound; [apply add_bound; [|exact E2]|exact R1]|]); [exact B1|lra|exact B2|lra].
Qed.
Lemma next_good : forall y, good y -> good (zstep q b X y).
Proof.
  intros y [G1 G2]. pose proof u_pos as U. pose proof (region_s _ _ _ Rg) as Sr.
  destruct (zstep_real y) as [rho [R1 R2]].
  unfold good. rewrite R2. split.
  - eapply Rle_trans; [apply add_bound; [eapply niirf_next; [exact Rg|exact G1|lra|exact Hb|lra]|exact R1]|]; lra.
  - eapply Rle_trans; [apply add_bound; [eapply niirf_next; [exact Rg|exact G2|lra|exact Hb|lra]|exact R1]|]; lra.
Qed.

Lemma ziter_good : forall y n, (Rabs (IZR y * u - y0i s) <= 3 / 2 * u + / 1000000000000000)%R -> (1 <= n)%N ->
  good (ziter n q b X y).
Proof.
  intros y n Hy. induction n using N.peano_ind; intros Hn; [lia|].
  rewrite ziter_succ. destruct (N.eq_dec n 0) as [->|].
  - apply first_good. exact Hy.
  - apply next_good, IHn. lia.
Qed.

(** two updates and more *)
Lemma ziter_good2 : forall y n, (Rabs (IZR y * u - y0i s) <= 3 / 2 * u + / 1000000000000000)%R -> (2 <= n)%N ->
  (Rabs (IZR (ziter n q b X y) * u - s) <= 176 / 1000000 + 145 / 100 * u)%R.
Proof.
  intros y n Hy Hn. replace n with (N.succ (N.pred n)) by lia. rewrite ziter_succ.
  pose proof (ziter_good y (N.pred n) Hy ltac:(lia)) as [_ G]. set (z := ziter _ _ _ _ _) in *.
  pose proof u_pos as U. destruct (zstep_real z) as [rho [R1 R2]]. rewrite R2.
  eapply Rle_trans; [apply add_bound; [eapply niirf_next; [exact Rg|exact G|lra|exact Hb|lra]|exact R1]|]; lra.
Qed.

Lemma good_range : forall y, good y -> 0 <= y /\ y * y <= 2 * q * q.
Proof.
  intros y [G1 _]. pose proof u_pos as U. pose proof (region_s _ _ _ Rg) as Sr. apply Rabs_le_inv in G1.
  pose proof Q_ge as QG. pose proof uQ as UQ.
  assert (A : (0 <= IZR y * u <= 14 / 10)%R) by lra.
  assert (E : (IZR y = IZR y * u * Q)%R) by (rewrite Rmult_assoc, UQ; ring).
  assert (B : (0 <= IZR y <= 14 / 10 * Q)%R) by (rewrite E; split; nra).
  split; [apply le_IZR; lra|]. apply le_IZR. rewrite !mult_IZR. nra.
Qed.
Lemma start_range : forall y, (Rabs (IZR y * u - y0i s) <= 3 / 2 * u + / 1000000000000000)%R -> 0 <= y /\ y * y <= 2 * q * q.
Proof.
  intros y G. pose proof u_pos as U. pose proof (region_s _ _ _ Rg) as Sr. pose proof (e0i_bound s Sr) as E0. unfold e0i in E0.
  apply Rabs_le_inv in G, E0. 
  pose proof Q_ge as QG. pose proof uQ as UQ.
  assert (A : (0 <= IZR y * u <= 14 / 10)%R) by lra.
  assert (E : (IZR y = IZR y * u * Q)%R) by (rewrite Rmult_assoc, UQ; ring).
  assert (B : (0 <= IZR y <= 14 / 10 * Q)%R) by (rewrite E; split; nra).
  split; [apply le_IZR; lra|]. apply le_IZR. rewrite !mult_IZR. nra.
Qed.

(** the start value [floor(2X/3) + C] *)
Lemma start_real : forall C, (Rabs (IZR C * u - 354167 / 1000000) <= u / 2 + / 1000000000000000)%R ->
  (Rabs (IZR (2 * X / 3 + C) * u - y0i s) <= 3 / 2 * u + / 1000000000000000)%R.
Proof.
  intros C HC. pose proof u_pos as U. pose proof (div_real (2 * X) 3 ltac:(lia)) as D. rewrite mult_IZR in D.
  unfold y0i. rewrite s_sq. rewrite plus_IZR. set (d := IZR (2 * X / 3)) in *.
  replace ((d + IZR C) * u - (2 / 3 * (IZR X * u) + 354167 / 1000000))%R with
    (u * (d - 2 * IZR X / 3) + (IZR C * u - 354167 / 1000000))%R
    by (field; pose proof Q_ge; lra).
  replace (3 / 2 * u + / 1000000000000000)%R with (u * 1 + (u / 2 + / 1000000000000000))%R by lra.
  apply add_bound; auto. rewrite Rabs_mult, (Rabs_pos_eq u) by lra. apply Rmult_le_compat_l; [lra|].
  apply Rabs_le. lra.
Qed.
End Q.
