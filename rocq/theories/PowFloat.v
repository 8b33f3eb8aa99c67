(** * Accuracy of integer powers of floats (proofs for C96). *)

From Coq Require Import ZArith NArith PArith Reals Lia Lra Psatz Bool.
From Flocq Require Import Core.Core Relative IEEE754.BinarySingleNaN.
From Verif Require Import Base FloatBase Literals Traits Trig FloatImpl Spec Lemmas FloatLemmas FloatProofs FloatArith.
Open Scope Z_scope.

(** ** Bernoulli *)
Lemma bern_low : forall u n, (0 <= u <= 1 -> 1 - INR n * u <= (1 - u) ^ n)%R.
Proof.
  intros u n U. induction n as [|n IH]; [simpl; lra|]. rewrite S_INR. simpl. pose proof (pos_INR n).
  assert (0 <= (1 - u) ^ n)%R by (apply pow_le; lra). nra.
Qed.
Lemma bern_high : forall u n, (0 <= u -> INR n * u <= / 2 -> (1 + u) ^ n <= 1 + 2 * (INR n * u))%R.
Proof.
  intros u n U H. induction n as [|n IH]; [simpl; lra|]. rewrite S_INR in *. pose proof (pos_INR n) as P.
  specialize (IH ltac:(nra)). simpl. assert (0 <= INR n * u)%R by nra.
  apply Rle_trans with ((1 + u) * (1 + 2 * (INR n * u)))%R; [apply Rmult_le_compat_l; lra|]. nra.
Qed.
Lemma pow_mono : forall x n k, (0 < x -> (1 <= k <= n)%nat -> Rmin x (x ^ n) <= x ^ k <= Rmax x (x ^ n))%R.
Proof.
  intros x n k X K. destruct (Rle_dec 1 x) as [L|L].
  - assert (A : (x ^ 1 <= x ^ k)%R) by (apply Rle_pow; auto; lia). assert (B : (x ^ k <= x ^ n)%R) by (apply Rle_pow; auto; lia).
    rewrite pow_1 in A. split; [eapply Rle_trans; [apply Rmin_l|auto] | eapply Rle_trans; [|apply Rmax_r]; auto].
  - assert (G : forall i j, (i <= j)%nat -> (x ^ j <= x ^ i)%R).
    { intros i j IJ. replace j with (i + (j - i))%nat by lia. rewrite pow_add. rewrite <- (Rmult_1_r (x ^ i)) at 2.
      apply Rmult_le_compat_l; [apply pow_le; lra|]. rewrite <- (pow1 (j - i)). apply pow_incr. lra. }
    pose proof (G 1%nat k ltac:(lia)) as A. pose proof (G k n ltac:(lia)) as B. rewrite pow_1 in A.
    split; [eapply Rle_trans; [apply Rmin_r|auto] | eapply Rle_trans; [|apply Rmax_l]; auto].
Qed.

Section Pow.
Context {prec emax : Z} {Hp : Prec_gt_0 prec} {He : Prec_lt_emax prec emax}.
Notation float := (binary_float prec emax).
Notation fexp := (SpecFloat.fexp prec emax).
Notation rnd := (round radix2 fexp ZnearestE).
Notation u := (bpow radix2 (- prec)).

Lemma u_bound : (0 < u <= / 2)%R.
Proof using Hp. split; [apply bpow_gt_0|]. change (/ 2)%R with (bpow radix2 (-1)). apply bpow_le. unfold Prec_gt_0 in Hp. lia. Qed.
Lemma rnd_rel : forall v, (bpow radix2 (2 - emax) <= Rabs v)%R -> (Rabs (rnd v - v) <= u * Rabs v)%R.
Proof using Hp.
  intros v H. pose proof (relative_error_N_FLT radix2 (3 - emax - prec) prec Hp (fun x => negb (Z.even x)) v) as R.
  replace (3 - emax - prec + prec - 1) with (2 - emax) in R by ring. specialize (R H).
  change (round radix2 (FLT_exp (3 - emax - prec) prec) (Znearest (fun x => negb (Z.even x))) v) with (rnd v) in R.
  replace u with (/ 2 * bpow radix2 (- prec + 1))%R; [exact R|]. rewrite bpow_plus. change (bpow radix2 1) with 2%R. lra.
Qed.

Variable X : R.
Variables (D n : nat).
Hypothesis D1 : (1 <= D)%nat.
Hypothesis N1 : (1 <= n)%nat.
Hypothesis U : (INR (n * D - 1) * u <= / 2)%R.
Hypothesis RG : forall k, (1 <= k <= n)%nat -> (bpow radix2 (3 - emax) <= Rabs X ^ k <= bpow radix2 (emax - 2))%R.
Hypothesis E3 : 3 <= emax.

Definition approx (k : nat) (v : float) : Prop := is_finite v = true /\
  exists t, (B2R v = X ^ k * t /\ (1 - u) ^ (k * D - 1) <= t <= (1 + u) ^ (k * D - 1))%R.

Lemma approx_mul : forall j k a b, (1 <= j)%nat -> (1 <= k)%nat -> (j + k <= n)%nat -> approx j a -> approx k b -> approx (j + k) (Bmult mode_NE a b).
Proof using All.
  intros j k a b J K JK (Fa & ta & Va & Ta) (Fb & tb & Vb & Tb). pose proof u_bound as UB.
  assert (P0 : forall i, (0 < (1 - u) ^ i)%R) by (intros; apply pow_lt; lra).
  set (E := (j * D - 1 + (k * D - 1))%nat).
  assert (ES : ((j + k) * D - 1 = S E)%nat) by (unfold E; rewrite Nat.mul_add_distr_r; nia).
  assert (T : ((1 - u) ^ E <= ta * tb <= (1 + u) ^ E)%R).
  { unfold E. rewrite !pow_add. pose proof (P0 (j * D - 1)%nat). pose proof (P0 (k * D - 1)%nat).
    split; apply Rmult_le_compat; lra. }
  assert (EN : (S E <= n * D - 1)%nat) by (rewrite <- ES; assert ((j + k) * D <= n * D)%nat by (apply Nat.mul_le_mono_r; auto); lia).
  assert (UE : (INR E * u <= / 2)%R).
  { apply Rle_trans with (INR (n * D - 1) * u)%R; auto. apply Rmult_le_compat_r; [lra|]. apply le_INR. lia. }
  assert (T2 : (/ 2 <= ta * tb <= 2)%R) by (pose proof (bern_low u E ltac:(lra)); pose proof (bern_high u E ltac:(lra) UE); lra).
  assert (V : (B2R a * B2R b = X ^ (j + k) * (ta * tb))%R) by (rewrite Va, Vb, pow_add; ring).
  destruct (RG (j + k)%nat ltac:(lia)) as [R1 R2].
  assert (AV : (Rabs (B2R a * B2R b) = Rabs X ^ (j + k) * (ta * tb))%R) by (rewrite V, Rabs_mult, RPow_abs, (Rabs_pos_eq (ta * tb)) by lra; reflexivity).
  assert (L1 : (bpow radix2 (2 - emax) <= Rabs (B2R a * B2R b))%R).
  { rewrite AV. replace (3 - emax) with (2 - emax + 1) in R1 by ring. rewrite bpow_plus in R1. change (bpow radix2 1) with 2%R in R1. pose proof (bpow_gt_0 radix2 (2 - emax)). nra. }
  assert (L2 : (Rabs (B2R a * B2R b) <= bpow radix2 (emax - 1))%R).
  { rewrite AV. replace (emax - 1) with (emax - 2 + 1) by ring. rewrite bpow_plus. change (bpow radix2 1) with 2%R. pose proof (bpow_gt_0 radix2 (emax - 2)). nra. }
  pose proof (rnd_rel _ L1) as RR.
  assert (FT : (Rabs (rnd (B2R a * B2R b)) < bpow radix2 emax)%R).
  { apply Rle_lt_trans with (bpow radix2 (emax - 1)); [|apply bpow_lt; lia]. apply abs_round_le_generic; [apply (fexp_correct prec emax Hp) | apply valid_rnd_N | | exact L2].
    apply generic_format_bpow. unfold SpecFloat.fexp, SpecFloat.emin. unfold Prec_gt_0 in Hp. lia. }
  destruct (mult_ok a b Fa Fb FT) as [F R]. split; [exact F|]. rewrite R, ES. set (v := (B2R a * B2R b)%R) in *.
  assert (NZ : v <> 0%R). { intro Z. rewrite Z, Rabs_R0 in L1. pose proof (bpow_gt_0 radix2 (2 - emax)). lra. }
  exists (ta * tb * (rnd v / v))%R. split.
  - rewrite <- Rmult_assoc, <- V. fold v. field. auto.
  - assert (DL : (1 - u <= rnd v / v <= 1 + u)%R).
    { assert (Rabs (rnd v / v - 1) <= u)%R; [|apply Rabs_le_inv in H; lra].
      replace (rnd v / v - 1)%R with ((rnd v - v) / v)%R by (field; auto). unfold Rdiv. rewrite Rabs_mult, Rabs_inv.
      apply Rmult_le_reg_r with (Rabs v); [apply Rabs_pos_lt; auto|]. rewrite Rmult_assoc, Rinv_l by (apply Rabs_no_R0; auto). lra. }
    simpl. pose proof (P0 E). split.
    + rewrite Rmult_comm. apply Rmult_le_compat; lra.
    + rewrite (Rmult_comm (1 + u)). apply Rmult_le_compat; lra.
Qed.

Definition ex (p : positive) : nat := match p with xH => 0 | xO q | xI q => 2 * Pos.to_nat q end.
Lemma loop_approx : forall p acc base a b, (1 <= a)%nat -> (1 <= b)%nat -> (a + b * ex p <= n)%nat -> approx a acc -> approx b base ->
  approx (a + b * ex p) (num_pow_loop acc base p).
Proof using All.
  assert (K : forall q acc base a b, (1 <= a)%nat -> (1 <= b)%nat -> (a + b * (2 * Pos.to_nat q) <= n)%nat -> approx a acc -> approx b base ->
    (forall acc base a b, (1 <= a)%nat -> (1 <= b)%nat -> (a + b * ex q <= n)%nat -> approx a acc -> approx b base -> approx (a + b * ex q) (num_pow_loop acc base q)) ->
    approx (a + b * (2 * Pos.to_nat q)) (num_pow_loop (match q with xO _ => acc | _ => Bmult mode_NE acc (Bmult mode_NE base base) end) (Bmult mode_NE base base) q)).
  { intros q acc base a b A B L Ha Hb IH. pose proof (Pos2Nat.is_pos q) as Q.
    assert (B2 : approx (b + b) (Bmult mode_NE base base)) by (apply approx_mul; auto; nia).
    destruct q as [r|r|].
    - rewrite Pos2Nat.inj_xI in *. cbn [ex] in IH. replace (a + b * (2 * S (2 * Pos.to_nat r)))%nat with ((a + (b + b)) + (b + b) * (2 * Pos.to_nat r))%nat by ring.
      apply IH; try nia; auto. apply approx_mul; auto; nia.
    - rewrite Pos2Nat.inj_xO in *. cbn [ex] in IH. replace (a + b * (2 * (2 * Pos.to_nat r)))%nat with (a + (b + b) * (2 * Pos.to_nat r))%nat by ring.
      apply IH; try nia; auto.
    - change (Pos.to_nat 1) with 1%nat in *. cbn [num_pow_loop]. replace (a + b * (2 * 1))%nat with (a + (b + b))%nat by ring. apply approx_mul; auto; nia. }
  induction p as [q IH|q IH|]; intros acc base a b A B L Ha Hb; cbn [num_pow_loop ex] in *; try (apply K; auto; fail).
  rewrite Nat.mul_0_r, Nat.add_0_r. auto.
Qed.
Lemma pos_approx : forall p base b, (1 <= b)%nat -> (b * Pos.to_nat p <= n)%nat -> approx b base -> approx (b * Pos.to_nat p) (num_pow_pos base p).
Proof using All.
  induction p as [q IH|q IH|]; intros base b B L H.
  - cbn [num_pow_pos]. rewrite Pos2Nat.inj_xI in *. replace (b * S (2 * Pos.to_nat q))%nat with (b + b * ex (xI q))%nat by (cbn [ex]; ring).
    apply loop_approx; auto. cbn [ex]. nia.
  - cbn [num_pow_pos]. rewrite Pos2Nat.inj_xO in *. pose proof (Pos2Nat.is_pos q). replace (b * (2 * Pos.to_nat q))%nat with ((b + b) * Pos.to_nat q)%nat by ring.
    apply IH; try nia. apply approx_mul; auto; nia.
  - cbn [num_pow_pos]. change (Pos.to_nat 1) with 1%nat. rewrite Nat.mul_1_r. auto.
Qed.
Lemma approx_rel : forall v, approx n v -> is_finite v = true /\ (Rabs (B2R v - X ^ n) <= 2 * (INR (n * D - 1) * u) * Rabs (X ^ n))%R.
Proof using Hp U.
  intros v (F & t & V & T). split; auto. pose proof u_bound as UB.
  pose proof (bern_low u (n * D - 1) ltac:(lra)) as BL. pose proof (bern_high u (n * D - 1) ltac:(lra) U) as BH.
  rewrite V. replace (X ^ n * t - X ^ n)%R with ((t - 1) * X ^ n)%R by ring. rewrite Rabs_mult. apply Rmult_le_compat_r; [apply Rabs_pos|].
  assert (0 <= INR (n * D - 1) * u)%R by (apply Rmult_le_pos; [apply pos_INR|lra]). apply Rabs_le. lra.
Qed.
End Pow.

Section Main.
Context {prec emax : Z} {Hp : Prec_gt_0 prec} {He : Prec_lt_emax prec emax}.
Notation float := (binary_float prec emax).
Notation u := (bpow radix2 (- prec)).
Notation inside v := (bpow radix2 (3 - emax) <= Rabs v <= bpow radix2 (emax - 2))%R.

Lemma inside_pow : forall X n, (1 <= n)%nat -> inside X -> inside (X ^ n) -> forall k, (1 <= k <= n)%nat -> (bpow radix2 (3 - emax) <= Rabs X ^ k <= bpow radix2 (emax - 2))%R.
Proof.
  intros X n N A B k K. rewrite <- RPow_abs in B. pose proof (bpow_gt_0 radix2 (3 - emax)) as P.
  pose proof (pow_mono (Rabs X) n k ltac:(lra) K) as [L H]. split.
  - eapply Rle_trans; [|exact L]. apply Rmin_glb; lra.
  - eapply Rle_trans; [exact H|]. apply Rmax_lub; lra.
Qed.
Lemma num_pow_nat : forall (b : float) e, (1 <= e)%nat -> num_pow b (N.of_nat e) = num_pow_pos b (Pos.of_nat e).
Proof. intros b e E. destruct e as [|e]; [lia|]. unfold num_pow. change (N.of_nat (S e)) with (Npos (Pos.of_succ_nat e)). rewrite Pos.of_nat_succ. reflexivity. Qed.

Lemma powi_acc_pos : 3 <= emax -> forall (x : float) n, is_finite x = true -> 1 <= n < 2 ^ 31 -> inside (B2R x) -> inside (B2R x ^ Z.to_nat n)%R ->
  (IZR (n - 1) * u <= / 2)%R -> exists r, mixed_powi float_powi x n = Ok r /\ is_finite r = true /\
  (Rabs (B2R r - B2R x ^ Z.to_nat n) <= 2 * (IZR (n - 1) * u) * Rabs (B2R x ^ Z.to_nat n))%R.
Proof.
  intros E3 x n F N I1 I2 U. set (k := Z.to_nat n) in *. assert (K : (1 <= k)%nat) by (unfold k; lia).
  assert (EK : INR (k * 1 - 1) = IZR (n - 1)) by (rewrite INR_IZR_INZ; f_equal; unfold k; lia).
  eexists. split; [reflexivity|]. unfold floatcore_powi. destruct (Z.ltb_spec n 0); [lia|]. rewrite wrap_id by (try (simpl; lia); unfold in_range, imin, imax; simpl; lia).
  replace (Z.to_N n) with (N.of_nat k) by (unfold k; lia). rewrite num_pow_nat by auto. rewrite <- EK in *.
  apply approx_rel; auto.
  replace k with (1 * Pos.to_nat (Pos.of_nat k))%nat at 1 by (rewrite Nat2Pos.id by lia; lia).
  apply (pos_approx (B2R x) 1 k); auto; try lia.
  - apply inside_pow; auto.
  - split; auto. exists 1%R. simpl. lra.
Qed.
Lemma powi_acc_neg : 3 <= emax -> forall (x : float) n, is_finite x = true -> 1 <= n <= 2 ^ 31 -> inside (/ B2R x)%R -> inside (/ B2R x ^ Z.to_nat n)%R ->
  (IZR (2 * n - 1) * u <= / 2)%R -> exists r, mixed_powi float_powi x (- n) = Ok r /\ is_finite r = true /\
  (Rabs (B2R r - / B2R x ^ Z.to_nat n) <= 2 * (IZR (2 * n - 1) * u) * Rabs (/ B2R x ^ Z.to_nat n))%R.
Proof.
  intros E3 x n F N I1 I2 U. set (k := Z.to_nat n) in *. assert (K : (1 <= k)%nat) by (unfold k; lia).
  assert (EK : INR (k * 2 - 1) = IZR (2 * n - 1)) by (rewrite INR_IZR_INZ; f_equal; unfold k; lia).
  rewrite <- pow_inv in *. set (X := (/ B2R x)%R) in *. pose proof (bpow_gt_0 radix2 (3 - emax)) as P3. pose proof (u_bound (prec := prec)) as UB.
  assert (X0 : B2R x <> 0%R). { intro Z. unfold X in I1. rewrite Z, Rinv_0, Rabs_R0 in I1. lra. }
  eexists. split; [reflexivity|]. unfold floatcore_powi. destruct (Z.ltb_spec (- n) 0); [|lia]. rewrite Z.opp_involutive.
  assert (EW : wrap u32 (wrap i32 n) = n).
  { apply wrap_unique with (if n =? 2 ^ 31 then 1 else 0).
    - simpl; lia.
    - unfold in_range, imin, imax; simpl; lia.
    - destruct (Z.eqb_spec n (2 ^ 31)) as [->|G]; [reflexivity|]. rewrite wrap_id; [lia | simpl; lia | unfold in_range, imin, imax; simpl; lia]. }
  rewrite EW. replace (Z.to_N n) with (N.of_nat k) by (unfold k; lia). rewrite num_pow_nat by auto. rewrite <- EK in *.
  apply approx_rel; auto.
  replace k with (1 * Pos.to_nat (Pos.of_nat k))%nat at 1 by (rewrite Nat2Pos.id by lia; lia).
  apply (pos_approx X 2 k); auto; try lia.
  - apply inside_pow; auto.
  - assert (L1 : (bpow radix2 (2 - emax) <= Rabs X)%R) by (eapply Rle_trans; [|apply I1]; apply bpow_le; lia).
    pose proof (rnd_rel X L1) as RR.
    assert (V1 : (B2R (@Bone prec emax _ _) / B2R x = X)%R) by (rewrite Bone_correct; unfold X, Rdiv; ring).
    assert (FT : (Rabs (round radix2 (SpecFloat.fexp prec emax) ZnearestE (B2R (@Bone prec emax _ _) / B2R x)) < bpow radix2 emax)%R).
    { rewrite V1. apply Rle_lt_trans with (bpow radix2 (emax - 2)); [|apply bpow_lt; lia]. apply abs_round_le_generic; [apply (fexp_correct prec emax Hp) | apply valid_rnd_N | | apply I1].
      apply generic_format_bpow. unfold SpecFloat.fexp, SpecFloat.emin. unfold Prec_gt_0 in Hp. lia. }
    destruct (div_ok Bone x (is_finite_Bone _ _ _ _) X0 FT) as [FD RD]. split; [exact FD|]. rewrite RD, V1.
    assert (XN : X <> 0%R) by (apply Rinv_neq_0_compat; auto).
    exists (round radix2 (SpecFloat.fexp prec emax) ZnearestE X / X)%R. split; [simpl; field; auto|]. change (1 * 2 - 1)%nat with 1%nat. rewrite !pow_1.
    set (rx := round _ _ _ X) in *. assert (Rabs (rx / X - 1) <= u)%R; [|apply Rabs_le_inv in H0; lra].
    replace (rx / X - 1)%R with ((rx - X) / X)%R by (field; auto). unfold Rdiv. rewrite Rabs_mult, Rabs_inv.
    apply Rmult_le_reg_r with (Rabs X); [apply Rabs_pos_lt; auto|]. rewrite Rmult_assoc, Rinv_l by (apply Rabs_no_R0; auto). lra.
Qed.
End Main.
