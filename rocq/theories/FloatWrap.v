(** * Phase wrapping on floats. *)

From Coq Require Import ZArith Reals Lia Lra List Bool.
From Flocq Require Import Core.Core IEEE754.BinarySingleNaN.
From Verif Require Import Base FloatBase Literals Traits Trig FixedPrim FloatImpl Spec
  Lemmas FloatLemmas FloatProofs WrapProofs.
Open Scope Z_scope.

Section FW.
Context {prec emax : Z} {Hp : Prec_gt_0 prec} {He : Prec_lt_emax prec emax}.
Notation float := (binary_float prec emax).
Notation fexp := (SpecFloat.fexp prec emax).
Notation rnd := (round radix2 fexp ZnearestE).
Notation format := (generic_format radix2 fexp).
Hypothesis P5 : 5 <= prec.
Hypothesis E4 : prec + 4 < emax.

Let Vexp : Valid_exp fexp := fexp_correct prec emax _.

(** ** general facts *)
Lemma lt_cmp : forall x y : float, is_finite x = true -> is_finite y = true ->
  (o_lt float_ops x y = true <-> (B2R x < B2R y)%R).
Proof.
  intros x y Fx Fy. unfold o_lt. cbn. rewrite Bcompare_correct by auto.
  destruct (Rcompare_spec (B2R x) (B2R y)); split; intros; try discriminate; auto; lra.
Qed.
Lemma le_cmp : forall x y : float, is_finite x = true -> is_finite y = true ->
  (o_le float_ops x y = true <-> (B2R x <= B2R y)%R).
Proof.
  intros x y Fx Fy. unfold o_le. cbn. rewrite Bcompare_correct by auto.
  destruct (Rcompare_spec (B2R x) (B2R y)); split; intros; try discriminate; auto; lra.
Qed.

Lemma rnd_between : forall x (a b : float), (B2R a <= x <= B2R b)%R -> (B2R a <= rnd x <= B2R b)%R.
Proof.
  intros x a b [H1 H2]. split.
  - rewrite <- (round_B2R a). apply round_le; [apply Vexp|apply valid_rnd_N|auto].
  - rewrite <- (round_B2R b). apply round_le; [apply Vexp|apply valid_rnd_N|auto].
Qed.
Lemma between_lt_emax : forall x (a b : float), (B2R a <= x <= B2R b)%R -> (Rabs x < bpow radix2 emax)%R.
Proof.
  intros x a b [H1 H2]. pose proof (abs_B2R_lt_emax _ _ a). pose proof (abs_B2R_lt_emax _ _ b).
  apply Rabs_def2 in H, H0. apply Rabs_def1; lra.
Qed.

Lemma Bplus_ok : forall x y : float, is_finite x = true -> is_finite y = true ->
  (Rabs (rnd (B2R x + B2R y)) < bpow radix2 emax)%R ->
  B2R (Bplus mode_NE x y) = rnd (B2R x + B2R y) /\ is_finite (Bplus mode_NE x y) = true.
Proof.
  intros x y Fx Fy L. pose proof (Bplus_correct prec emax _ _ mode_NE x y Fx Fy) as H.
  change (round_mode mode_NE) with ZnearestE in H. rewrite Rlt_bool_true in H by auto. tauto.
Qed.
Lemma Bminus_ok : forall x y : float, is_finite x = true -> is_finite y = true ->
  (Rabs (rnd (B2R x - B2R y)) < bpow radix2 emax)%R ->
  B2R (Bminus mode_NE x y) = rnd (B2R x - B2R y) /\ is_finite (Bminus mode_NE x y) = true.
Proof.
  intros x y Fx Fy L. pose proof (Bminus_correct prec emax _ _ mode_NE x y Fx Fy) as H.
  change (round_mode mode_NE) with ZnearestE in H. rewrite Rlt_bool_true in H by auto. tauto.
Qed.

(** ** distance between neighbours *)
Lemma fexp_eq : forall e, fexp e = Z.max (e - prec) (SpecFloat.emin prec emax).
Proof. intros. unfold SpecFloat.fexp. lia. Qed.
Lemma emin_neg : SpecFloat.emin prec emax < 0.
Proof. unfold SpecFloat.emin. pose proof (prec_gt_0 prec). lia. Qed.

Lemma pred_gap : forall x, (0 < x <= bpow radix2 (prec + 3))%R -> (x - 8 <= pred radix2 fexp x)%R.
Proof.
  intros x [H0 H1]. pose proof emin_neg. rewrite pred_eq_pos by lra. unfold pred_pos.
  change 8%R with (bpow radix2 3).
  destruct (Req_bool_spec x (bpow radix2 (mag radix2 x - 1))) as [E|E].
  - assert (M : (mag radix2 x - 1 <= prec + 3)%Z). { apply (le_bpow radix2). rewrite <- E. exact H1. }
    apply Rplus_le_compat_l, Ropp_le_contravar, bpow_le. rewrite fexp_eq. lia.
  - rewrite ulp_neq_0 by lra. unfold cexp.
    apply Rplus_le_compat_l, Ropp_le_contravar, bpow_le. rewrite fexp_eq.
    assert (M : (mag radix2 x - 1 < prec + 3)%Z); [|lia].
    apply (lt_bpow radix2). destruct (mag radix2 x) as [e G]. simpl in *.
    specialize (G ltac:(lra)). rewrite Rabs_pos_eq in G by lra.
    destruct (Rle_lt_or_eq_dec _ _ (proj1 G)); lra.
Qed.

Lemma multiple_16 : forall x, format x -> (bpow radix2 (prec + 3) <= x)%R -> exists k, x = (IZR k * 16)%R.
Proof.
  intros x F H. pose proof (bpow_gt_0 radix2 (prec + 3)).
  assert (C : (4 <= cexp radix2 fexp x)%Z).
  { unfold cexp. rewrite fexp_eq. assert (prec + 3 < mag radix2 x)%Z; [|lia].
    apply (lt_bpow radix2). apply Rle_lt_trans with x; auto. destruct (mag radix2 x) as [e G]. simpl.
    specialize (G ltac:(lra)). rewrite Rabs_pos_eq in G; lra. }
  rewrite F. unfold F2R. cbn [Fnum Fexp]. set (M := Ztrunc _).
  exists (M * 2 ^ (cexp radix2 fexp x - 4)). rewrite mult_IZR.
  change 16%R with (bpow radix2 4). rewrite (IZR_Zpower radix2) by lia.
  rewrite Rmult_assoc, <- bpow_plus. f_equal. f_equal. lia.
Qed.

Lemma thr_format : format (bpow radix2 (prec + 3)).
Proof. apply generic_format_bpow. rewrite fexp_eq. pose proof emin_neg. lia. Qed.

Lemma pred_gap_ge : forall x, format x -> (bpow radix2 (prec + 3) < x)%R -> (pred radix2 fexp x <= x - 16)%R.
Proof.
  intros x F H. pose proof (bpow_gt_0 radix2 (prec + 3)).
  assert (G : (bpow radix2 (prec + 3) <= pred radix2 fexp x)%R) by (apply pred_ge_gt; auto; apply thr_format).
  destruct (multiple_16 x F) as [k Ek]; [lra|].
  destruct (multiple_16 (pred radix2 fexp x)) as [k' Ek']; auto. { apply generic_format_pred; auto. }
  assert (L : (pred radix2 fexp x < x)%R) by (apply pred_lt_id; lra).
  rewrite Ek' in *. rewrite Ek in *. assert (k' < k)%Z. { apply lt_IZR. lra. }
  assert (k' <= k - 1)%Z as LL by lia. apply IZR_le in LL. rewrite minus_IZR in LL. lra.
Qed.

(** subtracting [tau] in [6,22/7*2] makes progress up to [2^(prec+3)] and none above it *)
Lemma rnd_sub_progress : forall x tau, format x -> (0 < x <= bpow radix2 (prec + 3))%R -> (6 <= tau)%R ->
  (rnd (x - tau) < x)%R.
Proof.
  intros x tau F H T. pose proof (pred_gap x H) as G.
  apply Rle_lt_trans with (pred radix2 fexp x); [|apply pred_lt_id; lra].
  apply round_N_le_midp; auto. { apply generic_format_pred; auto. }
  rewrite succ_pred by auto. lra.
Qed.
Lemma rnd_sub_stuck : forall x tau, format x -> (bpow radix2 (prec + 3) < x)%R -> (0 <= tau <= 7)%R ->
  (rnd (x - tau) = x)%R.
Proof.
  intros x tau F H T. pose proof (pred_gap_ge x F H) as G. apply Rle_antisym.
  - rewrite <- (round_generic radix2 fexp ZnearestE x F) at 2. apply round_le; [apply Vexp|apply valid_rnd_N|lra].
  - apply round_N_ge_midp; auto. lra.
Qed.

(** ** the loops *)
Variables pf tau : float.
Hypothesis Hpi : float_of_float prec emax lit_pi = pf.
Hypothesis Htau : Bmult mode_NE (float_of_Z prec emax 2) pf = tau.
Hypothesis Fpf : is_finite pf = true.
Hypothesis Ftau : is_finite tau = true.
Hypothesis Vpf : (3 <= B2R pf <= 22 / 7)%R.
Hypothesis Vtau : (B2R tau = 2 * B2R pf)%R.

Let c1 := fun t : float => Ok (o_lt float_ops t (Bopp pf)).
Let b1 := fun t : float => Ok (Bplus mode_NE t tau).
Let c2 := fun t : float => Ok (o_le float_ops pf t).
Let b2 := fun t : float => Ok (Bminus mode_NE t tau).

Lemma wrap_eq : forall fuel phi, mixed_wrap_phase (float_wrap_phase fuel) phi =
  bind (while fuel c1 b1 phi) (while fuel c2 b2).
Proof.
  intros. cbn [mixed_wrap_phase float_wrap_phase]. unfold wrap_phase.
  cbn [mixed_pi float_pi bind o_of_i32 o_mul float_ops o_neg float_signed o_add o_sub].
  rewrite Hpi, Htau. reflexivity.
Qed.

Lemma Fopp : is_finite (Bopp pf) = true.
Proof. rewrite is_finite_Bopp. exact Fpf. Qed.

(** one step up *)
Lemma step_up : forall t, is_finite t = true -> (B2R t < - B2R pf)%R ->
  is_finite (Bplus mode_NE t tau) = true /\
  B2R (Bplus mode_NE t tau) = rnd (B2R t + B2R tau) /\
  (B2R t <= B2R (Bplus mode_NE t tau) <= B2R pf)%R.
Proof.
  intros t F H. assert (Bd : (B2R t <= rnd (B2R t + B2R tau) <= B2R pf)%R) by (apply rnd_between; lra).
  destruct (Bplus_ok t tau F Ftau) as [V Fi]. { eapply between_lt_emax; exact Bd. }
  rewrite V. auto.
Qed.
Lemma step_down : forall t, is_finite t = true -> (B2R pf <= B2R t)%R ->
  is_finite (Bminus mode_NE t tau) = true /\
  B2R (Bminus mode_NE t tau) = rnd (B2R t - B2R tau) /\
  (- B2R pf <= B2R (Bminus mode_NE t tau) <= B2R t)%R.
Proof.
  intros t F H.
  assert (Bd : (B2R (Bopp pf) <= rnd (B2R t - B2R tau) <= B2R t)%R) by (apply rnd_between; rewrite B2R_Bopp; lra).
  destruct (Bminus_ok t tau F Ftau) as [V Fi]. { eapply between_lt_emax; exact Bd. }
  rewrite B2R_Bopp in Bd. rewrite V. auto.
Qed.

Lemma c1_nan : c1 B754_nan = Ok false. Proof. reflexivity. Qed.
Lemma c2_nan : c2 B754_nan = Ok false. Proof. unfold c2, o_le. cbn. destruct pf; try discriminate; reflexivity. Qed.
Lemma c1_pinf : c1 (B754_infinity false) = Ok false.
Proof. unfold c1, o_lt. cbn. destruct pf as [|?| |s ? ? ?]; try discriminate; reflexivity. Qed.
Lemma c1_ninf : c1 (B754_infinity true) = Ok true.
Proof. unfold c1, o_lt. cbn. destruct pf as [|?| |s ? ? ?]; try discriminate; reflexivity. Qed.
Lemma c2_pinf : c2 (B754_infinity false) = Ok true.
Proof. unfold c2, o_le. cbn. destruct pf as [|?| |[] ? ? ?]; try discriminate; reflexivity. Qed.
Lemma b1_ninf : b1 (B754_infinity true) = Ok (B754_infinity true).
Proof. unfold b1. destruct tau as [|?| |? ? ? ?]; try discriminate; reflexivity. Qed.
Lemma b2_pinf : b2 (B754_infinity false) = Ok (B754_infinity false).
Proof. unfold b2. destruct tau as [|?| |? ? ? ?]; try discriminate; reflexivity. Qed.
Lemma c1_fin : forall t, is_finite t = true ->
  (c1 t = Ok true /\ (B2R t < - B2R pf)%R) \/ (c1 t = Ok false /\ (- B2R pf <= B2R t)%R).
Proof.
  intros t F. pose proof (lt_cmp t (Bopp pf) F Fopp) as H. rewrite B2R_Bopp in H. unfold c1.
  destruct (o_lt float_ops t (Bopp pf)); [left|right]; split; auto; [apply H; auto|].
  apply Rnot_lt_le. intros L. apply H in L. discriminate.
Qed.
Lemma c2_fin : forall t, is_finite t = true ->
  (c2 t = Ok true /\ (B2R pf <= B2R t)%R) \/ (c2 t = Ok false /\ (B2R t < B2R pf)%R).
Proof.
  intros t F. pose proof (le_cmp pf t Fpf F) as H. unfold c2.
  destruct (o_le float_ops pf t); [left|right]; split; auto; [apply H; auto|].
  apply Rnot_le_lt. intros L. apply H in L. discriminate.
Qed.

Definition wrapped (r : float) := is_finite r = true /\ (- B2R pf <= B2R r < B2R pf)%R.

(** ** C12: identity on wrapped angles *)
Lemma wrap_identity : forall r fuel, wrapped r \/ r = B754_nan ->
  mixed_wrap_phase (float_wrap_phase (S fuel)) r = Ok r.
Proof.
  intros r fuel H. rewrite wrap_eq. rewrite !while_S.
  assert (C1 : c1 r = Ok false). { destruct H as [[F V]| ->]; [|apply c1_nan]. destruct (c1_fin r F) as [[_ L]|[E _]]; auto. lra. }
  assert (C2 : c2 r = Ok false). { destruct H as [[F V]| ->]; [|apply c2_nan]. destruct (c2_fin r F) as [[_ L]|[E _]]; auto. lra. }
  rewrite C1. cbn [bind]. rewrite while_S, C2. reflexivity.
Qed.

(** ** C10: range of the result *)
Lemma wrap_range_float : forall fuel phi r, mixed_wrap_phase (float_wrap_phase fuel) phi = Ok r ->
  (phi = B754_nan /\ r = B754_nan) \/ (is_finite phi = true /\ wrapped r).
Proof.
  intros fuel phi r H. rewrite wrap_eq in H. binv H.
  pose proof (fun I Hst => while_inv c1 b1 I Hst fuel phi v) as W1.
  pose proof (fun I Hst => while_inv c2 b2 I Hst fuel v r) as W2.
  destruct phi as [s|s| |s mm e Hb] eqn:Ephi.
  - right. split; auto.
    destruct (W1 (fun t => is_finite t = true)) as [F1 C1]; auto.
    { intros t t' F C B. inversion B; subst t'. destruct (c1_fin t F) as [[_ L]|[E' _]]; [|congruence]. apply step_up; auto. }
    destruct (W2 (fun t => is_finite t = true /\ (- B2R pf <= B2R t)%R)) as [[F2 L2] C2]; auto.
    { intros t t' [F L] C B. inversion B; subst t'. destruct (c2_fin t F) as [[_ L']|[E' _]]; [|congruence].
      destruct (step_down t F L') as [A1 [A2 A3]]. split; auto. lra. }
    { destruct (c1_fin v F1) as [[C1' L]|[_ L]]; [congruence|auto]. }
    destruct (c2_fin r F2) as [[C2' L]|[_ L]]; [congruence|]. split; auto.
  - exfalso. destruct s.
    + rewrite (while_diverges c1 b1 (fun t => t = B754_infinity true)) in E; auto; [discriminate|].
      intros t ->. split; [apply c1_ninf|]. exists (B754_infinity true). split; auto. apply b1_ninf.
    + destruct fuel; [discriminate|]. rewrite while_S, c1_pinf in E. inversion E; subst v.
      rewrite (while_diverges c2 b2 (fun t => t = B754_infinity false)) in H; auto; [discriminate|].
      intros t ->. split; [apply c2_pinf|]. exists (B754_infinity false). split; auto. apply b2_pinf.
  - left. split; auto. destruct fuel; [discriminate|]. rewrite while_S, c1_nan in E. inversion E; subst v.
    rewrite while_S, c2_nan in H. inversion H. reflexivity.
  - right. split; auto.
    destruct (W1 (fun t => is_finite t = true)) as [F1 C1]; auto.
    { intros t t' F C B. inversion B; subst t'. destruct (c1_fin t F) as [[_ L]|[E' _]]; [|congruence]. apply step_up; auto. }
    destruct (W2 (fun t => is_finite t = true /\ (- B2R pf <= B2R t)%R)) as [[F2 L2] C2]; auto.
    { intros t t' [F L] C B. inversion B; subst t'. destruct (c2_fin t F) as [[_ L']|[E' _]]; [|congruence].
      destruct (step_down t F L') as [A1 [A2 A3]]. split; auto. lra. }
    { destruct (c1_fin v F1) as [[C1' L]|[_ L]]; [congruence|auto]. }
    destruct (c2_fin r F2) as [[C2' L]|[_ L]]; [congruence|]. split; auto.
Qed.

(** ** C11: termination exactly up to [2^(prec+3)] *)
Let kof (t : float) : Z := Zfloor (B2R t * bpow radix2 (- SpecFloat.emin prec emax)).
Lemma kof_spec : forall t, B2R t = (IZR (kof t) * bpow radix2 (SpecFloat.emin prec emax))%R.
Proof.
  intros t. unfold kof. destruct (B2R_FIX t) as [k E]. rewrite E at 2.
  rewrite Rmult_assoc, <- bpow_plus. replace (_ + _) with 0 by lia. simpl. rewrite Rmult_1_r, Zfloor_IZR. exact E.
Qed.
Lemma kof_lt : forall t t', (B2R t < B2R t')%R -> kof t < kof t'.
Proof.
  intros t t' H. rewrite (kof_spec t), (kof_spec t') in H. apply lt_IZR.
  eapply Rmult_lt_reg_r; [|exact H]. apply bpow_gt_0.
Qed.

Lemma up_terminates : forall t, is_finite t = true -> (- bpow radix2 (prec + 3) <= B2R t)%R ->
  exists n t', while n c1 b1 t = Ok t' /\ is_finite t' = true /\ (- B2R pf <= B2R t')%R /\
    (B2R t' <= Rmax (B2R t) (B2R pf))%R.
Proof.
  intros t F L. 
  set (I := fun t' : float => is_finite t' = true /\ (B2R t <= B2R t' <= Rmax (B2R t) (B2R pf))%R).
  set (mu := fun t' => Z.to_nat (kof pf - kof t' + 1)).
  destruct (while_total c1 b1 I mu) with (n := S (mu t)) (s := t) as [t' [E' [[F' L'] C']]]; auto.
  - intros u [Fu Lu]. destruct (c1_fin u Fu) as [[C1 V]|[C1 V]]; auto. right. split; auto.
    exists (Bplus mode_NE u tau). split; auto. destruct (step_up u Fu V) as [A1 [A2 A3]].
    assert (Inc : (B2R u < B2R (Bplus mode_NE u tau))%R).
    { rewrite A2. pose proof (rnd_sub_progress (- B2R u) (B2R tau)) as R.
      replace (- B2R u - B2R tau)%R with (- (B2R u + B2R tau))%R in R by ring. rewrite round_NE_opp in R.
      assert (- rnd (B2R u + B2R tau) < - B2R u)%R; [|lra]. apply R; [|lra|lra].
      apply generic_format_opp, generic_format_B2R. }
    split.
    + split; auto. split; [lra|]. apply Rle_trans with (B2R pf); [lra|apply Rmax_r].
    + unfold mu. pose proof (kof_lt _ _ Inc). assert (kof u < kof pf) by (apply kof_lt; lra). lia.
  - split; auto. split; [lra|apply Rmax_l].
  - exists (S (mu t)), t'. destruct (c1_fin t' F') as [[C1 V]|[C1 V]]; [congruence|]. split; auto. split; auto. split; [lra|]. apply L'.
Qed.

Lemma down_terminates : forall t, is_finite t = true -> (- B2R pf <= B2R t <= bpow radix2 (prec + 3))%R ->
  exists n t', while n c2 b2 t = Ok t'.
Proof.
  intros t F L.
  set (I := fun t' : float => is_finite t' = true /\ (- B2R pf <= B2R t' <= B2R t)%R).
  set (mu := fun t' => Z.to_nat (kof t' - kof (Bopp pf) + 1)).
  destruct (while_total c2 b2 I mu) with (n := S (mu t)) (s := t) as [t' [E' [[F' L'] C']]]; auto.
  - intros u [Fu Lu]. destruct (c2_fin u Fu) as [[C1 V]|[C1 V]]; auto. right. split; auto.
    exists (Bminus mode_NE u tau). split; auto. destruct (step_down u Fu V) as [A1 [A2 A3]].
    assert (Dec : (B2R (Bminus mode_NE u tau) < B2R u)%R).
    { rewrite A2. apply rnd_sub_progress; [apply generic_format_B2R|lra|lra]. }
    split.
    + split; auto. lra.
    + unfold mu. pose proof (kof_lt _ _ Dec).
      assert (kof (Bopp pf) < kof u) by (apply kof_lt; rewrite B2R_Bopp; lra). lia.
  - split; auto. lra.
  - eauto.
Qed.

Lemma wrap_returns : forall phi, is_finite phi = true -> (Rabs (B2R phi) <= bpow radix2 (prec + 3))%R ->
  exists r, returns (fun fuel => mixed_wrap_phase (float_wrap_phase fuel) phi) r.
Proof.
  intros phi F L. apply Rabs_le_inv in L.
  destruct (up_terminates phi F) as [n1 [t1 [E1 [F1 [L1 M1]]]]]; [lra|].
  assert (B16 : (16 <= bpow radix2 (prec + 3))%R) by (change 16%R with (bpow radix2 4); apply bpow_le; lia).
  destruct (down_terminates t1 F1) as [n2 [t2 E2]].
  { split; auto. apply Rle_trans with (1 := M1). apply Rmax_lub; lra. }
  exists t2, (n1 + n2)%nat. intros n Hn. rewrite wrap_eq.
  rewrite (while_mono _ _ _ _ _ E1) by (try discriminate; lia). cbn [bind].
  apply (while_mono _ _ _ _ _ E2); [discriminate|lia].
Qed.

Lemma wrap_diverges : forall phi, 
  (exists s, phi = B754_infinity s) \/ (is_finite phi = true /\ (bpow radix2 (prec + 3) < Rabs (B2R phi))%R) ->
  diverges (fun fuel => mixed_wrap_phase (float_wrap_phase fuel) phi).
Proof.
  intros phi H fuel. rewrite wrap_eq.
  assert (B16 : (16 <= bpow radix2 (prec + 3))%R) by (change 16%R with (bpow radix2 4); apply bpow_le; lia).
  destruct H as [[[] ->]|[F L]].
  - rewrite (while_diverges c1 b1 (fun t => t = B754_infinity true)); auto.
    intros t ->. split; [apply c1_ninf|]. exists (B754_infinity true). split; auto. apply b1_ninf.
  - destruct fuel; auto. rewrite while_S, c1_pinf. cbn [bind].
    rewrite (while_diverges c2 b2 (fun t => t = B754_infinity false)); auto.
    intros t ->. split; [apply c2_pinf|]. exists (B754_infinity false). split; auto. apply b2_pinf.
  - unfold Rabs in L. destruct (Rcase_abs (B2R phi)) as [Neg|Pos].
    + assert (C : (B2R phi < - B2R pf)%R) by lra.
      rewrite (while_diverges c1 b1 (fun t => t = phi)); auto. intros t ->.
      destruct (c1_fin phi F) as [[C1 V]|[C1 V]]; [|lra]. split; auto.
      exists (Bplus mode_NE phi tau). split; auto.
      destruct (step_up phi F C) as [A1 [A2 A3]].
      assert (A4 : B2R (Bplus mode_NE phi tau) = B2R phi).
      { rewrite A2. pose proof (rnd_sub_stuck (- B2R phi) (B2R tau)) as R.
        replace (- B2R phi - B2R tau)%R with (- (B2R phi + B2R tau))%R in R by ring. rewrite round_NE_opp in R.
        assert (- rnd (B2R phi + B2R tau) = - B2R phi)%R; [|lra]. apply R; [|lra|lra].
        apply generic_format_opp, generic_format_B2R. }
      apply B2R_inj; auto.
      * destruct (Bplus mode_NE phi tau); try discriminate; simpl in *; [lra|auto].
      * destruct phi; try discriminate; simpl in *; [lra|auto].
    + destruct fuel; auto. rewrite while_S.
      destruct (c1_fin phi F) as [[C1 V]|[C1 V]]; [lra|]. rewrite C1. cbn [bind].
      rewrite (while_diverges c2 b2 (fun t => t = phi)); auto. intros t ->.
      destruct (c2_fin phi F) as [[C2 V2]|[C2 V2]]; [|lra]. split; auto.
      exists (Bminus mode_NE phi tau). split; auto.
      destruct (step_down phi F V2) as [A1 [A2 A3]].
      assert (A4 : B2R (Bminus mode_NE phi tau) = B2R phi).
      { rewrite A2. apply rnd_sub_stuck; [apply generic_format_B2R|lra|lra]. }
      apply B2R_inj; auto.
      * destruct (Bminus mode_NE phi tau); try discriminate; simpl in *; [lra|auto].
      * destruct phi; try discriminate; simpl in *; [lra|auto].
Qed.
End FW.
