(** * Combined statements for C13-C18. *)

From Coq Require Import ZArith Reals Lia Lra List Bool.
From Flocq Require Import Core.Core IEEE754.BinarySingleNaN.
From Verif Require Import Base FloatBase Traits Trig IntImpl FixedPrim FixedImpl FloatImpl Spec
  Lemmas ScalarProofs FloatLemmas FloatProofs.
Open Scope Z_scope.

Lemma int_types_width : forall t, In t int_types -> 8 <= iwidth t.
Proof. intros t H. simpl in H. repeat destruct H as [<- | H]; simpl; try lia; contradiction. Qed.

Lemma int_sign_abs_all : forall m t x, In t int_types -> in_range t x ->
  mixed_sign (int_real m t) x = Ok (if x <? 0 then -1 else 1) /\
  (~ (isigned t = true /\ x = imin t) -> mixed_abs (int_abs m t) x = Ok (Z.abs x)) /\
  (isigned t = true -> x = imin t ->
     mixed_abs (int_abs m t) x = match m with Debug => Panic POverflow | Release => Ok x end) /\
  (forall s a, mixed_sign (int_real m t) x = Ok s -> mixed_abs (int_abs m t) x = Ok a ->
     o_mul (int_ops m t) s a = Ok x).
Proof.
  intros m t x Ht Hx. pose proof (int_types_width t Ht) as Hw.
  split; [|split; [|split]].
  - apply int_sign_spec; auto; lia.
  - intros. apply int_abs_spec; auto; lia.
  - intros S ->. apply int_abs_min; auto; lia.
  - intros s a Hs Ha. eapply int_sign_mul_abs; eauto; lia.
Qed.

Lemma fixed_sign_abs_all : forall m f x, supported f = true -> fvalid f x ->
  mixed_sign (fixed_real m f) x = Ok (if x <? 0 then - 2 ^ ffrac f else 2 ^ ffrac f) /\
  (~ (fsigned f = true /\ x = fmin f) -> mixed_abs (fixed_abs m f) x = Ok (Z.abs x)) /\
  (fsigned f = true -> x = fmin f ->
     mixed_abs (fixed_abs m f) x = match m with Debug => Panic POverflow | Release => Ok x end) /\
  (forall s a, mixed_sign (fixed_real m f) x = Ok s -> mixed_abs (fixed_abs m f) x = Ok a ->
     o_mul (fixed_ops m f) s a = Ok x).
Proof.
  intros m f x Hf Hx. pose proof (supported_fwf f Hf) as W.
  split; [|split; [|split]].
  - apply fixed_sign_spec; auto.
  - intros. apply fixed_abs_spec; auto.
  - intros S ->. apply fixed_abs_min; auto.
  - intros s a Hs Ha. eapply fixed_sign_mul_abs; eauto.
Qed.

Section F.
Context {prec emax : Z} {Hp : Prec_gt_0 prec} {He : Prec_lt_emax prec emax}.
Notation float := (binary_float prec emax).

Lemma float_sign_abs_all : 1 < prec -> forall x : float, is_nan x = false ->
  exists s a p, mixed_sign float_real x = Ok s /\ mixed_abs float_abs x = Ok a /\
    o_mul float_ops s a = Ok p /\
    ((is_finite x = true /\ (B2R x < 0)%R) \/ x = B754_infinity true -> s = Bopp Bone) /\
    (~ ((is_finite x = true /\ (B2R x < 0)%R) \/ x = B754_infinity true) -> s = Bone) /\
    (is_finite x = true -> B2R a = Rabs (B2R x)) /\ Bsign a = false /\
    Bcompare p x = Some Eq /\ (x <> B754_zero true -> p = x).
Proof.
  intros P1 x N. pose proof (float_sign_spec P1 x N) as Hs.
  do 3 eexists. split; [exact Hs|]. split; [reflexivity|].
  split; [apply (float_sign_mul_abs P1 x _ _ N Hs eq_refl)|].
  pose proof (B2R_finite_sign x N) as L.
  assert (R : forall y : float, is_nan y = false -> Bcompare y y = Some Eq).
  { intros [s|s| |s mx e B] Ny; try discriminate; unfold Bcompare; simpl; auto.
    - destruct s; auto.
    - destruct s; rewrite Z.compare_refl, ?Pos.compare_cont_refl; auto. }
  split; [intros H; apply L in H; rewrite H; auto|].
  split. { intros H. destruct (o_lt float_ops x (B754_zero false)) eqn:E; auto. exfalso. apply H, L. auto. }
  split; [intros; apply B2R_Babs|].
  split; [destruct x; try discriminate; auto|].
  split; destruct x as [[]|s| |s mx e B]; try discriminate; auto; try (apply R; auto).
  intros H. congruence.
Qed.

Lemma float_predicates_nonzero : forall x : float, is_finite x = true -> B2R x <> 0%R ->
  (mixed_is_positive float_real x = true <-> (0 < B2R x)%R) /\
  (mixed_is_negative float_real x = true <-> (B2R x < 0)%R).
Proof.
  intros x F N. cbn [mixed_is_positive mixed_is_negative float_real].
  pose proof (B2R_sign_le x F) as H. destruct (Bsign x); simpl; split; split; intros; auto; try discriminate; try lra.
Qed.

Lemma float_powi_all : forall x : float, mixed_powi float_powi x 0 = Ok Bone /\ mixed_powi float_powi x 1 = Ok x /\
     mixed_powi float_powi x 2 = Ok (Bmult mode_NE x x) /\
     mixed_powi float_powi x (-1) = Ok (Bdiv mode_NE Bone x) /\
     (forall e, exists r, mixed_powi float_powi x e = Ok r /\
        (Z.even e = true -> Bsign r = false /\ mixed_powi float_powi (Bopp x) e = Ok r) /\
        (Z.even e = false -> mixed_powi float_powi (Bopp x) e = Ok (Bopp r))).
Proof.
  intros x. destruct (powi_small x) as (A & B & C & D).
  split; [exact A|]. split; [exact B|]. split; [exact C|]. split; [exact D|].
  intros e. eexists. split; [reflexivity|]. rewrite powi_opp. split; intros E.
  - split; [eapply powi_even_nonneg; eauto; reflexivity|]. rewrite E. reflexivity.
  - rewrite E. reflexivity.
Qed.
End F.

Lemma int_predicates_nonzero : forall m t x, In t int_types -> in_range t x -> x <> 0 ->
     (mixed_is_positive (int_real m t) x = true <-> 0 < x) /\
     (mixed_is_negative (int_real m t) x = true <-> x < 0).
Proof.
  intros m t x Ht Hx Nz. cbn [mixed_is_positive mixed_is_negative int_real].
  unfold in_range, imin in Hx. destruct (isigned t).
  - rewrite !Z.ltb_lt. tauto.
  - split; split; intros; auto; try discriminate; lia.
Qed.
Lemma fixed_predicates_nonzero : forall m f x, supported f = true -> fvalid f x -> x <> 0 ->
     (mixed_is_positive (fixed_real m f) x = true <-> 0 < x) /\
     (mixed_is_negative (fixed_real m f) x = true <-> x < 0).
Proof.
  intros m f x Ht Hx Nz. cbn [mixed_is_positive mixed_is_negative fixed_real].
  apply fvalid_iff in Hx. destruct (fsigned f).
  - rewrite !Z.ltb_lt. tauto.
  - split; split; intros; auto; try discriminate; lia.
Qed.
Lemma int_predicates_zero : forall m t x, In t int_types -> in_range t x ->
  (mixed_is_positive (int_real m t) x = mixed_is_negative (int_real m t) x
   <-> isigned t = true /\ x = 0).
Proof.
  intros m t x Ht Hx. cbn [mixed_is_positive mixed_is_negative int_real].
  destruct (isigned t).
  - destruct (Z.ltb_spec 0 x), (Z.ltb_spec x 0); split; intros; try discriminate; try lia; auto; split; auto; lia.
  - split; [discriminate | intros [? _]; discriminate].
Qed.

Lemma int_powi_all : forall t x n, In t int_types -> in_range t x -> 0 <= n < 2 ^ 31 ->
  mixed_powi (int_powi Release t) x n = Ok (wrap t (x ^ n)) /\
  (in_range t (x ^ n) -> mixed_powi (int_powi Debug t) x n = Ok (x ^ n)) /\
  (~ in_range t (x ^ n) -> mixed_powi (int_powi Debug t) x n = Panic POverflow).
Proof.
  intros t x n Ht Hx Hn. pose proof (int_types_width t Ht) as Hw.
  rewrite !int_mixed_powi_spec by (auto; lia). rewrite fin_release by lia.
  split; [auto|]. split; intros; [apply fin_ok | apply fin_debug_over]; auto.
Qed.
Lemma trig_powi_all : forall t x (n : N), In t int_types -> in_range t x ->
  powi (int_ops Release t) x n = Ok (wrap t (x ^ Z.of_N n)) /\
  (in_range t (x ^ Z.of_N n) -> powi (int_ops Debug t) x n = Ok (x ^ Z.of_N n)) /\
  (~ in_range t (x ^ Z.of_N n) -> powi (int_ops Debug t) x n = Panic POverflow).
Proof.
  intros t x n Ht Hx. pose proof (int_types_width t Ht) as Hw.
  rewrite !int_powi_spec by (auto; lia). rewrite fin_release by lia.
  split; [auto|]. split; intros; [apply fin_ok | apply fin_debug_over]; auto.
Qed.

(** reals and bits *)
Lemma fval_eq : forall f a, 0 <= ffrac f -> fval f a = (IZR a / IZR (fone f))%R.
Proof.
  intros f a F. unfold fval, fone. change 2 with (radix_val radix2).
  rewrite bpow_opp, <- IZR_Zpower by auto. reflexivity.
Qed.
Lemma ulp_eq : forall f, 0 <= ffrac f -> ulp f = (/ IZR (fone f))%R.
Proof.
  intros f F. unfold ulp, fone. change 2 with (radix_val radix2).
  rewrite bpow_opp, <- IZR_Zpower by auto. reflexivity.
Qed.
Lemma fone_IZR_pos : forall f, 0 <= ffrac f -> (0 < IZR (fone f))%R.
Proof. intros. apply IZR_lt. apply fone_pos; auto. Qed.

Lemma fval_pow : forall f a n, 0 <= ffrac f -> 0 <= n ->
  (fval f a ^ Z.to_nat n)%R = (IZR (a ^ n) / IZR (fone f ^ n))%R.
Proof.
  intros f a n F Hn. rewrite fval_eq by auto. unfold Rdiv. rewrite Rpow_mult_distr, pow_inv.
  rewrite !pow_IZR. rewrite !Z2Nat.id by auto. reflexivity.
Qed.

Lemma fixed_powi_all : forall m f x, supported f = true -> fvalid f x ->
  mixed_powi (fixed_powi m f) x 0 = Ok (2 ^ ffrac f) /\
  mixed_powi (fixed_powi m f) x 1 = Ok x /\
  (forall n, 1 <= n < 2 ^ 31 -> (Rabs (fval f x) <= 1)%R ->
     exists r, mixed_powi (fixed_powi m f) x n = Ok r /\ fvalid f r /\
       (Rabs (fval f r - fval f x ^ Z.to_nat n) <= IZR (n - 1) * ulp f)%R /\
       (Rabs (fval f r) <= 1)%R /\
       (0 <= x -> (0 <= fval f r <= fval f x ^ Z.to_nat n)%R)) /\
  (forall k n, x = k * 2 ^ ffrac f -> 0 <= n < 2 ^ 31 -> fvalid f (k ^ n * 2 ^ ffrac f) ->
     mixed_powi (fixed_powi m f) x n = Ok (k ^ n * 2 ^ ffrac f)).
Proof.
  intros m f x Hf Hx. pose proof (supported_fwf f Hf) as W. pose proof (proj1 W) as F0.
  pose proof (fone_IZR_pos f F0) as P. pose proof (fone_pos f F0) as PZ.
  split; [|split; [|split]].
  - cbn [mixed_powi fixed_powi]. rewrite to_N_usize_nonneg by lia. apply powi_0; auto.
  - cbn [mixed_powi fixed_powi]. rewrite to_N_usize_nonneg by lia. apply powi_1.
  - intros n Hn Hu. cbn [mixed_powi fixed_powi]. rewrite to_N_usize_nonneg by lia.
    assert (Hu' : Z.abs x <= fone f).
    { rewrite fval_eq in Hu by auto. unfold Rdiv in Hu. rewrite Rabs_mult, Rabs_inv in Hu.
      rewrite (Rabs_pos_eq (IZR (fone f))) in Hu by lra.
      apply Rmult_le_compat_r with (r := IZR (fone f)) in Hu; [|lra].
      rewrite Rmult_assoc, Rinv_l, Rmult_1_r, Rmult_1_l in Hu by lra.
      rewrite <- abs_IZR in Hu. apply le_IZR. auto. }
    destruct (fixed_powi_unit m f W x (Z.to_N n) Hx Hu' ltac:(lia)) as (r & E & Ar & Vr & B & Pz).
    exists r. split; [exact E|]. split; [exact Vr|].
    replace (Z.of_N (Z.to_N n - 1)) with (n - 1) in * by lia. rewrite Z2N.id in * by lia.
    rewrite fval_pow by lia. rewrite !fval_eq, ulp_eq by auto.
    assert (En : fone f ^ n = fone f * fone f ^ (n - 1)).
    { rewrite <- Z.pow_succ_r by lia. f_equal. lia. }
    assert (P1 : 0 < fone f ^ (n - 1)) by (apply Z.pow_pos_nonneg; lia).
    assert (P1' : (0 < IZR (fone f ^ (n - 1)))%R) by (apply IZR_lt; auto).
    rewrite En, mult_IZR.
    split; [|split].
    + replace (IZR r / IZR (fone f) - IZR (x ^ n) / (IZR (fone f) * IZR (fone f ^ (n - 1))))%R
        with (IZR (r * fone f ^ (n - 1) - x ^ n) * / (IZR (fone f) * IZR (fone f ^ (n - 1))))%R
        by (rewrite minus_IZR, mult_IZR; field; lra).
      rewrite Rabs_mult, Rabs_inv, (Rabs_pos_eq (IZR (fone f) * _)) by (apply Rlt_le, Rmult_lt_0_compat; auto).
      rewrite <- abs_IZR.
      apply Rmult_le_reg_r with (IZR (fone f) * IZR (fone f ^ (n - 1)))%R; [apply Rmult_lt_0_compat; auto|].
      replace (IZR (n - 1) * / IZR (fone f) * (IZR (fone f) * IZR (fone f ^ (n - 1))))%R
        with (IZR ((n - 1) * fone f ^ (n - 1))) by (rewrite mult_IZR; field; lra).
      rewrite Rmult_assoc, Rinv_l, Rmult_1_r by (apply Rgt_not_eq, Rmult_lt_0_compat; auto).
      apply IZR_le. exact B.
    + unfold Rdiv. rewrite Rabs_mult, Rabs_inv, (Rabs_pos_eq (IZR (fone f))) by lra.
      apply Rmult_le_reg_r with (IZR (fone f)); auto. rewrite Rmult_assoc, Rinv_l, Rmult_1_r, Rmult_1_l by lra.
      rewrite <- abs_IZR. apply IZR_le. auto.
    + intros X0. destruct (Pz X0) as [R0 R1]. split.
      * apply Rmult_le_pos; [apply IZR_le; auto | apply Rlt_le, Rinv_0_lt_compat; auto].
      * apply Rmult_le_reg_r with (IZR (fone f) * IZR (fone f ^ (n - 1)))%R; [apply Rmult_lt_0_compat; auto|].
        replace (IZR r / IZR (fone f) * (IZR (fone f) * IZR (fone f ^ (n - 1))))%R with (IZR (r * fone f ^ (n - 1))) by (rewrite mult_IZR; field; lra).
        replace (IZR (x ^ n) / (IZR (fone f) * IZR (fone f ^ (n - 1))) * (IZR (fone f) * IZR (fone f ^ (n - 1))))%R with (IZR (x ^ n)) by (field; lra).
        apply IZR_le. auto.
  - intros k n -> Hn V. cbn [mixed_powi fixed_powi]. rewrite to_N_usize_nonneg by lia.
    pose proof (fixed_powi_int m f W k (Z.to_N n) Hx) as E. rewrite Z2N.id in E by lia.
    unfold fone in E at 1. rewrite E. apply fx_fin_ok. auto.
Qed.

Lemma negative_powi_all : 
  (forall m t x n, In t int_types -> in_range t x -> - 2 ^ 31 <= n < 0 ->
     mixed_powi (int_powi m t) x n = fin m t (x ^ (2 ^ 64 + n))) /\
  (forall m f x n, supported f = true -> 0 <= x < 2 ^ ffrac f -> - 2 ^ 31 <= n < 0 ->
     mixed_powi (fixed_powi m f) x n = Ok 0).
Proof.
  split.
  - intros m t x n Ht Hx Hn. pose proof (int_types_width t Ht). apply int_mixed_powi_neg; auto. lia.
  - intros m f x n Hf Hx Hn. pose proof (supported_fwf f Hf) as W.
    cbn [mixed_powi fixed_powi]. rewrite to_N_usize_neg by auto.
    apply fixed_powi_flush; auto.
    assert (fone f <= 2 ^ 61).
    { unfold fone. apply supported_inv in Hf. apply Z.pow_le_mono_r; lia. }
    pose proof (fone_pos f (proj1 W)). lia.
Qed.

Lemma pow2_wrap0 : forall n, 32 <= n -> wrap i32 (2 ^ n) = 0.
Proof.
  intros n Hn. apply wrap_unique with (- 2 ^ (n - 32)); [cbn; lia| |].
  - cbv. split; discriminate.
  - cbn [iwidth i32]. replace (- 2 ^ (n - 32) * 2 ^ 32) with (- (2 ^ (n - 32) * 2 ^ 32)) by ring.
    rewrite <- Z.pow_add_r by lia. replace (n - 32 + 32) with n by lia. lia.
Qed.

Lemma negative_powi_cases :
  (forall m, mixed_powi (float_powi (prec:=53) (emax:=1024)) (float_of_Z 53 1024 2) (-1) = Ok (float_of_scaled 53 1024 1 (-1))
    /\ mixed_powi (fixed_powi m (mkFty true 32 22)) (2 ^ 21) (-1) = Ok 0
    /\ fval (mkFty true 32 22) (2 ^ 21) = (1 / 2)%R) /\
  mixed_powi (int_powi Debug i32) 2 (-1) = Panic POverflow /\
  mixed_powi (int_powi Release i32) 2 (-1) = Ok 0 /\
  mixed_powi (int_powi Debug i32) (-1) (-1) = Ok (-1).
Proof.
  destruct negative_powi_all as [I Fx].
  assert (Ht : In i32 int_types) by (cbn; tauto).
  assert (V2 : in_range i32 2) by (cbv; split; discriminate).
  assert (V1 : in_range i32 (-1)) by (cbv; split; discriminate).
  split; [intros m; split; [cbn [mixed_powi float_powi]; apply f_equal, B2SF_inj; vm_compute; reflexivity|split]|split; [|split]].
  - apply Fx; [reflexivity | cbn; lia | lia].
  - rewrite fval_eq by (simpl; lia). unfold fone. cbn [ffrac].
    replace (2 ^ 22) with (2 * 2 ^ 21) by reflexivity. rewrite mult_IZR.
    assert (0 < IZR (2 ^ 21))%R by (apply IZR_lt; lia). field. lra.
  - rewrite I by (auto; lia). apply fin_debug_over. intros [_ H].
    revert H. apply Z.lt_nge. change (imax i32) with (2 ^ 31 - 1).
    apply Z.lt_le_trans with (2 ^ 32); [reflexivity|]. apply Z.pow_le_mono_r; [reflexivity | discriminate].
  - rewrite I by (auto; lia). rewrite fin_release by (cbn; lia). rewrite pow2_wrap0; [reflexivity | discriminate].
  - rewrite I by (auto; lia).
    assert (E : (-1) ^ (2 ^ 64 + -1) = -1).
    { change (-1) with (-(1)) at 1. rewrite Z.pow_opp_odd.
      - rewrite Z.pow_1_l by discriminate. reflexivity.
      - exists (2 ^ 63 - 1). reflexivity. }
    rewrite E. apply fin_ok. auto.
Qed.
