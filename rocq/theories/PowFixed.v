(** * Integer powers of fixed-point numbers of any size (proofs for C95). *)

From Coq Require Import ZArith NArith Reals Lia Lra Psatz List Bool.
From Flocq Require Import Core.Core IEEE754.BinarySingleNaN.
From Verif Require Import Base FloatBase Literals Traits Trig FixedPrim FixedImpl Spec
  Lemmas ScalarProofs ScalarProofs2 NiirfZ SinFixed.
Open Scope Z_scope.

Section Pow.
Variable f : fty.
Hypothesis W : fwf f.
Notation q := (fone f).

(** [zpow x k] is the product of [k + 1] factors, each product rounded down *)
Fixpoint zpow (x : Z) (k : nat) : Z := match k with O => x | S j => zpow x j * x / q end.

Lemma powi_step : forall m x (k : nat), powi (fixed_ops m f) x (N.of_nat (S (S k))) = (t <- powi (fixed_ops m f) x (N.of_nat (S k)) ;; fx_mul m f t x).
Proof using. intros m x k. rewrite (Nat2N.inj_succ (S k)), Nat2N.inj_succ. apply powi_succ. Qed.
Lemma powi_zpow : forall m x k, fvalid f x -> (forall j, (j <= k)%nat -> fvalid f (zpow x j)) -> powi (fixed_ops m f) x (N.of_nat (S k)) = Ok (zpow x k).
Proof using.
  intros m x k V. induction k as [|k IH]; intros H; [apply powi_1|]. rewrite powi_step, IH by (intros; apply H; lia). cbn [bind].
  unfold fx_mul. apply fx_fin_ok. apply (H (S k)). lia.
Qed.
Lemma powi_debug : forall x k r, powi (fixed_ops Debug f) x (N.of_nat (S k)) = Ok r -> r = zpow x k.
Proof using.
  intros x k. induction k as [|k IH]; intros r H.
  - change (N.of_nat 1) with 1%N in H. rewrite powi_1 in H. simpl. congruence.
  - rewrite powi_step in H. destruct (powi _ x (N.of_nat (S k))) as [t| |] eqn:E; cbn [bind] in H; try discriminate.
    rewrite (IH t eq_refl) in H. apply fin_debug_inv in H. exact (proj1 H).
Qed.

Lemma zpow_err : forall x k, let X := fval f x in let M := Rmax 1 (Rabs X) in
  (Rabs (fval f (zpow x k) - X ^ S k) <= INR k * M ^ (k - 1) * ulp f)%R.
Proof using W.
  intros x k X M. pose proof (fone_IZR_pos f (proj1 W)) as Q. pose proof (fone_pos f (proj1 W)) as QZ.
  assert (U : (ulp f = / IZR q)%R) by (apply ulp_eq; apply W). assert (U0 : (0 < ulp f)%R) by (rewrite U; apply Rinv_0_lt_compat; auto).
  assert (M1 : (1 <= M)%R) by apply Rmax_l. assert (MX : (Rabs X <= M)%R) by apply Rmax_r.
  induction k as [|k IH].
  - cbn [zpow]. fold X. rewrite pow_1, Rminus_diag_eq, Rabs_R0 by reflexivity. simpl. lra.
  - cbn [zpow]. set (z := zpow x k) in *.
    assert (F : (- ulp f <= fval f (z * x / q) - fval f z * X <= 0)%R).
    { unfold X. rewrite !fval_eq, U by apply W. pose proof (floor_real (z * x) q QZ) as [A B]. rewrite mult_IZR in *.
      replace (IZR (z * x / q) / IZR q - IZR z / IZR q * (IZR x / IZR q))%R with ((IZR (z * x / q) - IZR z * IZR x / IZR q) * / IZR q)%R by (field; lra).
      assert (0 < / IZR q)%R by (apply Rinv_0_lt_compat; auto). split; nra. }
    replace (fval f (z * x / q) - X ^ S (S k))%R with ((fval f (z * x / q) - fval f z * X) + (fval f z - X ^ S k) * X)%R by (simpl; ring).
    eapply Rle_trans; [apply Rabs_triang|]. rewrite Rabs_mult.
    assert (A : (Rabs (fval f (z * x / q) - fval f z * X) <= ulp f)%R) by (apply Rabs_le; lra).
    assert (B : (Rabs (fval f z - X ^ S k) * Rabs X <= INR k * M ^ k * ulp f)%R).
    { destruct k as [|k].
      - assert (E : (fval f z - X ^ 1 = 0)%R) by (unfold z, X; simpl; ring). rewrite E, Rabs_R0. simpl. lra.
      - eapply Rle_trans; [apply Rmult_le_compat; [apply Rabs_pos | apply Rabs_pos | exact IH | exact MX]|].
        replace (S k - 1)%nat with k by lia. right. simpl (M ^ S k)%R. ring. }
    replace (S k - 1)%nat with k by lia. rewrite S_INR. assert (MK : (1 <= M ^ k)%R) by (apply pow_R1_Rle; auto). nra.
Qed.
Lemma pow_abs_le : forall X M k n, (Rabs X <= M -> 1 <= M -> (k <= n)%nat -> Rabs (X ^ k) <= M ^ n)%R.
Proof using.
  intros X M k n A B L. rewrite <- RPow_abs. apply Rle_trans with (M ^ k)%R; [apply pow_incr; split; auto; apply Rabs_pos|].
  apply Rle_pow; auto.
Qed.
Lemma err_mono : forall M k n, (1 <= M -> (k <= n)%nat -> INR k * M ^ (k - 1) <= INR n * M ^ (n - 1))%R.
Proof using.
  intros M k n B L. apply Rmult_le_compat; [apply pos_INR | apply pow_le; lra | apply le_INR; auto | apply Rle_pow; auto; lia].
Qed.
Lemma zpow_valid : forall x k, fvalid f x -> let M := Rmax 1 (Rabs (fval f x)) in
  (M ^ S k + INR k * M ^ (k - 1) * ulp f <= fval f (fmax f))%R -> forall j, (j <= k)%nat -> fvalid f (zpow x j).
Proof using W.
  intros x k V M H j J. pose proof (fone_IZR_pos f (proj1 W)) as Q. pose proof (fone_pos f (proj1 W)) as QZ.
  assert (U0 : (0 < ulp f)%R) by (rewrite ulp_eq by apply W; apply Rinv_0_lt_compat; auto).
  assert (M1 : (1 <= M)%R) by apply Rmax_l. assert (MX : (Rabs (fval f x) <= M)%R) by apply Rmax_r.
  pose proof (zpow_err x j) as E. cbv zeta in E. fold M in E.
  pose proof (pow_abs_le (fval f x) M (S j) (S k) MX M1 ltac:(lia)) as P.
  pose proof (err_mono M j k M1 J) as G. apply Rmult_le_compat_r with (r := ulp f) in G; [|lra].
  assert (A : (Rabs (fval f (zpow x j)) <= fval f (fmax f))%R).
  { replace (fval f (zpow x j)) with ((fval f (zpow x j) - fval f x ^ S j) + fval f x ^ S j)%R by ring.
    eapply Rle_trans; [apply Rabs_triang|]. lra. }
  assert (AZ : Z.abs (zpow x j) <= fmax f).
  { apply le_IZR. rewrite abs_IZR. rewrite !fval_eq in A by apply W. unfold Rdiv in A.
    rewrite Rabs_mult, (Rabs_pos_eq (/ IZR q)) in A by (apply Rlt_le, Rinv_0_lt_compat; auto).
    apply Rmult_le_reg_r with (/ IZR q)%R; auto. apply Rinv_0_lt_compat; auto. }
  unfold fvalid, in_range in *. unfold fmax in AZ. split; [|lia]. destruct (fsigned f) eqn:S.
  - unfold imin. unfold imax in AZ. cbn [fity isigned iwidth] in *. rewrite S in *. lia.
  - unfold imin in *. cbn [fity isigned iwidth] in *. rewrite S in *. destruct V as [V _].
    clear - V QZ W. assert (K : forall j, 0 <= zpow x j). { induction j0 as [|j0 IH]; cbn [zpow]; auto. apply Z.div_pos; nia. } apply K.
Qed.
End Pow.

Lemma pow_fixed : forall f, supported f = true -> forall x n, fvalid f x -> 1 <= n < 2 ^ 31 ->
  let X := fval f x in let M := Rmax 1 (Rabs X) in
  let err := (IZR (n - 1) * M ^ Z.to_nat (n - 2) * ulp f)%R in
  (forall r, mixed_powi (fixed_powi Debug f) x n = Ok r -> (Rabs (fval f r - X ^ Z.to_nat n) <= err)%R) /\
  ((M ^ Z.to_nat n + err <= fval f (fmax f))%R -> exists r, fvalid f r /\ forall m, mixed_powi (fixed_powi m f) x n = Ok r) /\
  ((fval f (fmax f) + ulp f + err < Rabs (X ^ Z.to_nat n))%R -> mixed_powi (fixed_powi Debug f) x n = Panic POverflow).
Proof.
  intros f Hf x n V N X M err. pose proof (supported_fwf f Hf) as W.
  pose proof (fone_IZR_pos f (proj1 W)) as Q.
  set (k := Z.to_nat (n - 1)). assert (EN : Z.to_N n = N.of_nat (S k)) by (unfold k; lia).
  assert (E1 : Z.to_nat n = S k) by (unfold k; lia).
  assert (E2 : err = (INR k * M ^ (k - 1) * ulp f)%R).
  { unfold err. f_equal. f_equal; [|f_equal; unfold k; lia]. rewrite INR_IZR_INZ. f_equal. unfold k. lia. }
  assert (ED : forall m, mixed_powi (fixed_powi m f) x n = powi (fixed_ops m f) x (N.of_nat (S k))).
  { intros m. cbn [mixed_powi fixed_powi]. rewrite to_N_usize_nonneg by lia. rewrite EN. reflexivity. }
  rewrite E1, E2. clear err E2. assert (A : forall r, mixed_powi (fixed_powi Debug f) x n = Ok r -> (Rabs (fval f r - X ^ S k) <= INR k * M ^ (k - 1) * ulp f)%R).
  { intros r H. rewrite ED in H. apply powi_debug in H. subst r. apply (zpow_err f W). }
  split; [exact A|split].
  - intros H. exists (zpow f x k). pose proof (zpow_valid f W x k V H) as Z. split; [apply Z; lia|]. intros m. rewrite ED. apply powi_zpow; auto.
  - intros H. destruct (powi_ok_or f x n) as [[r E]|E]; auto. exfalso. pose proof (A r E) as B.
    assert (VR : fvalid f r).
    { destruct k as [|k'].
      - rewrite ED in E. change (N.of_nat 1) with 1%N in E. rewrite powi_1 in E. injection E as <-. exact V.
      - rewrite ED, powi_step in E. destruct (powi _ x (N.of_nat (S k'))) as [t| |]; cbn [bind] in E; try discriminate.
        apply fin_debug_inv in E. destruct E as [-> E]. exact E. }
    assert (C : (Rabs (fval f r) <= fval f (fmax f) + ulp f)%R).
    { assert (Z.abs r <= fmax f + 1).
      { unfold fvalid, in_range, imin, imax in VR. unfold fmax, imax. cbn [fity isigned iwidth] in *. destruct (fsigned f); lia. }
      apply IZR_le in H0. rewrite abs_IZR, plus_IZR in H0. rewrite !fval_eq, ulp_eq by apply W. unfold Rdiv.
      assert (IQ : (0 < / IZR (fone f))%R) by (apply Rinv_0_lt_compat; auto). rewrite Rabs_mult, (Rabs_pos_eq (/ _)) by lra. nra. }
    assert (Rabs (X ^ S k) <= Rabs (fval f r) + Rabs (fval f r - X ^ S k))%R; [|lra].
    replace (X ^ S k)%R with (fval f r - (fval f r - X ^ S k))%R at 1 by ring. eapply Rle_trans; [apply Rabs_triang|]. rewrite Rabs_Ropp. lra.
Qed.
