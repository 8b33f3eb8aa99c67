(** * Products of many polar numbers. *)

From Coq Require Import ZArith Reals Lra Lia List Bool.
From Flocq Require Import Core.Core IEEE754.BinarySingleNaN.
From Verif Require Import Base FloatBase Traits Trig IntImpl FixedPrim FixedImpl FloatImpl Complex Spec Lemmas ScalarProofs ScalarProofs2
  ComplexProofs ComplexProofs2 ComplexProofs3 ProdProofs PhaseAcc SinReal FloatKit PowFloat.
Import ListNotations.
Open Scope Z_scope.

Section Fixed.
Context (m : mode) (f : fty) (Hf : supported f = true).
Notation O := (fixed_ops m f).

Lemma pm_eq : forall p q, polar_mul O p q = if (mag p =? 0) || (mag q =? 0) then Ok (mkP 0 0) else
  (a <- fx_mul m f (mag p) (mag q) ;; b <- fx_add m f (ang p) (ang q) ;; Ok (mkP a b)).
Proof using Hf.
  intros p q. assert (HZ : o_of_i32 O 0 = Ok 0) by (cbn; rewrite fx_of_int_small by (try lia; apply supported_fwf; auto); reflexivity).
  assert (E : forall a, o_eq O a 0 = (a =? 0)).
  { intros a. unfold o_eq. rewrite (word_cmp _ _ _ (word_fixed m (fity f) f eq_refl)). destruct (Z.compare_spec a 0), (Z.eqb_spec a 0); auto; lia. }
  destruct ((mag p =? 0) || (mag q =? 0)) eqn:B.
  - apply orb_true_iff in B. apply (polar_mul_zero O 0 HZ). rewrite !E. tauto.
  - apply orb_false_iff in B as [B1 B2]. rewrite (polar_mul_nonzero O 0 HZ) by (rewrite E; auto). reflexivity.
Qed.
Lemma run_zero : forall ws, run (polar_mul O) (mkP 0 0) ws = Ok (mkP 0 0).
Proof using Hf. induction ws as [|w ws IH]; [reflexivity|]. rewrite run_cons, pm_eq. cbn [mag Z.eqb orb bind]. exact IH. Qed.

Definition prodR (l : list R) : R := fold_right Rmult 1%R l.
Lemma prod_le1 : forall l, Forall (fun v => (Rabs v <= 1)%R) l -> (Rabs (prodR l) <= 1)%R.
Proof using.
  induction 1 as [|v l H _ IH]; cbn [prodR fold_right]; [rewrite Rabs_R1; lra|]. fold (prodR l). rewrite Rabs_mult.
  pose proof (Rabs_pos v). pose proof (Rabs_pos (prodR l)). nra.
Qed.
Lemma fval_one_le : forall a, Z.abs a <= fone f -> (Rabs (fval f a) <= 1)%R.
Proof using Hf.
  intros a H. pose proof (supported_fwf f Hf) as W. unfold fval. rewrite Rabs_mult, (Rabs_pos_eq (bpow radix2 _)) by apply bpow_ge_0. rewrite <- abs_IZR.
  apply Rle_trans with (IZR (fone f) * bpow radix2 (- ffrac f))%R; [apply Rmult_le_compat_r; [apply bpow_ge_0|apply IZR_le; auto]|].
  unfold fone. change 2 with (radix_val radix2) at 1. rewrite IZR_Zpower by apply W. rewrite <- bpow_plus. replace (ffrac f + - ffrac f) with 0 by lia. cbn. lra.
Qed.
Lemma mul_floor : forall a b, (Rabs (fval f (a * b / fone f) - fval f a * fval f b) <= ulp f)%R.
Proof using Hf.
  intros a b. pose proof (supported_fwf f Hf) as W. pose proof (fone_pos f (proj1 W)) as P.
  assert (E : (fval f a * fval f b = fval f 1 * (IZR (a * b) / IZR (fone f)))%R).
  { unfold fval, fone. rewrite mult_IZR. change 2 with (radix_val radix2). rewrite IZR_Zpower by apply W. rewrite bpow_opp. field. apply Rgt_not_eq, bpow_gt_0. }
  rewrite E. unfold fval, ulp. set (u := bpow radix2 (- ffrac f)). assert (U : (0 < u)%R) by apply bpow_gt_0.
  pose proof (Z.div_mod (a * b) (fone f) ltac:(lia)) as D. pose proof (Z.mod_pos_bound (a * b) (fone f) P) as M.
  assert (P' : (0 < IZR (fone f))%R) by (apply IZR_lt; auto).
  replace (IZR (a * b / fone f) * u - 1 * u * (IZR (a * b) / IZR (fone f)))%R with (- (IZR (a * b mod fone f) / IZR (fone f)) * u)%R.
  2: { replace (IZR (a * b)) with (IZR (fone f) * IZR (a * b / fone f) + IZR (a * b mod fone f))%R by (rewrite <- mult_IZR, <- plus_IZR; f_equal; lia). field. lra. }
  rewrite Rabs_mult, Rabs_Ropp, (Rabs_pos_eq u) by lra.
  assert (Q : (0 <= IZR (a * b mod fone f) / IZR (fone f) <= 1)%R).
  { split; [apply Rmult_le_pos; [apply IZR_le; lia|left; apply Rinv_0_lt_compat; auto]|].
    apply Rmult_le_reg_r with (IZR (fone f)); auto. unfold Rdiv. rewrite Rmult_assoc, Rinv_l, Rmult_1_r, Rmult_1_l by lra. apply IZR_le. lia. }
  rewrite Rabs_pos_eq by lra. nra.
Qed.

Lemma chain : forall ws z, fvalid f (mag z) -> Z.abs (mag z) <= fmax f -> fvalid f (ang z) ->
  Forall (fun w => fvalid f (mag w) /\ Z.abs (mag w) <= fone f) ws ->
  (m = Debug -> forall k, fvalid f (ang z + sumZ (map ang (firstn k ws)))) ->
  exists r, run (polar_mul O) z ws = Ok r /\
  (Rabs (fval f (mag r) - fval f (mag z) * prodR (map (fun w => fval f (mag w)) ws)) <= INR (length ws) * ulp f)%R /\
  (r = mkP 0 0 \/ ang r = wrap (fity f) (ang z + sumZ (map ang ws))).
Proof using Hf.
  pose proof (supported_fwf f Hf) as W. pose proof (fone_pos f (proj1 W)) as P1. assert (W0 : 1 <= iwidth (fity f)) by (cbn; destruct W; lia).
  assert (Up : (0 < ulp f)%R) by apply bpow_gt_0.
  induction ws as [|w ws IH]; intros z Vm Am Va HF HD.
  - exists z. split; [reflexivity|]. cbn [map prodR fold_right length sumZ]. split.
    + replace (fval f (mag z) - fval f (mag z) * 1)%R with 0%R by ring. rewrite Rabs_R0. cbn. lra.
    + right. rewrite Z.add_0_r, wrap_id by auto. reflexivity.
  - inversion HF as [|? ? [Vw Aw] HF']; subst. rewrite run_cons, pm_eq.
    assert (Pr : (Rabs (prodR (map (fun w => fval f (mag w)) ws)) <= 1)%R).
    { apply prod_le1. rewrite Forall_map. eapply Forall_impl; [|exact HF']. intros a [_ A]. apply fval_one_le; auto. }
    change (length (w :: ws)) with (S (length ws)). rewrite S_INR. pose proof (pos_INR (length ws)) as PI'.
    cbn [map prodR fold_right sumZ]. fold (prodR (map (fun w => fval f (mag w)) ws)). set (Q := prodR (map (fun w => fval f (mag w)) ws)) in *.
    destruct ((mag z =? 0) || (mag w =? 0)) eqn:B.
    + cbn [bind]. rewrite run_zero. exists (mkP 0 0). split; auto. split; [|left; auto].
      assert (E0 : (fval f (mag z) * (fval f (mag w) * Q) = 0)%R).
      { apply orb_true_iff in B as [B|B]; apply Z.eqb_eq in B; rewrite B; unfold fval; ring. }
      rewrite E0. cbn [mag]. replace (fval f 0) with 0%R by (unfold fval; ring). rewrite Rminus_0_r, Rabs_R0. nra.
    + set (a := mag z * mag w / fone f).
      assert (Ba : - Z.abs (mag z) <= a <= Z.abs (mag z)).
      { unfold a. split; [apply Z.div_le_lower_bound; auto; nia|]. apply Z.div_le_upper_bound; auto. nia. }
      assert (VA : fvalid f a).
      { unfold fvalid, in_range, fmax in *. destruct (fsigned f) eqn:Sg; unfold imin, imax in *; cbn [isigned iwidth fity] in *; rewrite Sg in *.
        - lia.
        - split; [|lia]. unfold a. apply Z.div_pos; auto. nia. }
      unfold fx_mul. fold a. rewrite (fx_fin_ok m f a VA). cbn [bind].
      assert (E : fx_add m f (ang z) (ang w) = Ok (wrap (fity f) (ang z + ang w))).
      { unfold fx_add, fx_fin, fin. destruct (in_rangeb (fity f) (ang z + ang w)) eqn:IR.
        - f_equal. rewrite wrap_id; auto. unfold in_rangeb in IR. unfold in_range. lia.
        - destruct m; auto. specialize (HD eq_refl 1%nat). cbn [firstn map sumZ] in HD. unfold fvalid, in_range in HD. unfold in_rangeb in IR. lia. }
      rewrite E. cbn [bind].
      destruct (IH (mkP a (wrap (fity f) (ang z + ang w)))) as (r & Hr & Mr & Ar); cbn [mag ang]; auto.
      { lia. }
      { apply wrap_range; auto. }
      { intros Em k. pose proof (HD Em 1%nat) as H1. pose proof (HD Em (S k)) as H2. cbn [firstn map sumZ] in H1, H2.
        rewrite wrap_id; auto; [|unfold fvalid in H1; replace (ang z + ang w) with (ang z + (ang w + 0)) by lia; auto].
        replace (ang z + ang w + sumZ (map ang (firstn k ws))) with (ang z + (ang w + sumZ (map ang (firstn k ws)))) by lia. auto. }
      exists r. split; auto. cbn [mag ang] in Mr, Ar. split.
      * pose proof (mul_floor (mag z) (mag w)) as MF. fold a in MF. fold Q in Mr.
        replace (fval f (mag r) - fval f (mag z) * (fval f (mag w) * Q))%R with
          ((fval f (mag r) - fval f a * Q) + (fval f a - fval f (mag z) * fval f (mag w)) * Q)%R by ring.
        eapply Rle_trans; [apply Rabs_triang|]. rewrite Rabs_mult. pose proof (Rabs_pos Q). pose proof (Rabs_pos (fval f a - fval f (mag z) * fval f (mag w))). nra.
      * destruct Ar as [->|Ar]; [left; auto|right]. rewrite Ar, wrap_add_l by auto. f_equal. lia.
Qed.

(** factors of magnitude one *)
Lemma unit_step : forall z w, fvalid f (mag z) -> mag z <> 0 -> mag w = fone f -> polar_mul O z w = (b <- fx_add m f (ang z) (ang w) ;; Ok (mkP (mag z) b)).
Proof using Hf.
  intros z w V N E. pose proof (supported_fwf f Hf) as W. pose proof (fone_pos f (proj1 W)) as P1. rewrite pm_eq, E.
  replace (mag z =? 0) with false by (symmetry; apply Z.eqb_neq; auto). replace (fone f =? 0) with false by (symmetry; apply Z.eqb_neq; lia). cbn [orb].
  unfold fx_mul. rewrite Z.div_mul by lia. rewrite fx_fin_ok by auto. reflexivity.
Qed.
Lemma unit_wrapped : forall fuel ws mz phi, fvalid f mz -> mz <> 0 -> Forall (fun w => mag w = fone f) ws ->
  run (fun p w => q <- polar_mul O p w ;; a <- mixed_wrap_phase (fixed_wrap_phase m f fuel) (ang q) ;; Ok (mkP (mag q) a)) (mkP mz phi) ws =
  map_res (mkP mz) (run (fun a s => t <- o_add O a s ;; mixed_wrap_phase (fixed_wrap_phase m f fuel) t) phi (map ang ws)).
Proof using Hf.
  intros fuel ws mz phi V N H. revert phi. induction H as [|w ws E _ IH]; intros phi; [reflexivity|].
  cbn [map]. rewrite !run_cons. rewrite unit_step by auto. cbn [mag ang]. change (o_add O phi (ang w)) with (fx_add m f phi (ang w)).
  destruct (fx_add m f phi (ang w)) as [t|?|]; cbn [bind]; try reflexivity. cbn [mag ang].
  destruct (mixed_wrap_phase (fixed_wrap_phase m f fuel) t) as [a|?|]; cbn [bind]; try reflexivity. apply IH.
Qed.
End Fixed.

Lemma unit_release : forall f, supported f = true -> forall ws z, fvalid f (mag z) -> mag z <> 0 -> fvalid f (ang z) -> Forall (fun w => mag w = fone f) ws ->
  run (polar_mul (fixed_ops Release f)) z ws = Ok (mkP (mag z) (wrap (fity f) (ang z + sumZ (map ang ws)))).
Proof.
  intros f Hf. pose proof (supported_fwf f Hf) as W. assert (W0 : 1 <= iwidth (fity f)) by (cbn; destruct W; lia).
  induction ws as [|w ws IH]; intros z V N A H.
  - cbn. rewrite Z.add_0_r, wrap_id by auto. destruct z; reflexivity.
  - inversion H; subst. rewrite run_cons, (unit_step Release f Hf) by auto. unfold fx_add, fx_fin. rewrite fin_release by auto. cbn [bind].
    rewrite IH by (cbn [mag ang]; auto; apply wrap_range; auto). cbn [mag ang map sumZ]. rewrite wrap_add_l by auto. do 3 f_equal. lia.
Qed.
Lemma unit_debug : forall f, supported f = true -> forall ws z r, fvalid f (mag z) -> mag z <> 0 -> fvalid f (ang z) -> Forall (fun w => mag w = fone f) ws ->
  run (polar_mul (fixed_ops Debug f)) z ws = Ok r <-> (forall k, fvalid f (ang z + sumZ (map ang (firstn k ws)))) /\ r = mkP (mag z) (ang z + sumZ (map ang ws)).
Proof.
  intros f Hf. induction ws as [|w ws IH]; intros z r V N A H.
  - change (run (polar_mul (fixed_ops Debug f)) z []) with (Ok z). cbn [map sumZ]. rewrite Z.add_0_r. split.
    + intros E. inversion E; subst. split; [intros k; rewrite firstn_nil; cbn [map sumZ]; rewrite Z.add_0_r; auto|]. destruct r; reflexivity.
    + intros [_ ->]. destruct z; reflexivity.
  - inversion H; subst. rewrite run_cons, (unit_step Debug f Hf) by auto. unfold fx_add, fx_fin, fin.
    destruct (in_rangeb (fity f) (ang z + ang w)) eqn:E; cbn [bind].
    + assert (V1 : fvalid f (ang z + ang w)) by (unfold fvalid, in_range; unfold in_rangeb in E; lia).
      rewrite IH by (cbn [mag ang]; auto). cbn [mag ang map sumZ]. rewrite Z.add_assoc. split; intros [K ->]; split; auto.
      * intros [|k]; cbn [firstn map sumZ]; [rewrite Z.add_0_r; auto|]. rewrite Z.add_assoc. apply K.
      * intros k. specialize (K (S k)). cbn [firstn map sumZ] in K. rewrite Z.add_assoc in K. exact K.
    + split; [discriminate|]. intros [K _]. specialize (K 1%nat). cbn [firstn map sumZ] in K. unfold fvalid, in_range in K. unfold in_rangeb in E. lia.
Qed.

(** three factors (1, 3.0) where the angle has room for +-8 only *)
Lemma wrong_way : forall f, supported f = true -> fsigned f = true -> ffrac f = fwidth f - 4 ->
  let w := mkP (fone f) (3 * fone f) in exists r, run (polar_mul (fixed_ops Release f)) (mkP (fone f) 0) [w; w; w] = Ok r /\ 
  fval f (ang r) = (-7)%R /\ (Rtrigo_def.cos (3 * fval f (ang w)) < 0 < Rtrigo_def.cos (fval f (ang r)))%R /\
  run (polar_mul (fixed_ops Debug f)) (mkP (fone f) 0) [w; w; w] = Panic POverflow.
Proof.
  intros f Hf Sg Fr w. pose proof (supported_fwf f Hf) as W. pose proof (fone_pos f (proj1 W)) as P1. assert (W0 : 1 <= iwidth (fity f)) by (cbn; destruct W; lia).
  assert (T : 2 ^ iwidth (fity f) = 16 * fone f).
  { cbn [iwidth fity]. unfold fone. rewrite Fr. replace (fwidth f) with (4 + (fwidth f - 4)) at 1 by lia. rewrite Z.pow_add_r by (destruct W; lia). reflexivity. }
  assert (T' : 2 ^ (iwidth (fity f) - 1) = 8 * fone f).
  { cbn [iwidth fity]. unfold fone. rewrite Fr. replace (fwidth f - 1) with (3 + (fwidth f - 4)) at 1 by lia. rewrite Z.pow_add_r by (destruct W; lia). reflexivity. }
  assert (R : forall k, -8 * fone f <= k <= 8 * fone f - 1 -> fvalid f k).
  { intros k K. unfold fvalid, in_range, imin, imax. rewrite T'. cbn [isigned fity]. rewrite Sg. lia. }
  assert (V1 : fvalid f (fone f)) by (apply R; lia).
  exists (mkP (fone f) (-7 * fone f)). 
  assert (FV : forall k, fval f (k * fone f) = IZR k).
  { intros k. unfold fval. rewrite mult_IZR, Rmult_assoc. replace (IZR (fone f) * bpow radix2 (- ffrac f))%R with 1%R; [ring|].
    unfold fone. change 2 with (radix_val radix2). rewrite IZR_Zpower by apply W. rewrite <- bpow_plus. replace (ffrac f + - ffrac f) with 0 by lia. reflexivity. }
  split; [|split; [|split]].
  - rewrite (unit_release f Hf) by (cbn [mag ang]; first [lia | apply R; lia | repeat constructor]). cbn [mag ang map sumZ]. do 2 f_equal.
    apply wrap_unique with (k := -1); auto; [apply R; lia|]. rewrite T. subst w. cbn [ang]. lia.
  - cbn [ang]. apply FV.
  - cbn [ang]. subst w. cbn [ang]. rewrite !FV. pose proof pi_bounds as B. split.
    + replace (3 * IZR 3)%R with ((9 - 2 * PI) + 2 * PI)%R by ring. rewrite cos_plus, cos_2PI, sin_2PI.
      assert (Rtrigo_def.cos (9 - 2 * PI) < 0)%R by (apply cos_lt_0; lra). lra.
    + replace (-7)%R with (- (7))%R by ring. rewrite cos_neg. replace 7%R with ((7 - 2 * PI) + 2 * PI)%R by ring. rewrite cos_plus, cos_2PI, sin_2PI.
      assert (0 < Rtrigo_def.cos (7 - 2 * PI))%R by (apply cos_gt_0; lra). lra.
  - rewrite run_cons, (unit_step Debug f Hf) by (cbn [mag ang]; auto; lia). unfold fx_add. rewrite fx_fin_ok by (apply R; cbn [ang w]; lia). cbn [bind].
    rewrite run_cons, (unit_step Debug f Hf) by (cbn [mag ang]; auto; lia). unfold fx_add. rewrite fx_fin_ok by (apply R; cbn [ang w]; lia). cbn [bind].
    rewrite run_cons, (unit_step Debug f Hf) by (cbn [mag ang]; auto; lia). unfold fx_add, fx_fin. rewrite fin_debug_over; [reflexivity|].
    unfold in_range, imin, imax. rewrite T'. cbn [isigned fity]. rewrite Sg. subst w. cbn [ang]. lia.
Qed.

Lemma unit_wrap_loop : forall m f, supported f = true -> fsigned f = true -> (m = Release \/ ffrac f <= fwidth f - 4) ->
  exists p, mixed_pi (fixed_pi m f) = Ok p /\
  forall ws z, fvalid f (mag z) -> mag z <> 0 -> (- fval f p <= fval f (ang z) < fval f p)%R ->
  Forall (fun w => mag w = fone f /\ (fval f p + Rabs (fval f (ang w)) <= fval f (fmax f))%R) ws ->
  exists r, returns (fun fuel => run (fun p w => q <- polar_mul (fixed_ops m f) p w ;; a <- mixed_wrap_phase (fixed_wrap_phase m f fuel) (ang q) ;; Ok (mkP (mag q) a)) z ws) r /\
  mag r = mag z /\ (- fval f p <= fval f (ang r) < fval f p)%R /\
  exists k, (fval f (ang z) + fold_right Rplus 0 (map (fun w => fval f (ang w)) ws) = fval f (ang r) + IZR k * (2 * fval f p))%R.
Proof.
  intros m f Hf Sg HM. destruct (nco_fixed m f Hf Sg HM) as (p & Ep & H). exists p. split; auto. intros ws z V N B HF.
  destruct (H (map ang ws) (ang z) B) as (r & [n0 R] & Br & k & K).
  { rewrite Forall_map. eapply Forall_impl; [|exact HF]. intros a [_ A]; exact A. }
  exists (mkP (mag z) r). split; [|split; [|split]]; cbn [mag ang]; auto.
  - exists n0. intros n Hn. destruct z as [mz az]. rewrite unit_wrapped; auto.
    + specialize (R n Hn). cbv beta in R. cbn [ang mag]. cbn [ang] in R. rewrite R. reflexivity.
    + eapply Forall_impl; [|exact HF]. intros a [A _]; exact A.
  - exists k. rewrite map_map in K. exact K.
Qed.

(** ** Floats *)
Section Float.
Context {p e : Z} {Hp : Prec_gt_0 p} {He : Prec_lt_emax p e}.
Notation float := (binary_float p e).
Lemma unit_float_step : forall z w : Polar float, is_finite (mag z) = true -> B2R (mag z) <> 0%R -> is_finite (mag w) = true -> B2R (mag w) = 1%R ->
  polar_mul float_ops z w = Ok (mkP (mag z) (Bplus mode_NE (ang z) (ang w))).
Proof using.
  intros z w Fz N Fw W1. destruct (polar_mul_float_all z w) as (_ & H & _).
  assert (NZ : forall x : float, is_finite x = true -> B2R x <> 0%R -> Bcompare x (B754_zero false) <> Some Eq).
  { intros x F X C. rewrite Bcompare_correct in C by auto. change (B2R (B754_zero false : float)) with 0%R in C. inversion C as [C']. apply Rcompare_Eq_inv in C'. auto. }
  rewrite H; [|apply NZ; auto|apply NZ; auto; lra]. do 2 f_equal.
  pose proof (Bmult_correct p e Hp He mode_NE (mag z) (mag w)) as C. rewrite W1, Rmult_1_r in C.
  rewrite round_generic in C; [|apply valid_rnd_round_mode|apply generic_format_B2R].
  rewrite Rlt_bool_true in C by apply abs_B2R_lt_emax. destruct C as (C1 & C2 & _). rewrite Fz, Fw in C2. cbn [andb] in C2.
  assert (ST : forall x : float, is_finite x = true -> B2R x <> 0%R -> is_finite_strict x = true) by (intros [] F X; auto; cbn in X; congruence).
  apply B2R_inj; auto. apply ST; auto. rewrite C1. auto.
Qed.
Lemma unit_float : forall K, 3 - e <= K < e -> forall ws (z : Polar float) S,
  is_finite (mag z) = true -> B2R (mag z) <> 0%R -> is_finite (ang z) = true ->
  Forall (fun w : Polar float => is_finite (mag w) = true /\ B2R (mag w) = 1%R /\ is_finite (ang w) = true) ws ->
  (Rabs (B2R (ang z)) <= S)%R ->
  (S + fold_right Rplus 0 (map (fun w : Polar float => Rabs (B2R (ang w))) ws) + INR (length ws) * (/ 2 * bpow radix2 (K - p)) <= bpow radix2 K)%R ->
  exists r, run (polar_mul float_ops) z ws = Ok r /\ mag r = mag z /\ is_finite (ang r) = true /\
  (Rabs (B2R (ang r) - (B2R (ang z) + fold_right Rplus 0 (map (fun w : Polar float => B2R (ang w)) ws))) <= INR (length ws) * (/ 2 * bpow radix2 (K - p)))%R.
Proof using.
  intros K HK. pose proof (bpow_gt_0 radix2 (K - p)) as G. set (g := bpow radix2 (K - p)) in *.
  assert (PS : forall ws : list (Polar float), (0 <= fold_right Rplus 0 (map (fun w : Polar float => Rabs (B2R (ang w))) ws))%R).
  { induction ws as [|w ws IH]; cbn [map fold_right]; [lra|]. pose proof (Rabs_pos (B2R (ang w))). lra. }
  induction ws as [|w ws IH]; intros z S Fm N Fa HF HS HB.
  - exists z. split; [reflexivity|]. split; auto. split; auto. cbn. replace (B2R (ang z) - (B2R (ang z) + 0))%R with 0%R by ring. rewrite Rabs_R0. lra.
  - inversion HF as [|? ? (Fw & W1 & Faw) HF']; subst. change (length (w :: ws)) with (Datatypes.S (length ws)) in *. rewrite S_INR in *. cbn [map fold_right] in *.
    pose proof (PS ws) as P. pose proof (pos_INR (length ws)) as PI.
    assert (PG : (0 <= INR (length ws) * (/ 2 * g))%R) by (apply Rmult_le_pos; lra).
    rewrite run_cons, unit_float_step by auto. cbn [bind].
    assert (A : (Rabs (B2R (ang z) + B2R (ang w)) <= S + Rabs (B2R (ang w)))%R) by (pose proof (Rabs_triang (B2R (ang z)) (B2R (ang w))); lra).
    destruct (plus_r (ang z) (ang w) Fa Faw K HK ltac:(lra)) as [F1 E1].
    pose proof (rnd_err (prec := p) (emax := e) (B2R (ang z) + B2R (ang w)) K ltac:(lra) (proj1 HK)) as Er. rewrite <- E1 in Er. fold g in Er.
    destruct (IH (mkP (mag z) (Bplus mode_NE (ang z) (ang w))) (S + Rabs (B2R (ang w)) + / 2 * g)%R) as (r & R & M & F & B); cbn [mag ang]; auto.
    { replace (B2R (Bplus mode_NE (ang z) (ang w))) with ((B2R (Bplus mode_NE (ang z) (ang w)) - (B2R (ang z) + B2R (ang w))) + (B2R (ang z) + B2R (ang w)))%R by ring.
      eapply Rle_trans; [apply Rabs_triang|]. lra. }
    { lra. }
    cbn [mag ang] in M, B. exists r. split; auto. split; auto. split; auto. apply Rabs_le_inv in B. apply Rabs_le_inv in Er. apply Rabs_le. lra.
Qed.
Lemma prod_float : forall K n, 3 - e <= K < e -> (INR n * bpow radix2 (- p) <= / 4)%R -> forall ws (z : Polar float) S T j,
  (j + length ws <= n)%nat -> is_finite (mag z) = true -> is_finite (ang z) = true ->
  Forall (fun w : Polar float => is_finite (mag w) = true /\ is_finite (ang w) = true) ws ->
  (forall k, bpow radix2 (3 - e) <= Rabs (T * prodR (map (fun w : Polar float => B2R (mag w)) (firstn k ws))) <= bpow radix2 (e - 2))%R ->
  (Rabs (B2R (mag z) - T) <= ((1 + bpow radix2 (- p)) ^ j - 1) * Rabs T)%R ->
  (Rabs (B2R (ang z)) <= S)%R ->
  (S + fold_right Rplus 0 (map (fun w : Polar float => Rabs (B2R (ang w))) ws) + INR (length ws) * (/ 2 * bpow radix2 (K - p)) <= bpow radix2 K)%R ->
  exists r, run (polar_mul float_ops) z ws = Ok r /\ is_finite (mag r) = true /\ is_finite (ang r) = true /\
  (Rabs (B2R (mag r) - T * prodR (map (fun w : Polar float => B2R (mag w)) ws)) <= ((1 + bpow radix2 (- p)) ^ (j + length ws) - 1) * Rabs (T * prodR (map (fun w : Polar float => B2R (mag w)) ws)))%R /\
  (Rabs (B2R (ang r) - (B2R (ang z) + fold_right Rplus 0 (map (fun w : Polar float => B2R (ang w)) ws))) <= INR (length ws) * (/ 2 * bpow radix2 (K - p)))%R.
Proof using.
  intros K n HK HN. pose proof (bpow_gt_0 radix2 (K - p)) as G. set (g := bpow radix2 (K - p)) in *.
  pose proof (bpow_gt_0 radix2 (- p)) as Up. set (u := bpow radix2 (- p)) in *.
  assert (PW : forall i, (i <= n)%nat -> (1 <= (1 + u) ^ i <= 3 / 2)%R).
  { intros i Hi. split; [apply pow_R1_Rle; lra|]. pose proof (le_INR _ _ Hi) as L. pose proof (pos_INR i) as P0.
    assert (INR i * u <= / 4)%R by (eapply Rle_trans; [|exact HN]; apply Rmult_le_compat_r; lra).
    pose proof (bern_high u i ltac:(lra) ltac:(lra)). lra. }
  assert (PS : forall ws : list (Polar float), (0 <= fold_right Rplus 0 (map (fun w : Polar float => Rabs (B2R (ang w))) ws))%R).
  { induction ws as [|w ws IH]; cbn [map fold_right]; [lra|]. pose proof (Rabs_pos (B2R (ang w))). lra. }
  induction ws as [|w ws IH]; intros z S T j Hj Fm Fa HF HT HM HS HB.
  - exists z. split; [reflexivity|]. split; auto. split; auto. cbn [map prodR fold_right length]. rewrite Rmult_1_r, Nat.add_0_r. split; auto.
    replace (B2R (ang z) - (B2R (ang z) + 0))%R with 0%R by ring. rewrite Rabs_R0. cbn. lra.
  - inversion HF as [|? ? (Fw & Faw) HF']; subst. change (length (w :: ws)) with (Datatypes.S (length ws)) in *. rewrite S_INR in *. cbn [map fold_right] in *.
    pose proof (PS ws) as P. pose proof (pos_INR (length ws)) as PI. 
    assert (PG : (0 <= INR (length ws) * (/ 2 * g))%R) by (apply Rmult_le_pos; lra).
    pose proof (PW j ltac:(lia)) as Pj. set (q := ((1 + u) ^ j)%R) in *.
    pose proof (HT 0%nat) as T0. cbn [firstn map prodR fold_right] in T0. rewrite Rmult_1_r in T0.
    pose proof (HT 1%nat) as T1. cbn [firstn map prodR fold_right] in T1. rewrite Rmult_1_r in T1.
    pose proof (bpow_gt_0 radix2 (3 - e)) as B3. 
    assert (D2 : (bpow radix2 (3 - e) = 2 * bpow radix2 (2 - e))%R) by (replace (3 - e) with (1 + (2 - e)) by ring; rewrite bpow_plus; reflexivity).
    assert (D1 : (bpow radix2 (e - 1) = 2 * bpow radix2 (e - 2))%R) by (replace (e - 1) with (1 + (e - 2)) by ring; rewrite bpow_plus; reflexivity).
    assert (NT : (/ 2 * Rabs T <= Rabs (B2R (mag z)) <= 3 / 2 * Rabs T)%R).
    { pose proof (Rabs_triang (B2R (mag z) - T) T) as A1. replace (B2R (mag z) - T + T)%R with (B2R (mag z)) in A1 by ring.
      pose proof (Rabs_triang (T - B2R (mag z)) (B2R (mag z))) as A2. replace (T - B2R (mag z) + B2R (mag z))%R with T in A2 by ring. rewrite Rabs_minus_sym in A2. split; nra. }
    rewrite Rabs_mult in T1. pose proof (Rabs_pos (B2R (mag w))) as Wp.
    assert (MW : (bpow radix2 (2 - e) <= Rabs (B2R (mag z) * B2R (mag w)) <= bpow radix2 (e - 1))%R) by (rewrite Rabs_mult; split; nra).
    assert (NZ : forall x : float, is_finite x = true -> (0 < Rabs (B2R x))%R -> Bcompare x (B754_zero false) <> Some Eq).
    { intros x F X C. rewrite Bcompare_correct in C by auto. change (B2R (B754_zero false : float)) with 0%R in C. inversion C as [C']. apply Rcompare_Eq_inv in C'.
      rewrite C', Rabs_R0 in X. lra. }
    destruct (polar_mul_float_all z w) as (_ & H & _). rewrite run_cons, H by (apply NZ; auto; nra). cbn [bind].
    assert (Pe : 0 < p) by exact Hp. assert (Ee : p < e) by exact He.
    destruct (mult_r (mag z) (mag w) Fm Fw (e - 1) ltac:(lia) ltac:(lra)) as [F2 E2].
    pose proof (PowFloat.rnd_rel (prec := p) (emax := e) (B2R (mag z) * B2R (mag w)) ltac:(lra)) as Rr. rewrite <- E2 in Rr. fold u in Rr.
    assert (A : (Rabs (B2R (ang z) + B2R (ang w)) <= S + Rabs (B2R (ang w)))%R) by (pose proof (Rabs_triang (B2R (ang z)) (B2R (ang w))); lra).
    destruct (plus_r (ang z) (ang w) Fa Faw K HK ltac:(lra)) as [F1 E1].
    pose proof (rnd_err (prec := p) (emax := e) (B2R (ang z) + B2R (ang w)) K ltac:(lra) (proj1 HK)) as Er. rewrite <- E1 in Er. fold g in Er.
    destruct (IH (mkP (Bmult mode_NE (mag z) (mag w)) (Bplus mode_NE (ang z) (ang w))) (S + Rabs (B2R (ang w)) + / 2 * g)%R (T * B2R (mag w))%R (Datatypes.S j)) as (r & R & Fr1 & Fr2 & Bm & B); cbn [mag ang]; auto.
    { lia. }
    { intros k. specialize (HT (Datatypes.S k)). cbn [firstn map prodR fold_right] in HT. rewrite <- Rmult_assoc in HT. exact HT. }
    { cbn [pow]. fold q. set (m' := B2R (Bmult mode_NE (mag z) (mag w))) in *.
      replace (m' - T * B2R (mag w))%R with ((m' - B2R (mag z) * B2R (mag w)) + (B2R (mag z) - T) * B2R (mag w))%R by ring.
      eapply Rle_trans; [apply Rabs_triang|]. rewrite !Rabs_mult. rewrite Rabs_mult in Rr.
      assert (X : (Rabs (B2R (mag z)) <= q * Rabs T)%R).
      { pose proof (Rabs_triang (B2R (mag z) - T) T) as A1. replace (B2R (mag z) - T + T)%R with (B2R (mag z)) in A1 by ring. lra. }
      assert (X2 : (u * (Rabs (B2R (mag z)) * Rabs (B2R (mag w))) <= u * (q * Rabs T * Rabs (B2R (mag w))))%R) by (apply Rmult_le_compat_l; [lra|]; apply Rmult_le_compat_r; lra).
      assert (X3 : (Rabs (B2R (mag z) - T) * Rabs (B2R (mag w)) <= (q - 1) * Rabs T * Rabs (B2R (mag w)))%R) by (apply Rmult_le_compat_r; lra).
      lra. }
    { replace (B2R (Bplus mode_NE (ang z) (ang w))) with ((B2R (Bplus mode_NE (ang z) (ang w)) - (B2R (ang z) + B2R (ang w))) + (B2R (ang z) + B2R (ang w)))%R by ring.
      eapply Rle_trans; [apply Rabs_triang|]. lra. }
    { lra. }
    cbn [mag ang] in B. exists r. split; auto. split; auto. split; auto. split.
    + replace (j + Datatypes.S (length ws))%nat with (Datatypes.S j + length ws)%nat by lia. cbn [map prodR fold_right]. rewrite <- Rmult_assoc. exact Bm.
    + apply Rabs_le_inv in B. apply Rabs_le_inv in Er. apply Rabs_le. lra.
Qed.
Lemma product_float : forall K, 3 - e <= K < e -> forall ws (z : Polar float) S,
  (INR (length ws) * bpow radix2 (- p) <= / 4)%R -> is_finite (mag z) = true -> is_finite (ang z) = true ->
  Forall (fun w : Polar float => is_finite (mag w) = true /\ is_finite (ang w) = true) ws ->
  (forall k, bpow radix2 (3 - e) <= Rabs (B2R (mag z) * fold_right Rmult 1 (map (fun w : Polar float => B2R (mag w)) (firstn k ws))) <= bpow radix2 (e - 2))%R ->
  (Rabs (B2R (ang z)) <= S)%R ->
  (S + fold_right Rplus 0 (map (fun w : Polar float => Rabs (B2R (ang w))) ws) + INR (length ws) * (/ 2 * bpow radix2 (K - p)) <= bpow radix2 K)%R ->
  exists r, run (polar_mul float_ops) z ws = Ok r /\ is_finite (mag r) = true /\ is_finite (ang r) = true /\
  (let M := B2R (mag z) * fold_right Rmult 1 (map (fun w : Polar float => B2R (mag w)) ws) in Rabs (B2R (mag r) - M) <= INR (length ws) * bpow radix2 (1 - p) * Rabs M)%R /\
  (Rabs (B2R (ang r) - (B2R (ang z) + fold_right Rplus 0 (map (fun w : Polar float => B2R (ang w)) ws))) <= INR (length ws) * (/ 2 * bpow radix2 (K - p)))%R.
Proof using.
  intros K HK ws z S HN Fm Fa HF HT HS HB.
  destruct (prod_float K (length ws) HK HN ws z S (B2R (mag z)) 0 (le_n _) Fm Fa HF HT) as (r & R & F1 & F2 & M & A); auto.
  { cbn [pow]. replace (B2R (mag z) - B2R (mag z))%R with 0%R by ring. rewrite Rabs_R0. lra. }
  exists r. split; auto. split; auto. split; auto. split; auto. cbv zeta. eapply Rle_trans; [exact M|]. apply Rmult_le_compat_r; [apply Rabs_pos|].
  cbn [plus]. pose proof (bern_high (bpow radix2 (- p)) (length ws) ltac:(apply bpow_ge_0) ltac:(lra)) as B.
  replace (1 - p) with (1 + - p) by ring. rewrite bpow_plus. change (bpow radix2 1) with 2%R. lra.
Qed.
Lemma unit_wrapped_float : forall fuel ws mz phi, is_finite mz = true -> B2R mz <> 0%R ->
  Forall (fun w : Polar float => is_finite (mag w) = true /\ B2R (mag w) = 1%R) ws ->
  run (fun p w => q <- polar_mul float_ops p w ;; a <- mixed_wrap_phase (float_wrap_phase fuel) (ang q) ;; Ok (mkP (mag q) a)) (mkP mz phi) ws =
  map_res (mkP mz) (run (fun a s => t <- o_add float_ops a s ;; mixed_wrap_phase (float_wrap_phase fuel) t) phi (map ang ws)).
Proof using.
  intros fuel ws mz phi V N H. revert phi. induction H as [|w ws [E1 E2] _ IH]; intros phi; [reflexivity|].
  cbn [map]. rewrite !run_cons. rewrite unit_float_step by auto. cbn [mag ang]. change (o_add float_ops phi (ang w)) with (Ok (Bplus mode_NE phi (ang w))). cbn [bind mag ang].
  destruct (mixed_wrap_phase (float_wrap_phase fuel) (Bplus mode_NE phi (ang w))) as [a|?|]; cbn [bind]; try reflexivity. apply IH.
Qed.
End Float.

Lemma wrap_loop_float_of : forall p e (Hp : Prec_gt_0 p) (He : Prec_lt_emax p e) k0,
  (exists q : binary_float p e, mixed_pi float_pi = Ok q /\ forall steps (phi : binary_float p e), is_finite phi = true -> (- B2R q <= B2R phi < B2R q)%R ->
    Forall (fun s => is_finite s = true /\ (Rabs (B2R s) <= B2R q)%R) steps ->
    exists (r : binary_float p e) k, returns (fun fuel => run (fun a s => t <- o_add float_ops a s ;; mixed_wrap_phase (float_wrap_phase fuel) t) phi steps) r /\ is_finite r = true /\ (- B2R q <= B2R r < B2R q)%R /\
    (Rabs (B2R phi + fold_right Rplus 0 (map B2R steps) - (B2R r + IZR k * (2 * B2R q))) <= INR (length steps) * bpow radix2 k0)%R) ->
  exists q : binary_float p e, mixed_pi float_pi = Ok q /\ forall ws (z : Polar (binary_float p e)),
  is_finite (mag z) = true -> B2R (mag z) <> 0%R -> is_finite (ang z) = true -> (- B2R q <= B2R (ang z) < B2R q)%R ->
  Forall (fun w : Polar (binary_float p e) => is_finite (mag w) = true /\ B2R (mag w) = 1%R /\ is_finite (ang w) = true /\ (Rabs (B2R (ang w)) <= B2R q)%R) ws ->
  exists r k, returns (fun fuel => run (fun p w => q <- polar_mul float_ops p w ;; a <- mixed_wrap_phase (float_wrap_phase fuel) (ang q) ;; Ok (mkP (mag q) a)) z ws) r /\
  mag r = mag z /\ is_finite (ang r) = true /\ (- B2R q <= B2R (ang r) < B2R q)%R /\
  (Rabs (B2R (ang z) + fold_right Rplus 0 (map (fun w : Polar (binary_float p e) => B2R (ang w)) ws) - (B2R (ang r) + IZR k * (2 * B2R q))) <= INR (length ws) * bpow radix2 k0)%R.
Proof.
  intros p e Hp He k0 (q & Eq & H). exists q. split; auto. intros ws z Fm N Fa B HF.
  destruct (H (map ang ws) (ang z) Fa B) as (r & k & [n0 R] & Fr & Br & K).
  { rewrite Forall_map. eapply Forall_impl; [|exact HF]. intros a (_ & _ & A); exact A. }
  exists (mkP (mag z) r), k. rewrite map_map, map_length in K. repeat split; cbn [mag ang]; auto; try lra.
  exists n0. intros n Hn. destruct z as [mz az]. rewrite unit_wrapped_float; auto.
  - specialize (R n Hn). cbn [ang mag]. cbn [ang] in R. rewrite R. reflexivity.
  - eapply Forall_impl; [|exact HF]. intros a (A1 & A2 & _); auto.
Qed.
Definition unit_wrap_f32 := wrap_loop_float_of 24 128 _ _ (-22) nco_f32.
Definition unit_wrap_f64 := wrap_loop_float_of 53 1024 _ _ (-51) nco_f64.
