(** * Exactly when the polynomial arctangent of two floats is NaN (proofs for C28). *)

From Coq Require Import ZArith Reals Lia Lra Psatz List Bool.
From Flocq Require Import Core.Core IEEE754.BinarySingleNaN.
From Flocq Require Import Relative.
From Verif Require Import Base FloatBase Literals Traits Trig FixedPrim FixedImpl FloatImpl Spec SpecAngle
  Lemmas FloatLemmas FloatProofs FloatWrap FloatKit WrapProofs2 SinFloat AtanFloat AtanProofs AtanRange.
Open Scope Z_scope.

Section NanF.
Context {prec emax : Z} {Hp : Prec_gt_0 prec} {He : Prec_lt_emax prec emax}.
Notation float := (binary_float prec emax).
Notation fexp := (SpecFloat.fexp prec emax).
Notation rnd := (round radix2 fexp ZnearestE).
Notation B2R := (@B2R prec emax).
Notation fin x := (is_finite x = true).
Notation "a ++. b" := (Bplus mode_NE a b) (at level 50, left associativity).
Notation "a --. b" := (Bminus mode_NE a b) (at level 50, left associativity).
Notation "a **. b" := (Bmult mode_NE a b) (at level 40, left associativity).
Notation "a //. b" := (Bdiv mode_NE a b) (at level 40, left associativity).
Notation O := (@float_ops prec emax Hp He).
Notation pf := (float_of_float prec emax lit_pi).
Notation cf := (float_of_float prec emax lit_atan).
Notation half := (@fhalf prec emax Hp He).
Hypothesis P24 : 24 <= prec <= 100.
Hypothesis E10 : prec + 20 <= emax <= 2000.

Let Vexp : Valid_exp fexp := fexp_correct prec emax _.
Let fexp_eq : forall e, fexp e = Z.max (e - prec) (3 - emax - prec) := fun e => eq_refl.

(** *** underflow and overflow thresholds of rounding to nearest even *)
Lemma rnd_tie_zero : rnd (bpow radix2 (2 - emax - prec)) = 0%R.
Proof using P24 E10.
  unfold round, scaled_mantissa, cexp. rewrite mag_bpow, fexp_eq. rewrite Z.max_r by lia.
  rewrite <- bpow_plus. replace (2 - emax - prec + - (3 - emax - prec)) with (-1) by ring. change (bpow radix2 (-1)) with (/ 2)%R.
  assert (E : ZnearestE (/ 2) = 0).
  { unfold Znearest. assert (F : Zfloor (/ 2) = 0) by (apply Zfloor_imp; simpl; lra). rewrite F, Rcompare_Eq by (simpl; lra). reflexivity. }
  rewrite E. unfold F2R. cbn. ring.
Qed.
Lemma rnd_zero_iff : forall v, (0 <= v)%R -> (rnd v = 0%R <-> (v <= bpow radix2 (2 - emax - prec))%R).
Proof using P24 E10 Vexp.
  intros v V. split; intros H.
  - destruct (error_N_FLT radix2 (3 - emax - prec) prec ltac:(lia) (fun x => negb (Z.even x)) v) as (e & h & A & B & C & D).
    change (rnd v = v * (1 + e) + h)%R in D. rewrite H in D.
    assert (B2 : (/ 2 * bpow radix2 (3 - emax - prec) = bpow radix2 (2 - emax - prec))%R).
    { replace (3 - emax - prec) with (1 + (2 - emax - prec)) by ring. rewrite bpow_plus. change (bpow radix2 1) with 2%R. lra. }
    rewrite B2 in B. apply Rabs_le_inv in B. apply Rmult_integral in C. destruct C as [->| ->]; [lra|].
    assert (E1 : (/ 2 * bpow radix2 (- prec + 1) <= / 2)%R). { assert (bpow radix2 (- prec + 1) <= bpow radix2 0)%R by (apply bpow_le; lia). simpl in H0. lra. }
    apply Rabs_le_inv in A. assert (v = 0)%R by nra. pose proof (bpow_gt_0 radix2 (2 - emax - prec)). lra.
  - apply Rle_antisym.
    + rewrite <- rnd_tie_zero. apply (rnd_mono P24 E10). exact H.
    + rewrite <- (rnd_0 P24 E10). apply (rnd_mono P24 E10). exact V.
Qed.
Definition top : R := (bpow radix2 emax - bpow radix2 (emax - prec - 1))%R.
Lemma rnd_tie_top : rnd top = bpow radix2 emax.
Proof using P24 E10.
  assert (T : (top = (IZR (2 ^ prec) - / 2) * bpow radix2 (emax - prec))%R).
  { unfold top. rewrite (IZR_Zpower radix2) by lia. rewrite Rmult_minus_distr_r, <- bpow_plus. replace (prec + (emax - prec)) with emax by ring.
    replace (emax - prec - 1) with (-1 + (emax - prec)) by ring. rewrite bpow_plus. change (bpow radix2 (-1)) with (/ 2)%R. ring. }
  assert (P2 : (2 <= IZR (2 ^ prec))%R). { apply IZR_le. replace 2 with (2 ^ 1) at 1 by reflexivity. apply Z.pow_le_mono_r; lia. }
  pose proof (bpow_gt_0 radix2 (emax - prec)) as B0.
  assert (M : mag radix2 top = emax :> Z).
  { apply mag_unique. rewrite T, Rabs_pos_eq by (apply Rmult_le_pos; lra). assert (EB : bpow radix2 emax = (IZR (2 ^ prec) * bpow radix2 (emax - prec))%R).
    { rewrite (IZR_Zpower radix2) by lia. rewrite <- bpow_plus. f_equal. ring. }
    replace (emax - 1) with (-1 + emax) by ring. rewrite bpow_plus, EB. change (bpow radix2 (-1)) with (/ 2)%R.
    pose proof (Rmult_le_compat_r _ _ _ (Rlt_le _ _ B0) P2). split; lra. }
  unfold round, scaled_mantissa, cexp. rewrite M, fexp_eq, Z.max_l by lia. rewrite T at 1. rewrite Rmult_assoc, <- bpow_plus.
  replace (emax - prec + - (emax - prec)) with 0 by ring. cbn [bpow]. rewrite Rmult_1_r.
  assert (E : ZnearestE (IZR (2 ^ prec) - / 2) = 2 ^ prec).
  { assert (F : Zfloor (IZR (2 ^ prec) - / 2) = 2 ^ prec - 1) by (apply Zfloor_imp; rewrite ?plus_IZR, minus_IZR; lra).
    assert (C : Zceil (IZR (2 ^ prec) - / 2) = 2 ^ prec) by (apply Zceil_imp; rewrite minus_IZR; lra).
    unfold Znearest. rewrite F, C, minus_IZR, Rcompare_Eq by lra.
    assert (Ev : Z.even (2 ^ prec - 1) = false). { replace (2 ^ prec) with (2 * 2 ^ (prec - 1)) by (rewrite <- Z.pow_succ_r by lia; f_equal; lia). rewrite Z.even_sub, Z.even_mul. reflexivity. }
    rewrite Ev. reflexivity. }
  rewrite E. unfold F2R. cbn [Fnum Fexp]. rewrite (IZR_Zpower radix2) by lia. rewrite <- bpow_plus. f_equal. ring.
Qed.
Lemma rnd_over_iff : forall v, (bpow radix2 emax <= Rabs (rnd v) <-> top <= Rabs v)%R.
Proof using P24 E10 Vexp.
  intros v. rewrite <- (round_NE_abs radix2 fexp). set (a := Rabs v). split; intros H.
  - destruct (Rle_or_lt top a) as [L|L]; auto. exfalso.
    assert (G : generic_format radix2 fexp (bpow radix2 emax)) by (apply generic_format_bpow; rewrite fexp_eq; lia).
    pose proof (generic_format_pred radix2 fexp _ G) as GP.
    pose proof (round_N_le_midp radix2 fexp (fun x => negb (Z.even x)) (pred radix2 fexp (bpow radix2 emax)) a GP) as R.
    rewrite succ_pred in R by auto. rewrite pred_bpow, fexp_eq, Z.max_l in R by lia.
    assert (B : (bpow radix2 (emax - prec) = 2 * bpow radix2 (emax - prec - 1))%R).
    { replace (emax - prec) with (1 + (emax - prec - 1)) at 1 by ring. rewrite bpow_plus. reflexivity. }
    unfold top in L. specialize (R ltac:(lra)). pose proof (bpow_gt_0 radix2 (emax - prec)). lra.
  - rewrite <- rnd_tie_top. apply (rnd_mono P24 E10). exact H.
Qed.

Lemma zero_val : forall a : float, fin a -> B2R a = 0%R -> exists s, a = B754_zero s.
Proof using.
  intros a F H. destruct a as [s| | |s m e B]; try discriminate; [eauto|]. cbn in H. apply eq_0_F2R in H. destruct s; discriminate.
Qed.
Lemma fin_nan : forall a : float, fin a -> is_nan a = false.
Proof using. intros a F. destruct a; try discriminate; reflexivity. Qed.

Lemma quot_nan : forall (u v uv : float), uv = u **. v -> fin u -> fin v -> (Rabs (B2R v) <= Rabs (B2R u))%R ->
  (is_nan (quot u v uv) = true <-> (B2R u * B2R u <= bpow radix2 (2 - emax - prec) \/ top <= Rabs (B2R u * B2R v))%R).
Proof using P24 E10 Vexp.
  intros u v uv -> Fu Fv L. unfold quot.
  assert (LL : (Rabs (B2R u * B2R v) <= B2R u * B2R u)%R).
  { rewrite Rabs_mult. replace (B2R u * B2R u)%R with (Rabs (B2R u) * Rabs (B2R u))%R by (rewrite <- Rabs_mult; apply Rabs_pos_eq, Rle_0_sqr).
    apply Rmult_le_compat_l; auto. apply Rabs_pos. }
  assert (LV : (B2R v * B2R v <= B2R u * B2R u)%R).
  { replace (B2R u * B2R u)%R with (Rabs (B2R u) * Rabs (B2R u))%R by (rewrite <- Rabs_mult; apply Rabs_pos_eq, Rle_0_sqr).
    replace (B2R v * B2R v)%R with (Rabs (B2R v) * Rabs (B2R v))%R by (rewrite <- Rabs_mult; apply Rabs_pos_eq, Rle_0_sqr).
    apply Rmult_le_compat; auto; apply Rabs_pos. }
  pose proof (Rle_0_sqr (B2R u)) as U0. pose proof (Rle_0_sqr (B2R v)) as V0. unfold Rsqr in U0, V0.
  assert (II : forall t : float, fin t \/ t = B754_infinity false -> (B754_infinity false : float) ++. t = B754_infinity false).
  { intros t [F| ->]; [destruct t; try discriminate; reflexivity | reflexivity]. }
  assert (CS : fin (cf **. (v **. v)) \/ cf **. (v **. v) = B754_infinity false).
  { destruct (cs_ext P24 E10 v Fv) as [[Ft _]|Et]; auto. }
  assert (NI : forall n : float, fin n -> is_nan (n //. (B754_infinity false : float)) = false) by (intros n F; destruct n; try discriminate; reflexivity).
  split.
  - intros N. destruct (Rle_or_lt (B2R u * B2R u) (bpow radix2 (2 - emax - prec))) as [Q|Q]; [left; auto|].
    destruct (Rle_or_lt top (Rabs (B2R u * B2R v))) as [R|R]; [right; auto|]. exfalso.
    destruct (mult_ext P24 E10 u v Fu Fv) as [[Fn Vn]|[_ H]]; [|apply rnd_over_iff in H; lra].
    destruct (sq_ext P24 E10 u Fu) as [[F2 [V2 N2]]|E2].
    + destruct CS as [Ft|Et].
      * pose proof (Bplus_correct prec emax _ _ mode_NE (u **. u) (cf **. (v **. v)) F2 Ft) as H. change (round_mode mode_NE) with ZnearestE in H.
        destruct (Rlt_bool_spec (Rabs (rnd (B2R (u **. u) + B2R (cf **. (v **. v))))) (bpow radix2 emax)) as [Lt|Ge].
        -- destruct H as [Vd [Fd _]]. set (d := u **. u ++. cf **. (v **. v)) in *.
           assert (TP : (0 <= B2R (cf **. (v **. v)))%R). { destruct (cs_ext P24 E10 v Fv) as [[_ [Bt _]]|Et]; [lra|]. rewrite Et in Ft. discriminate. }
           assert (UP : (0 < B2R (u **. u))%R). { destruct (Req_dec (B2R (u **. u)) 0) as [Z|Z]; [|lra]. rewrite V2 in Z. apply rnd_zero_iff in Z; lra. }
           assert (UD : (B2R (u **. u) <= B2R d)%R) by (rewrite Vd; eapply Rle_trans; [right; symmetry; apply round_B2R | apply (rnd_mono P24 E10); lra]).
           clearbody d. set (n := u **. v) in *. clearbody n.
           destruct d as [sd| | |sd md ed Bd]; try discriminate; [cbn in UD; lra|].
           assert (ND : (Rabs (B2R n / B2R (B754_finite sd md ed Bd)) <= 1)%R).
           { apply div_le_1; [|lra]. rewrite (Rabs_pos_eq (B2R (B754_finite sd md ed Bd))) by lra. eapply Rle_trans; [|exact UD]. rewrite Vn, V2. apply (rnd_abs' P24 E10). exact LL. }
           destruct (div_r (prec := prec) (emax := emax) n (B754_finite sd md ed Bd) Fn ltac:(apply Rgt_not_eq; lra) 0 ltac:(lia)) as [Fq Vq]; [exact ND|].
           rewrite fin_nan in N by exact Fq. discriminate.
        -- destruct H as [H _]. apply to_inf in H.
           assert (SG : Bsign (u **. u) = false \/ True) by auto.
           assert (D : exists s, u **. u ++. cf **. (v **. v) = B754_infinity s) by eauto. destruct D as [s D]. rewrite D in N. clear - N Fn. destruct (u **. v); try discriminate; destruct s; discriminate.
      * rewrite Et in N. replace (u **. u ++. B754_infinity false) with (B754_infinity false : float) in N by (destruct (u **. u); try discriminate; reflexivity).
        rewrite NI in N by exact Fn. discriminate.
    + rewrite E2, II in N by exact CS. rewrite NI in N by exact Fn. discriminate.
  - intros [Q|Q].
    + assert (SM : forall w, (Rabs w <= bpow radix2 (2 - emax - prec))%R -> rnd w = 0%R).
      { intros w W. apply rnd_zero_iff in W; [|apply Rabs_pos]. rewrite (round_NE_abs radix2 fexp) in W. destruct (Req_dec (rnd w) 0); auto. pose proof (Rabs_pos_lt _ H). lra. }
      assert (ZZ : forall a b : float, fin a -> fin b -> (Rabs (B2R a * B2R b) <= bpow radix2 (2 - emax - prec))%R -> exists s, a **. b = B754_zero s).
      { intros a b Fa Fb W. apply SM in W. destruct (mult_ext P24 E10 a b Fa Fb) as [[F V]|[_ H]].
        - apply zero_val; auto. rewrite V. exact W.
        - rewrite W, Rabs_R0 in H. pose proof (bpow_gt_0 radix2 emax). lra. }
      destruct (ZZ u v Fu Fv ltac:(lra)) as [s1 ->]. destruct (ZZ u u Fu Fu ltac:(rewrite Rabs_pos_eq; lra)) as [s2 ->].
      destruct (ZZ v v Fv Fv ltac:(rewrite Rabs_pos_eq; lra)) as [s3 ->]. destruct (c_pos P24 E10) as (cm & ce & cH & ->). destruct s1, s2, s3; reflexivity.
    + apply rnd_over_iff in Q. destruct (mult_ext P24 E10 u v Fu Fv) as [[Fn Vn]|[En _]].
      * exfalso. pose proof (abs_B2R_lt_emax _ _ (u **. v)). rewrite Vn in H. lra.
      * destruct (sq_ext P24 E10 u Fu) as [[F2 [V2 N2]]|E2].
        -- exfalso. apply (rnd_abs' P24 E10) in LL. rewrite <- V2 in LL. pose proof (abs_B2R_lt_emax _ _ (u **. u)) as H. rewrite Rabs_pos_eq in H by exact N2. lra.
        -- rewrite E2, II by exact CS. rewrite En. reflexivity.
Qed.

Lemma plus_nan : forall a q : float, fin a -> is_nan q = true \/ fin q -> is_nan (a ++. q) = is_nan q /\ is_nan (a --. q) = is_nan q.
Proof using.
  clear P24 E10. intros a q F H. destruct H as [N|G].
  - destruct q; try discriminate. destruct a; split; reflexivity.
  - rewrite (fin_nan q G). pose proof (Bplus_correct prec emax _ _ mode_NE a q F G) as P. pose proof (Bminus_correct prec emax _ _ mode_NE a q F G) as M. split.
    + destruct (Rlt_bool _ _) in P; [apply fin_nan; tauto|]. destruct P as [P _]. apply to_inf in P. rewrite P. reflexivity.
    + destruct (Rlt_bool _ _) in M; [apply fin_nan; tauto|]. destruct M as [M _]. apply to_inf in M. rewrite M. reflexivity.
Qed.

Hypothesis Fh : fin half.
Hypothesis Fp : fin pf.
Lemma atan2_nan : forall y x : float, fin y -> fin x -> B2R y <> 0%R -> B2R x <> 0%R ->
  let M := Rmax (Rabs (B2R x)) (Rabs (B2R y)) in
  (is_nan (fatan2 y x) = true <-> (M * M <= bpow radix2 (2 - emax - prec) \/ top <= Rabs (B2R x * B2R y))%R).
Proof using P24 E10 Vexp Fh Fp.
  intros y x Fy Fx Y0 X0 M. unfold fatan2. destruct (eq_zero y Fy) as [[_ A]|[-> _]]; [lra|]. destruct (eq_zero x Fx) as [[_ A]|[-> _]]; [lra|].
  assert (SQ : forall a, (Rabs a * Rabs a = a * a)%R) by (intros; rewrite <- Rabs_mult; apply Rabs_pos_eq, Rle_0_sqr).
  assert (F1 : forall s : bool, fin (if s then Bopp pf else pf)) by (intros [|]; rewrite ?is_finite_Bopp; auto).
  assert (F2 : forall s : bool, fin (if s then Bopp half else half)) by (intros [|]; rewrite ?is_finite_Bopp; auto).
  destruct (diff_sign' P24 E10 y x Fy Fx) as [[L C]|[L [C C']]]; rewrite C; [|rewrite C', andb_false_r].
  - unfold M. rewrite Rmax_left, SQ by lra.
    pose proof (quot_nan x y (x **. y) eq_refl Fx Fy ltac:(lra)) as K. change (quot x y (x **. y)) with (fp1 y x) in K.
    pose proof (quot_sign P24 E10 x y (x **. y) eq_refl Fx Fy ltac:(lra)) as G. change (quot x y (x **. y)) with (fp1 y x) in G.
    destruct (Bsign x); [|exact K]. rewrite (proj1 (plus_nan _ (fp1 y x) (F1 (Bsign y)) ltac:(tauto))). exact K.
  - unfold M. rewrite Rmax_right, SQ by lra. rewrite (Rmult_comm (B2R x)).
    pose proof (quot_nan y x (x **. y) (Bmult_comm x y) Fy Fx L) as K. change (quot y x (x **. y)) with (fp2 y x) in K.
    pose proof (quot_sign P24 E10 y x (x **. y) (Bmult_comm x y) Fy Fx L) as G. change (quot y x (x **. y)) with (fp2 y x) in G.
    rewrite (proj2 (plus_nan _ (fp2 y x) (F2 (Bsign y)) ltac:(tauto))). exact K.
Qed.
End NanF.

Lemma nan_f32 : forall y x : f32, is_finite y = true -> is_finite x = true -> B2R y <> 0%R -> B2R x <> 0%R ->
  let M := Rmax (Rabs (B2R x)) (Rabs (B2R y)) in exists r, float_atan2_poly y x = Ok r /\ (is_nan r = true \/ is_finite r = true) /\
  (is_nan r = true <-> (M * M <= bpow radix2 (-150) \/ bpow radix2 128 - bpow radix2 103 <= Rabs (B2R x * B2R y))%R).
Proof.
  intros y x Fy Fx Y0 X0 M. destruct (quadrant_f32 y x Fy Fx Y0) as (p & r & _ & E & Q). exists r. split; auto. split; [tauto|].
  rewrite atan2_float_eq in E. injection E as <-. destruct f32_half_val as [_ Fh]. destruct f32_pi_val as [_ Fp].
  exact (@atan2_nan 24 128 _ _ ltac:(lia) ltac:(lia) Fh Fp y x Fy Fx Y0 X0).
Qed.
Lemma nan_f64 : forall y x : f64, is_finite y = true -> is_finite x = true -> B2R y <> 0%R -> B2R x <> 0%R ->
  let M := Rmax (Rabs (B2R x)) (Rabs (B2R y)) in exists r, float_atan2_poly y x = Ok r /\ (is_nan r = true \/ is_finite r = true) /\
  (is_nan r = true <-> (M * M <= bpow radix2 (-1075) \/ bpow radix2 1024 - bpow radix2 970 <= Rabs (B2R x * B2R y))%R).
Proof.
  intros y x Fy Fx Y0 X0 M. destruct (quadrant_f64 y x Fy Fx Y0) as (p & r & _ & E & Q). exists r. split; auto. split; [tauto|].
  rewrite atan2_float_eq in E. injection E as <-. destruct f64_half_val as [_ Fh]. destruct f64_pi_val as [_ Fp].
  exact (@atan2_nan 53 1024 _ _ ltac:(lia) ltac:(lia) Fh Fp y x Fy Fx Y0 X0).
Qed.
