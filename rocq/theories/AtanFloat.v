(** * The two-argument arctangent on floats. *)

From Coq Require Import ZArith Reals Lia Lra Psatz List Bool.
From Flocq Require Import Core.Core Plus_error IEEE754.BinarySingleNaN.
From Verif Require Import Base FloatBase Literals Traits Trig FloatImpl Spec SpecAngle Lemmas FloatLemmas FloatProofs FloatWrap
  WrapProofs2 SqrtReal FloatKit NiirfFloat SinReal SinFloat AtanReal AtanFixed.
Open Scope Z_scope.

Section AtanF.
Context {prec emax : Z} {Hp : Prec_gt_0 prec} {He : Prec_lt_emax prec emax}.
Notation float := (binary_float prec emax).
Notation fexp := (SpecFloat.fexp prec emax).
Notation rnd := (round radix2 fexp ZnearestE).
Notation B2R := (@B2R prec emax).
Notation fin x := (is_finite x = true).
Notation int z := (float_of_Z prec emax z).
Notation "a ++. b" := (Bplus mode_NE a b) (at level 50, left associativity).
Notation "a --. b" := (Bminus mode_NE a b) (at level 50, left associativity).
Notation "a **. b" := (Bmult mode_NE a b) (at level 40, left associativity).
Notation "a //. b" := (Bdiv mode_NE a b) (at level 40, left associativity).
Notation O := (@float_ops prec emax Hp He).
Notation pf := (float_of_float prec emax lit_pi).
Notation cf := (float_of_float prec emax lit_atan).
Notation half := (@fhalf prec emax Hp He).

Definition fp1 (y x : float) : float := (x **. y) //. (x **. x ++. cf **. (y **. y)).
Definition fp2 (y x : float) : float := (x **. y) //. (y **. y ++. cf **. (x **. x)).
Definition fzero : float := B754_zero false.
Definition fatan2 (y x : float) : float :=
  if o_eq O y fzero then (if Bsign x then pf else fzero)
  else if o_eq O x fzero then (if Bsign y then Bopp pf //. int 2 else half)
  else if o_lt O (Babs y --. Babs x) fzero
    then (if Bsign x then (if Bsign y then Bopp pf else pf) ++. fp1 y x else fp1 y x)
    else if Bsign x && negb (o_le O fzero (Babs y --. Babs x))
      then (if Bsign y then Bopp pf else pf) ++. fp1 y x
      else (if Bsign y then Bopp half else half) --. fp2 y x.

Lemma o_lt_le : forall a b : float, o_lt O a b = true -> o_le O b a = false.
Proof.
  intros a b H. unfold o_lt, o_le in *. cbn in *. rewrite Bcompare_swap. destruct (Bcompare a b) as [[]|]; cbn in *; congruence.
Qed.

Lemma atan2_float_eq : forall y x, float_atan2_poly y x = Ok (fatan2 y x).
Proof.
  intros y x. unfold float_atan2_poly, atan2, fatan2.
  cbn [bind mixed_abs float_abs mixed_pi float_pi o_of_i32 o_div o_sub o_add o_of_f64 float_ops mixed_zero float_zero
       mixed_is_negative mixed_is_positive float_real o_neg float_signed].
  change (int 0) with fzero. change (float_of_float prec emax lit_zero) with fzero.
  change (pf //. int 2) with half.
  change (atan_poly_1 _ float_powi y x) with (Ok (fp1 y x)). change (atan_poly_2 _ float_powi y x) with (Ok (fp2 y x)).
  destruct (o_eq O y fzero); [destruct (Bsign x); reflexivity|].
  pose proof (o_lt_le (Babs y --. Babs x) fzero) as C.
  destruct (Bsign y), (Bsign x); cbn [negb andb]; destruct (o_eq O x fzero); try reflexivity;
    destruct (o_lt O (Babs y --. Babs x) fzero); try reflexivity;
    try (rewrite C by reflexivity; reflexivity); destruct (o_le O fzero (Babs y --. Babs x)); reflexivity.
Qed.

(** *** odd symmetry in [y] *)
Lemma sq_opp : forall y : float, Bopp y **. Bopp y = y **. y.
Proof. intros. rewrite Bmult_opp_r, Bmult_opp_l. apply Bopp_involutive'. Qed.
Lemma fp1_opp : forall y x, fp1 (Bopp y) x = Bopp (fp1 y x).
Proof. intros. unfold fp1. rewrite sq_opp, Bmult_opp_r, Bdiv_opp_l. reflexivity. Qed.
Lemma fp2_opp : forall y x, fp2 (Bopp y) x = Bopp (fp2 y x).
Proof. intros. unfold fp2. rewrite sq_opp, Bmult_opp_r, Bdiv_opp_l. reflexivity. Qed.
Lemma sign_opp : forall y : float, y <> B754_nan -> Bsign (Bopp y) = negb (Bsign y).
Proof. intros [| | |] N; try reflexivity. congruence. Qed.
Lemma abs_opp : forall y : float, Babs (Bopp y) = Babs y.
Proof. intros [| | |]; reflexivity. Qed.
Lemma eq_zero_opp : forall y : float, o_eq O (Bopp y) fzero = o_eq O y fzero.
Proof. intros y. unfold o_eq, fzero. cbn. destruct y as [[]|[]| |[] m e H]; reflexivity. Qed.

Lemma fatan2_odd : forall y x, y <> B754_nan -> o_eq O y fzero = false -> same_float (fatan2 (Bopp y) x) (Bopp (fatan2 y x)).
Proof.
  intros y x N Z. unfold fatan2. rewrite eq_zero_opp, Z, sign_opp, abs_opp, fp1_opp, fp2_opp by auto.
  change (odd_rel (if o_eq O x fzero then if Bsign y then Bopp pf //. int 2 else half
   else if o_lt O (Babs y --. Babs x) fzero then if Bsign x then (if Bsign y then Bopp pf else pf) ++. fp1 y x else fp1 y x
    else if Bsign x && negb (o_le O fzero (Babs y --. Babs x)) then (if Bsign y then Bopp pf else pf) ++. fp1 y x
         else (if Bsign y then Bopp half else half) --. fp2 y x)
    (if o_eq O x fzero then if negb (Bsign y) then Bopp pf //. int 2 else half
   else if o_lt O (Babs y --. Babs x) fzero then if Bsign x then (if negb (Bsign y) then Bopp pf else pf) ++. Bopp (fp1 y x) else Bopp (fp1 y x)
    else if Bsign x && negb (o_le O fzero (Babs y --. Babs x)) then (if negb (Bsign y) then Bopp pf else pf) ++. Bopp (fp1 y x)
         else (if negb (Bsign y) then Bopp half else half) --. Bopp (fp2 y x))).
  assert (R : forall z : float, odd_rel z (Bopp z)) by (intros; left; reflexivity).
  assert (R' : forall z : float, odd_rel (Bopp z) z) by (intros; left; symmetry; apply Bopp_involutive').
  destruct (o_eq O x fzero).
  - unfold fhalf. destruct (Bsign y); cbn [negb]; rewrite Bdiv_opp_l; auto.
  - destruct (o_lt O _ fzero); [destruct (Bsign x); [destruct (Bsign y); cbn [negb]; apply odd_plus; auto | auto]|].
    destruct (Bsign x && _); destruct (Bsign y); cbn [negb]; first [apply odd_plus | apply odd_minus]; auto.
Qed.

(** *** accuracy *)
Hypothesis P24 : 24 <= prec <= 100.
Hypothesis E10 : prec + 20 <= emax <= 2000.

Lemma errs : forall v k, 3 - emax <= k -> (Rabs v <= bpow radix2 k)%R -> (Rabs (rnd v - v) <= 3 / 100000000 * bpow radix2 k)%R.
Proof using P24 Hp He. clear E10.
  intros v k K H. eapply Rle_trans; [apply (rnd_err (prec := prec) (emax := emax) v k); auto; lia|].
  unfold Zminus. rewrite bpow_plus. pose proof (@eps_bound prec ltac:(lia)) as E. unfold eps in E.
  pose proof (bpow_gt_0 radix2 k). 
  assert (bpow radix2 k * bpow radix2 (- prec) <= bpow radix2 k * (6 / 100000000))%R by (apply Rmult_le_compat_l; lra). lra.
Qed.

Lemma cf_val : fin cf /\ B2R cf = (9 / 32)%R.
Proof using P24 E10 Hp He.
  destruct (lit_conv (prec := prec) (emax := emax) ltac:(lia) ltac:(lia) lit_atan eq_refl) as [F V].
  - rewrite AtanFixed.lit_atan_value. rewrite Rabs_pos_eq; lra.
  - split; auto. rewrite V. rewrite AtanFixed.lit_atan_value. apply round_generic; [apply valid_rnd_N|].
    replace (9 / 32)%R with (F2R (Float radix2 9 (-5))) by (unfold F2R; cbn [Fnum Fexp]; change (bpow radix2 (-5)) with (/ 32)%R; lra).
    change fexp with (FLT_exp (3 - emax - prec) prec). apply generic_format_FLT.
    exists (Float radix2 9 (-5)); cbn [Fnum Fexp]; [reflexivity| |lia].
    change (radix_val radix2) with 2; apply Z.lt_le_trans with (2 ^ 24); [reflexivity | apply Z.pow_le_mono_r; lia].
Qed.

(** one quotient: [u] is the larger coordinate, [2^(e-1) <= |u| <= 2^e] *)
Lemma quot_acc : forall (u v uv : float) e, uv = u **. v -> fin u -> fin v -> (Rabs (B2R v) <= Rabs (B2R u))%R ->
  (bpow radix2 (e - 1) <= Rabs (B2R u) <= bpow radix2 e)%R -> 4 - emax <= 2 * e <= emax - 4 ->
  fin (uv //. (u **. u ++. cf **. (v **. v))) /\
  (Rabs (B2R (uv //. (u **. u ++. cf **. (v **. v))) - rat (B2R v / B2R u)) <= 8 / 10000000)%R.
Proof using P24 E10 Hp He.
  intros u v uv e -> Fu Fv L B E. destruct cf_val as [Fc Vc]. set (c := cf) in *. clearbody c.
  set (U := B2R u) in *. set (V := B2R v) in *. set (s := bpow radix2 (2 * e)).
  assert (S0 : (0 < s)%R) by apply bpow_gt_0.
  assert (S1 : (s = bpow radix2 e * bpow radix2 e)%R) by (unfold s; rewrite <- bpow_plus; f_equal; lia).
  assert (S2 : (bpow radix2 e = 2 * bpow radix2 (e - 1))%R).
  { replace e with (1 + (e - 1)) at 1 by lia. rewrite bpow_plus. reflexivity. }
  assert (B0 : (0 < bpow radix2 (e - 1))%R) by apply bpow_gt_0.
  assert (UU : (U * U = Rabs U * Rabs U)%R) by (rewrite <- Rabs_mult; symmetry; apply Rabs_pos_eq, Rle_0_sqr).
  assert (VV : (V * V = Rabs V * Rabs V)%R) by (rewrite <- Rabs_mult; symmetry; apply Rabs_pos_eq, Rle_0_sqr).
  assert (VP := Rabs_pos V).
  assert (K : (s <= 4 * (U * U))%R) by nra.
  assert (KU : (0 < U * U <= s)%R) by nra.
  assert (KV : (0 <= V * V <= U * U)%R) by nra.
  assert (KN : (Rabs (U * V) <= U * U)%R) by (rewrite Rabs_mult; nra).
  set (K2 := (U * U)%R) in *.
  destruct (mult_r (prec := prec) (emax := emax) u v Fu Fv (2 * e) ltac:(lia)) as [F1 V1]; [fold s U V; lra|].
  destruct (mult_r (prec := prec) (emax := emax) u u Fu Fu (2 * e) ltac:(lia)) as [F2 V2]; [fold s U; fold K2; rewrite Rabs_pos_eq; lra|].
  destruct (mult_r (prec := prec) (emax := emax) v v Fv Fv (2 * e) ltac:(lia)) as [F3 V3]; [fold s V; rewrite Rabs_pos_eq; lra|].
  fold U V in V1, V2, V3. fold K2 in V2.
  pose proof (errs (U * V) (2 * e) ltac:(lia) ltac:(fold s; lra)) as R1.
  pose proof (errs K2 (2 * e) ltac:(lia) ltac:(fold s; rewrite Rabs_pos_eq; lra)) as R2.
  pose proof (errs (V * V) (2 * e) ltac:(lia) ltac:(fold s; rewrite Rabs_pos_eq; lra)) as R3.
  fold s in R1, R2, R3. rewrite <- V1 in R1. rewrite <- V2 in R2. rewrite <- V3 in R3.
  set (n := u **. v) in *. set (d1 := u **. u) in *. set (w := v **. v) in *. clearbody n d1 w. clear V1 V2 V3.
  apply Rabs_le_inv in R2, R3.
  assert (CW : (Rabs (B2R c * B2R w) <= s)%R) by (rewrite Vc; apply Rabs_le; lra).
  destruct (mult_r (prec := prec) (emax := emax) c w Fc F3 (2 * e) ltac:(lia) CW) as [F4 V4].
  pose proof (errs (B2R c * B2R w) (2 * e) ltac:(lia) CW) as R4. rewrite <- V4 in R4. fold s in R4. rewrite Vc in R4.
  set (d2 := c **. w) in *. clearbody d2. clear V4. apply Rabs_le_inv in R4.
  assert (S3 : (bpow radix2 (2 * e + 1) = 2 * s)%R) by (rewrite bpow_plus, Rmult_comm; reflexivity).
  assert (DD : (Rabs (B2R d1 + B2R d2) <= bpow radix2 (2 * e + 1))%R) by (rewrite S3; apply Rabs_le; lra).
  destruct (plus_r (prec := prec) (emax := emax) d1 d2 F2 F4 (2 * e + 1) ltac:(lia) DD) as [F5 V5].
  pose proof (errs (B2R d1 + B2R d2) (2 * e + 1) ltac:(lia) DD) as R5. rewrite <- V5, S3 in R5. apply Rabs_le_inv in R5.
  set (d := d1 ++. d2) in *. clearbody d. clear V5 DD.
  set (D := (K2 + 9 / 32 * (V * V))%R).
  assert (ED : (Rabs (B2R d - D) <= 53 / 100000000 * K2)%R) by (unfold D; apply Rabs_le; lra).
  assert (EN : (Rabs (B2R n - U * V) <= 12 / 100000000 * K2)%R) by lra.
  assert (DP : (K2 <= D)%R) by (unfold D; lra). assert (dP : (99 / 100 * K2 <= B2R d)%R) by (apply Rabs_le_inv in ED; lra).
  assert (Q : (Rabs (B2R n / B2R d - U * V / D) <= 67 / 100000000)%R).
  { replace (B2R n / B2R d - U * V / D)%R with (((B2R n - U * V) + U * V / D * (D - B2R d)) * / B2R d)%R by (field; lra).
    rewrite Rabs_mult, (Rabs_pos_eq (/ B2R d)) by (apply Rlt_le, Rinv_0_lt_compat; lra).
    apply Rmult_le_reg_r with (B2R d); [lra|]. rewrite Rmult_assoc, Rinv_l, Rmult_1_r by lra.
    eapply Rle_trans; [apply Rabs_triang|]. rewrite Rabs_mult, (Rabs_minus_sym D).
    assert (Rabs (U * V / D) <= 1)%R.
    { unfold Rdiv. rewrite Rabs_mult, Rabs_inv, (Rabs_pos_eq D) by lra. apply Rmult_le_reg_r with D; [lra|]. rewrite Rmult_assoc, Rinv_l by lra. lra. }
    assert (Rabs (U * V / D) * Rabs (B2R d - D) <= 1 * (53 / 100000000 * K2))%R by (apply Rmult_le_compat; auto using Rabs_pos).
    lra. }
  assert (ER : (U * V / D = rat (V / U))%R).
  { unfold D, K2, rat, ratk. assert (U <> 0)%R by (intros Z; unfold K2 in KU; rewrite Z in KU; lra). field. repeat split; auto; unfold K2 in *; nra. }
  rewrite ER in Q.
  assert (T : (Rabs (V / U) <= 1)%R).
  { assert (0 < Rabs U)%R by lra. unfold Rdiv. rewrite Rabs_mult, Rabs_inv. apply Rmult_le_reg_r with (Rabs U); auto. rewrite Rmult_assoc, Rinv_l by lra. lra. }
  pose proof (ratk_abs (9 / 32) (V / U) ltac:(lra)) as RA. fold rat in RA.
  assert (QB : (Rabs (B2R n / B2R d) <= bpow radix2 1)%R).
  { change (bpow radix2 1) with 2%R. assert (RA1 := Rle_trans _ _ _ RA T). apply Rabs_le_inv in Q, RA1. apply Rabs_le. lra. }
  destruct (div_r (prec := prec) (emax := emax) n d F1 ltac:(lra) 1 ltac:(lia) QB) as [F6 V6].
  pose proof (errs _ 1 ltac:(lia) QB) as R6. rewrite <- V6 in R6. change (bpow radix2 1) with 2%R in R6.
  split; auto. apply Rabs_le_inv in R6, Q. apply Rabs_le. lra.
Qed.

Lemma sign_cases : forall z : float, fin z -> B2R z <> 0%R -> (Bsign z = true /\ (B2R z < 0)%R) \/ (Bsign z = false /\ (0 < B2R z)%R).
Proof.
  clear. intros [s|s| |s m e H] F N; try discriminate; [exfalso; apply N; reflexivity|].
  cbn [Bsign]. destruct s; [left | right]; split; auto; cbn [BinarySingleNaN.B2R].
  - apply F2R_lt_0. reflexivity.
  - apply F2R_gt_0. reflexivity.
Qed.
Lemma eq_zero : forall z : float, fin z -> (o_eq O z fzero = true /\ B2R z = 0%R) \/ (o_eq O z fzero = false /\ B2R z <> 0%R).
Proof.
  clear. intros z F. unfold o_eq. cbn [o_cmp float_ops]. rewrite Bcompare_correct by auto. change (BinarySingleNaN.B2R fzero) with 0%R.
  destruct (Rcompare_spec (B2R z) 0); [right | left | right]; split; auto; lra.
Qed.
Lemma diff_sign : forall (y x : float), fin y -> fin x -> (Rabs (B2R y) <= bpow radix2 (emax - 2))%R -> (Rabs (B2R x) <= bpow radix2 (emax - 2))%R ->
  ((Rabs (B2R y) < Rabs (B2R x))%R /\ o_lt O (Babs y --. Babs x) fzero = true) \/
  ((Rabs (B2R x) <= Rabs (B2R y))%R /\ o_lt O (Babs y --. Babs x) fzero = false /\ o_le O fzero (Babs y --. Babs x) = true).
Proof using P24 E10 Hp He.
  intros y x Fy Fx By Bx. assert (Fya : fin (Babs y)) by (rewrite is_finite_Babs; auto). assert (Fxa : fin (Babs x)) by (rewrite is_finite_Babs; auto).
  destruct (minus_r (prec := prec) (emax := emax) _ _ Fya Fxa (emax - 1) ltac:(lia)) as [Fd Vd].
  { rewrite !B2R_Babs. replace (emax - 1) with (1 + (emax - 2)) by lia. rewrite bpow_plus. change (bpow radix2 1) with 2%R.
    pose proof (Rabs_pos (B2R y)). pose proof (Rabs_pos (B2R x)). apply Rabs_le. lra. }
  rewrite !B2R_Babs in Vd.
  assert (Vexp : Valid_exp fexp) by (apply fexp_correct; auto).
  assert (Gy : generic_format radix2 fexp (Rabs (B2R y))) by (apply generic_format_abs, generic_format_B2R).
  assert (Gx : generic_format radix2 fexp (- Rabs (B2R x))) by (apply generic_format_opp, generic_format_abs, generic_format_B2R).
  assert (F0 : fin fzero) by reflexivity.
  destruct (Rlt_or_le (Rabs (B2R y)) (Rabs (B2R x))) as [L|L].
  - left. split; auto. assert (N : B2R (Babs y --. Babs x) <> 0%R).
    { rewrite Vd. change fexp with (FLT_exp (3 - emax - prec) prec). apply (round_plus_neq_0 radix2 (FLT_exp (3 - emax - prec) prec)); auto; try typeclasses eauto. lra. }
    assert (B2R (Babs y --. Babs x) <= 0)%R.
    { rewrite Vd. rewrite <- (round_0 radix2 fexp ZnearestE). apply round_le; auto; [apply valid_rnd_N | lra]. }
    destruct (ltb_cmp _ fzero Fd F0) as [[A _]|[_ A]]; auto. change (BinarySingleNaN.B2R fzero) with 0%R in A. lra.
  - right. split; auto. assert (P : (0 <= B2R (Babs y --. Babs x))%R).
    { rewrite Vd. rewrite <- (round_0 radix2 fexp ZnearestE). apply round_le; auto; [apply valid_rnd_N | lra]. }
    split.
    + destruct (ltb_cmp _ fzero Fd F0) as [[_ A]|[A _]]; auto. change (BinarySingleNaN.B2R fzero) with 0%R in A. lra.
    + destruct (leb_cmp fzero _ F0 Fd) as [[A _]|[_ A]]; auto. change (BinarySingleNaN.B2R fzero) with 0%R in A. lra.
Qed.

Hypothesis Fh : fin half.
Hypothesis Vh : (Rabs (B2R half - PI / 2) <= 5 / 100000000)%R.
Hypothesis Fp : fin pf.
Hypothesis Vp : (Rabs (B2R pf - PI) <= 1 / 10000000)%R.
Hypothesis NegHalf : Bopp pf //. int 2 = Bopp half.

Lemma exponent : forall M, (bpow radix2 (3 - emax / 2) <= M <= bpow radix2 (emax / 2 - 3))%R ->
  exists e, (bpow radix2 (e - 1) <= M <= bpow radix2 e)%R /\ 4 - emax <= 2 * e <= emax - 4.
Proof using E10.
  clear - E10. intros M [L H]. exists (mag radix2 M). assert (0 < M)%R by (eapply Rlt_le_trans; [apply bpow_gt_0 | exact L]).
  pose proof (bpow_mag_le radix2 M ltac:(lra)) as A. pose proof (bpow_mag_gt radix2 M) as B. rewrite Rabs_pos_eq in * by lra.
  split; [lra|]. pose proof (Z.div_mod emax 2 ltac:(lia)). pose proof (Z.mod_pos_bound emax 2 ltac:(lia)).
  assert (mag radix2 M - 1 <= emax / 2 - 3) by (apply (le_bpow radix2); lra).
  assert (3 - emax / 2 < mag radix2 M) by (apply (lt_bpow radix2); lra). lia.
Qed.

Lemma div_le_1 : forall a b, (Rabs a <= Rabs b -> b <> 0 -> Rabs (a / b) <= 1)%R.
Proof.
  clear. intros a b H N. assert (0 < Rabs b)%R by (apply Rabs_pos_lt; auto).
  unfold Rdiv. rewrite Rabs_mult, Rabs_inv. apply Rmult_le_reg_r with (Rabs b); auto. rewrite Rmult_assoc, Rinv_l by lra. lra.
Qed.

Lemma fatan2_acc_g : forall g, (3 / 1000000 <= g <= / 10)%R -> forall y x : float, fin y -> fin x ->
  (forall t, t = B2R y / B2R x \/ t = B2R x / B2R y -> -1 <= t <= 1 -> Rabs (rat t - Ratan.atan t) <= g)%R ->
  (bpow radix2 (3 - emax / 2) <= Rmax (Rabs (B2R x)) (Rabs (B2R y)) <= bpow radix2 (emax / 2 - 3))%R ->
  fin (fatan2 y x) /\ (Rabs (B2R (fatan2 y x) - angle (B2R y) (B2R x)) <= g + 2 / 1000000)%R.
Proof using P24 E10 Hp He Fh Vh Fp Vp NegHalf.
  intros g G0 y x Fy Fx HG M.
  assert (rat_bound1 : forall t, t = (B2R y / B2R x)%R \/ t = (B2R x / B2R y)%R -> (Rabs t <= 1 -> Rabs (rat t) <= 1 /\ Rabs (rat t - Ratan.atan t) <= g)%R).
  { intros t Ht T. pose proof (ratk_abs (9 / 32) t ltac:(lra)) as R. fold rat in R. split; [lra|]. apply HG; auto. apply Rabs_le_inv; auto. } pose proof pi_bounds as PB. destruct (exponent _ M) as [e [E1 E2]].
  assert (LB : (bpow radix2 e <= bpow radix2 (emax - 2))%R) by (apply bpow_le; lia).
  pose proof (Rmax_l (Rabs (B2R x)) (Rabs (B2R y))) as ML. pose proof (Rmax_r (Rabs (B2R x)) (Rabs (B2R y))) as MR.
  assert (DS := diff_sign y x Fy Fx ltac:(lra) ltac:(lra)). unfold fatan2.
  assert (B0 : (0 < bpow radix2 (e - 1))%R) by apply bpow_gt_0.
  destruct DS as [[L C]|[L [C C']]].
  - rewrite Rmax_left in * by lra. assert (XN : B2R x <> 0%R) by (intros Z; rewrite Z, Rabs_R0 in L; pose proof (Rabs_pos (B2R y)); lra).
    rewrite angle_x by auto. destruct (sign_cases x Fx XN) as [[Sx Px]|[Sx Px]].
    + destruct (Rlt_dec 0 (B2R x)); [lra|]. destruct (eq_zero y Fy) as [[-> Y0]|[-> Y0]].
      * rewrite Sx. split; auto. rewrite Y0. replace (0 / B2R x)%R with 0%R by (field; auto). rewrite atan_0. destruct (Rle_dec 0 0); [|lra].
        rewrite Rplus_0_r. lra.
      * destruct (eq_zero x Fx) as [[_ X0]|[-> _]]; [lra|]. rewrite C, Sx.
        destruct (quot_acc x y (x **. y) e eq_refl Fx Fy ltac:(lra) E1 E2) as [Fq Vq]. fold (fp1 y x) in Fq, Vq.
        destruct (rat_bound1 (B2R y / B2R x)%R (or_introl eq_refl) (div_le_1 (B2R y) (B2R x) ltac:(lra) XN)) as [RB RG].
        set (t := (B2R y / B2R x)%R) in *. pose proof (Rabs_le_inv _ _ RB). pose proof (Rabs_le_inv _ _ RG). pose proof Vp as Vp'. apply Rabs_le_inv in Vp'.
        destruct (sign_cases y Fy Y0) as [[-> Py]|[-> Py]].
        -- destruct (Rle_dec 0 (B2R y)); [lra|].
           destruct (fadd P24 E10 (Bopp pf) (fp1 y x) (- PI) (rat t) (1 / 10000000) (8 / 10000000) (42 / 10) 8 (12 / 10000000) 3) as [Fr Vr]; auto; try lia; try lra.
           ++ rewrite is_finite_Bopp; auto.
           ++ rewrite B2R_Bopp. apply Rabs_le. lra.
           ++ apply Rabs_le. lra.
           ++ split; auto. apply Rabs_le_inv in Vr. apply Rabs_le. lra.
        -- destruct (Rle_dec 0 (B2R y)); [|lra].
           destruct (fadd P24 E10 pf (fp1 y x) PI (rat t) (1 / 10000000) (8 / 10000000) (42 / 10) 8 (12 / 10000000) 3) as [Fr Vr]; auto; try lia; try lra.
           ++ apply Rabs_le. lra.
           ++ split; auto. apply Rabs_le_inv in Vr. apply Rabs_le. lra.
    + destruct (Rlt_dec 0 (B2R x)); [|lra]. rewrite Rplus_0_l. destruct (eq_zero y Fy) as [[-> Y0]|[-> Y0]].
      * rewrite Sx. split; [reflexivity|]. rewrite Y0. replace (0 / B2R x)%R with 0%R by (field; auto). rewrite atan_0.
        change (B2R fzero) with 0%R. rewrite Rminus_0_r, Rabs_R0. lra.
      * destruct (eq_zero x Fx) as [[_ X0]|[-> _]]; [lra|]. rewrite C, Sx.
        destruct (quot_acc x y (x **. y) e eq_refl Fx Fy ltac:(lra) E1 E2) as [Fq Vq]. fold (fp1 y x) in Fq, Vq. split; auto.
        destruct (rat_bound1 (B2R y / B2R x)%R (or_introl eq_refl) (div_le_1 (B2R y) (B2R x) ltac:(lra) XN)) as [RB RG].
        apply Rabs_le_inv in Vq, RG. apply Rabs_le. lra.
  - rewrite Rmax_right in * by lra.
    assert (YN : B2R y <> 0%R) by (intros Z; rewrite Z, Rabs_R0 in E1; lra).
    rewrite angle_y by auto. destruct (eq_zero y Fy) as [[_ Y0]|[-> _]]; [lra|].
    rewrite C, C', andb_false_r. pose proof Vh as Vh'. apply Rabs_le_inv in Vh'.
    destruct (eq_zero x Fx) as [[-> X0]|[-> X0]].
    + rewrite X0. replace (0 / B2R y)%R with 0%R by (field; auto). rewrite atan_0, Rminus_0_r.
      destruct (sign_cases y Fy YN) as [[-> Py]|[-> Py]]; destruct (Rlt_dec 0 (B2R y)); try lra.
      * rewrite NegHalf. split; [rewrite is_finite_Bopp; auto|]. rewrite B2R_Bopp. apply Rabs_le. lra.
      * split; auto. apply Rabs_le. lra.
    + destruct (quot_acc y x (x **. y) e (Bmult_comm x y) Fy Fx ltac:(lra) E1 E2) as [Fq Vq]. fold (fp2 y x) in Fq, Vq.
      destruct (rat_bound1 (B2R x / B2R y)%R (or_intror eq_refl) (div_le_1 (B2R x) (B2R y) ltac:(lra) YN)) as [RB RG].
      set (t := (B2R x / B2R y)%R) in *. pose proof (Rabs_le_inv _ _ RB). pose proof (Rabs_le_inv _ _ RG).
      destruct (sign_cases y Fy YN) as [[-> Py]|[-> Py]]; destruct (Rlt_dec 0 (B2R y)); try lra.
      * destruct (fsub P24 E10 (Bopp half) (fp2 y x) (- (PI / 2)) (rat t) (1 / 10000000) (8 / 10000000) (26 / 10) 4 (11 / 10000000) 2) as [Fr Vr]; auto; try lia; try lra.
        -- rewrite is_finite_Bopp; auto.
        -- rewrite B2R_Bopp. apply Rabs_le. lra.
        -- apply Rabs_le. lra.
        -- split; auto. apply Rabs_le_inv in Vr. apply Rabs_le. lra.
      * destruct (fsub P24 E10 half (fp2 y x) (PI / 2) (rat t) (1 / 10000000) (8 / 10000000) (26 / 10) 4 (11 / 10000000) 2) as [Fr Vr]; auto; try lia; try lra.
        -- apply Rabs_le. lra.
        -- split; auto. apply Rabs_le_inv in Vr. apply Rabs_le. lra.
Qed.
Lemma fatan2_acc : forall y x : float, fin y -> fin x ->
  (bpow radix2 (3 - emax / 2) <= Rmax (Rabs (B2R x)) (Rabs (B2R y)) <= bpow radix2 (emax / 2 - 3))%R ->
  fin (fatan2 y x) /\ (Rabs (B2R (fatan2 y x) - angle (B2R y) (B2R x)) <= 492 / 100000)%R.
Proof using P24 E10 Hp He Fh Vh Fp Vp NegHalf.
  intros y x Fy Fx M. destruct (fatan2_acc_g (491036 / 100000000) ltac:(lra) y x Fy Fx ltac:(intros t _ T; apply gap_bound; auto) M) as [F A].
  split; auto. lra.
Qed.
End AtanF.
