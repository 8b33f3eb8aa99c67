(** * Fixed-point and floating two-argument arctangents follow the same real function. *)

From Coq Require Import ZArith Reals Lia Lra Psatz List Bool.
From Flocq Require Import Core.Core IEEE754.BinarySingleNaN.
From Verif Require Import Base FloatBase Literals Traits Trig IntImpl FixedPrim FixedImpl FloatImpl Spec SpecAngle
  Lemmas ScalarProofs ScalarProofs2 WrapProofs WrapProofs2 FloatLemmas FloatProofs FloatKit SinReal SinFixed SinFloat TrigProofs
  AtanReal AtanFixed AtanFloat AtanProofs FloatU.
Open Scope Z_scope.

Lemma rat_0 : rat 0 = 0%R.
Proof. unfold rat, ratk. field. Qed.

Section F.
Context {prec emax : Z} {Hp : Prec_gt_0 prec} {He : Prec_lt_emax prec emax}.
Notation float := (binary_float prec emax).
Notation fexp := (SpecFloat.fexp prec emax).
Notation rnd := (round radix2 fexp ZnearestE).
Notation B2R := (@B2R prec emax).
Notation fin x := (is_finite x = true).
Notation int z := (float_of_Z prec emax z).
Notation "a ++. b" := (Bplus mode_NE a b) (at level 50, left associativity).
Notation "a --. b" := (Bminus mode_NE a b) (at level 50, left associativity).
Notation "a **. b" := (Bmult mode_NE a b) (at level 40, left associativity).
Notation "a //. b" := (Bdiv mode_NE a b) (at level 40, left associativity).
Notation O := (@float_ops prec emax Hp He).
Notation pf := (float_of_float prec emax lit_pi).
Notation cf := (float_of_float prec emax lit_atan).
Notation half := (@fhalf prec emax Hp He).
Notation U := (bpow radix2 (- prec)).
Hypothesis P24 : 24 <= prec <= 100.
Hypothesis E10 : prec + 20 <= emax <= 2000.

Lemma errE : forall v k, 3 - emax <= k -> (Rabs v <= bpow radix2 k)%R -> (Rabs (rnd v - v) <= U / 2 * bpow radix2 k)%R.
Proof using P24 Hp He. clear E10.
  intros v k K H. eapply Rle_trans; [apply (rnd_err (prec := prec) (emax := emax) v k); auto; lia|].
  unfold Zminus. rewrite bpow_plus. lra.
Qed.

(** one quotient: [u] is the larger coordinate, [2^(e-1) <= |u| <= 2^e] *)
Lemma quot_U : forall (u v uv : float) e, uv = u **. v -> fin u -> fin v -> (Rabs (B2R v) <= Rabs (B2R u))%R ->
  (bpow radix2 (e - 1) <= Rabs (B2R u) <= bpow radix2 e)%R -> 4 - emax <= 2 * e <= emax - 4 ->
  fin (uv //. (u **. u ++. cf **. (v **. v))) /\
  (Rabs (B2R (uv //. (u **. u ++. cf **. (v **. v))) - rat (B2R v / B2R u)) <= 12 * U)%R.
Proof using P24 E10 Hp He.
  intros u v uv e -> Fu Fv L B E. pose proof (@U_pos prec ltac:(lia)) as [U0 U1]. destruct (cf_val P24 E10) as [Fc Vc]. set (c := cf) in *. clearbody c.
  set (X := B2R u) in *. set (V := B2R v) in *. set (s := bpow radix2 (2 * e)).
  assert (S0 : (0 < s)%R) by apply bpow_gt_0.
  assert (S1 : (s = bpow radix2 e * bpow radix2 e)%R) by (unfold s; rewrite <- bpow_plus; f_equal; lia).
  assert (S2 : (bpow radix2 e = 2 * bpow radix2 (e - 1))%R).
  { replace e with (1 + (e - 1)) at 1 by lia. rewrite bpow_plus. reflexivity. }
  assert (B0 : (0 < bpow radix2 (e - 1))%R) by apply bpow_gt_0.
  assert (UU : (X * X = Rabs X * Rabs X)%R) by (rewrite <- Rabs_mult; symmetry; apply Rabs_pos_eq, Rle_0_sqr).
  assert (VV : (V * V = Rabs V * Rabs V)%R) by (rewrite <- Rabs_mult; symmetry; apply Rabs_pos_eq, Rle_0_sqr).
  assert (VP := Rabs_pos V).
  assert (K : (s <= 4 * (X * X))%R) by nra.
  assert (KU : (0 < X * X <= s)%R) by nra.
  assert (KV : (0 <= V * V <= X * X)%R) by nra.
  assert (KN : (Rabs (X * V) <= X * X)%R) by (rewrite Rabs_mult; nra).
  set (K2 := (X * X)%R) in *.
  assert (US : (U * s <= 4 * (U * K2))%R) by (apply Rmult_le_compat_l with (r := U%R) in K; lra).
  assert (US1 : (0 < U * s <= s / 16777216)%R) by (split; [apply Rmult_lt_0_compat; auto | apply Rmult_le_compat_r with (r := s) in U1; lra]).
  assert (UK : (0 < U * K2 <= K2 / 16777216)%R) by (split; [apply Rmult_lt_0_compat; lra | apply Rmult_le_compat_r with (r := K2) in U1; lra]).
  destruct (mult_r (prec := prec) (emax := emax) u v Fu Fv (2 * e) ltac:(lia)) as [F1 V1]; [fold s X V; lra|].
  destruct (mult_r (prec := prec) (emax := emax) u u Fu Fu (2 * e) ltac:(lia)) as [F2 V2]; [fold s X; fold K2; rewrite Rabs_pos_eq; lra|].
  destruct (mult_r (prec := prec) (emax := emax) v v Fv Fv (2 * e) ltac:(lia)) as [F3 V3]; [fold s V; rewrite Rabs_pos_eq; lra|].
  fold X V in V1, V2, V3. fold K2 in V2.
  pose proof (errE (X * V) (2 * e) ltac:(lia) ltac:(fold s; lra)) as R1.
  pose proof (errE K2 (2 * e) ltac:(lia) ltac:(fold s; rewrite Rabs_pos_eq; lra)) as R2.
  pose proof (errE (V * V) (2 * e) ltac:(lia) ltac:(fold s; rewrite Rabs_pos_eq; lra)) as R3.
  fold s in R1, R2, R3. rewrite <- V1 in R1. rewrite <- V2 in R2. rewrite <- V3 in R3.
  set (n := u **. v) in *. set (d1 := u **. u) in *. set (w := v **. v) in *. clearbody n d1 w. clear V1 V2 V3.
  apply Rabs_le_inv in R2, R3.
  assert (CW : (Rabs (B2R c * B2R w) <= s)%R) by (rewrite Vc; apply Rabs_le; lra).
  destruct (mult_r (prec := prec) (emax := emax) c w Fc F3 (2 * e) ltac:(lia) CW) as [F4 V4].
  pose proof (errE (B2R c * B2R w) (2 * e) ltac:(lia) CW) as R4. rewrite <- V4 in R4. fold s in R4. rewrite Vc in R4.
  set (d2 := c **. w) in *. clearbody d2. clear V4. apply Rabs_le_inv in R4.
  assert (S3 : (bpow radix2 (2 * e + 1) = 2 * s)%R) by (rewrite bpow_plus, Rmult_comm; reflexivity).
  assert (DD : (Rabs (B2R d1 + B2R d2) <= bpow radix2 (2 * e + 1))%R) by (rewrite S3; apply Rabs_le; lra).
  destruct (plus_r (prec := prec) (emax := emax) d1 d2 F2 F4 (2 * e + 1) ltac:(lia) DD) as [F5 V5].
  pose proof (errE (B2R d1 + B2R d2) (2 * e + 1) ltac:(lia) DD) as R5. rewrite <- V5, S3 in R5. apply Rabs_le_inv in R5.
  set (d := d1 ++. d2) in *. clearbody d. clear V5 DD.
  set (D := (K2 + 9 / 32 * (V * V))%R).
  assert (ED : (Rabs (B2R d - D) <= 86 / 10 * U * K2)%R) by (unfold D; apply Rabs_le; lra).
  assert (EN : (Rabs (B2R n - X * V) <= 2 * U * K2)%R) by lra.
  assert (DP : (K2 <= D)%R) by (unfold D; lra). assert (dP : (99 / 100 * K2 <= B2R d)%R) by (apply Rabs_le_inv in ED; lra).
  assert (Q : (Rabs (B2R n / B2R d - X * V / D) <= 108 / 10 * U)%R).
  { replace (B2R n / B2R d - X * V / D)%R with (((B2R n - X * V) + X * V / D * (D - B2R d)) * / B2R d)%R by (field; lra).
    rewrite Rabs_mult, (Rabs_pos_eq (/ B2R d)) by (apply Rlt_le, Rinv_0_lt_compat; lra).
    apply Rmult_le_reg_r with (B2R d); [lra|]. rewrite Rmult_assoc, Rinv_l, Rmult_1_r by lra.
    eapply Rle_trans; [apply Rabs_triang|]. rewrite Rabs_mult, (Rabs_minus_sym D).
    assert (Rabs (X * V / D) <= 1)%R.
    { unfold Rdiv. rewrite Rabs_mult, Rabs_inv, (Rabs_pos_eq D) by lra. apply Rmult_le_reg_r with D; [lra|]. rewrite Rmult_assoc, Rinv_l by lra. lra. }
    assert (Rabs (X * V / D) * Rabs (B2R d - D) <= 1 * (86 / 10 * U * K2))%R by (apply Rmult_le_compat; auto using Rabs_pos).
    assert (U * (99 / 100 * K2) <= U * B2R d)%R by (apply Rmult_le_compat_l; lra). lra. }
  assert (ER : (X * V / D = rat (V / X))%R).
  { unfold D, K2, rat, ratk. assert (X <> 0)%R by (intros Z; unfold K2 in KU; rewrite Z in KU; lra). field. repeat split; auto; unfold K2 in *; nra. }
  rewrite ER in Q.
  assert (T : (Rabs (V / X) <= 1)%R).
  { assert (0 < Rabs X)%R by lra. unfold Rdiv. rewrite Rabs_mult, Rabs_inv. apply Rmult_le_reg_r with (Rabs X); auto. rewrite Rmult_assoc, Rinv_l by lra. lra. }
  pose proof (ratk_abs (9 / 32) (V / X) ltac:(lra)) as RA. fold rat in RA.
  assert (QB : (Rabs (B2R n / B2R d) <= bpow radix2 1)%R).
  { change (bpow radix2 1) with 2%R. assert (RA1 := Rle_trans _ _ _ RA T). apply Rabs_le_inv in Q, RA1. apply Rabs_le. lra. }
  destruct (div_r (prec := prec) (emax := emax) n d F1 ltac:(lra) 1 ltac:(lia) QB) as [F6 V6].
  pose proof (errE _ 1 ltac:(lia) QB) as R6. rewrite <- V6 in R6. change (bpow radix2 1) with 2%R in R6.
  split; auto. apply Rabs_le_inv in R6, Q. apply Rabs_le. lra.
Qed.

Hypothesis Fh : fin half.
Hypothesis Vh : (Rabs (B2R half - PI / 2) <= 2 * U)%R.
Hypothesis Fp : fin pf.
Hypothesis Vp : (Rabs (B2R pf - PI) <= 2 * U)%R.
Hypothesis NegHalf : Bopp pf //. int 2 = Bopp half.

Lemma fatan2_U : forall y x : float, fin y -> fin x ->
  (bpow radix2 (3 - emax / 2) <= Rmax (Rabs (B2R x)) (Rabs (B2R y)) <= bpow radix2 (emax / 2 - 3))%R ->
  fin (fatan2 y x) /\ (Rabs (B2R (fatan2 y x) - octant rat (B2R y) (B2R x)) <= 18 * U)%R.
Proof using P24 E10 Hp He Fh Vh Fp Vp NegHalf.
  intros y x Fy Fx M. pose proof (@U_pos prec ltac:(lia)) as [U0 U1].
  assert (rat_bound1 : forall t, t = (B2R y / B2R x)%R \/ t = (B2R x / B2R y)%R -> (Rabs t <= 1 -> Rabs (rat t) <= 1 )%R).
  { intros t Ht T. pose proof (ratk_abs (9 / 32) t ltac:(lra)) as R. fold rat in R. lra. } pose proof pi_bounds as PB. destruct (exponent E10 _ M) as [e [E1 E2]].
  assert (LB : (bpow radix2 e <= bpow radix2 (emax - 2))%R) by (apply bpow_le; lia).
  pose proof (Rmax_l (Rabs (B2R x)) (Rabs (B2R y))) as ML. pose proof (Rmax_r (Rabs (B2R x)) (Rabs (B2R y))) as MR.
  assert (DS := diff_sign P24 E10 y x Fy Fx ltac:(lra) ltac:(lra)). unfold fatan2.
  assert (B0 : (0 < bpow radix2 (e - 1))%R) by apply bpow_gt_0.
  destruct DS as [[L C]|[L [C C']]].
  - rewrite Rmax_left in * by lra. assert (XN : B2R x <> 0%R) by (intros Z; rewrite Z, Rabs_R0 in L; pose proof (Rabs_pos (B2R y)); lra).
    rewrite octant_x by auto. destruct (sign_cases x Fx XN) as [[Sx Px]|[Sx Px]].
    + destruct (Rlt_dec 0 (B2R x)); [lra|]. destruct (eq_zero y Fy) as [[-> Y0]|[-> Y0]].
      * rewrite Sx. split; auto. rewrite Y0. replace (0 / B2R x)%R with 0%R by (field; auto). rewrite rat_0. destruct (Rle_dec 0 0); [|lra].
        rewrite Rplus_0_r. lra.
      * destruct (eq_zero x Fx) as [[_ X0]|[-> _]]; [lra|]. rewrite C, Sx.
        destruct (quot_U x y (x **. y) e eq_refl Fx Fy ltac:(lra) E1 E2) as [Fq Vq]. fold (fp1 y x) in Fq, Vq.
        pose proof (rat_bound1 (B2R y / B2R x)%R (or_introl eq_refl) (div_le_1 (B2R y) (B2R x) ltac:(lra) XN)) as RB.
        set (t := (B2R y / B2R x)%R) in *. pose proof (Rabs_le_inv _ _ RB). pose proof Vp as Vp'. apply Rabs_le_inv in Vp'.
        destruct (sign_cases y Fy Y0) as [[-> Py]|[-> Py]].
        -- destruct (Rle_dec 0 (B2R y)); [lra|].
           destruct (addU P24 E10 (Bopp pf) (fp1 y x) (- PI) (rat t) 2 12 (42 / 10) 8 18 3) as [Fr Vr]; auto; try lia; try lra.
           ++ rewrite is_finite_Bopp; auto.
           ++ rewrite B2R_Bopp. apply Rabs_le. lra.
           ++ apply Rabs_le. lra.
        -- destruct (Rle_dec 0 (B2R y)); [|lra].
           destruct (addU P24 E10 pf (fp1 y x) PI (rat t) 2 12 (42 / 10) 8 18 3) as [Fr Vr]; auto; try lia; try lra.
           ++ apply Rabs_le. lra.
    + destruct (Rlt_dec 0 (B2R x)); [|lra]. rewrite Rplus_0_l. destruct (eq_zero y Fy) as [[-> Y0]|[-> Y0]].
      * rewrite Sx. split; [reflexivity|]. rewrite Y0. replace (0 / B2R x)%R with 0%R by (field; auto). rewrite rat_0.
        change (B2R fzero) with 0%R. rewrite Rminus_0_r, Rabs_R0. lra.
      * destruct (eq_zero x Fx) as [[_ X0]|[-> _]]; [lra|]. rewrite C, Sx.
        destruct (quot_U x y (x **. y) e eq_refl Fx Fy ltac:(lra) E1 E2) as [Fq Vq]. fold (fp1 y x) in Fq, Vq. split; auto.
        pose proof (rat_bound1 (B2R y / B2R x)%R (or_introl eq_refl) (div_le_1 (B2R y) (B2R x) ltac:(lra) XN)) as RB.
        apply Rabs_le_inv in Vq. apply Rabs_le. lra.
  - rewrite Rmax_right in * by lra.
    assert (YN : B2R y <> 0%R) by (intros Z; rewrite Z, Rabs_R0 in E1; lra).
    rewrite octant_y by auto. destruct (eq_zero y Fy) as [[_ Y0]|[-> _]]; [lra|].
    rewrite C, C', andb_false_r. pose proof Vh as Vh'. apply Rabs_le_inv in Vh'.
    destruct (eq_zero x Fx) as [[-> X0]|[-> X0]].
    + rewrite X0. replace (0 / B2R y)%R with 0%R by (field; auto). rewrite rat_0, Rminus_0_r.
      destruct (sign_cases y Fy YN) as [[-> Py]|[-> Py]]; destruct (Rlt_dec 0 (B2R y)); try lra.
      * rewrite NegHalf. split; [rewrite is_finite_Bopp; auto|]. rewrite B2R_Bopp. apply Rabs_le. lra.
      * split; auto. apply Rabs_le. lra.
    + destruct (quot_U y x (x **. y) e (Bmult_comm x y) Fy Fx ltac:(lra) E1 E2) as [Fq Vq]. fold (fp2 y x) in Fq, Vq.
      pose proof (rat_bound1 (B2R x / B2R y)%R (or_intror eq_refl) (div_le_1 (B2R x) (B2R y) ltac:(lra) YN)) as RB.
      set (t := (B2R x / B2R y)%R) in *. pose proof (Rabs_le_inv _ _ RB).
      destruct (sign_cases y Fy YN) as [[-> Py]|[-> Py]]; destruct (Rlt_dec 0 (B2R y)); try lra.
      * destruct (subU P24 E10 (Bopp half) (fp2 y x) (- (PI / 2)) (rat t) 2 12 (26 / 10) 4 18 2) as [Fr Vr]; auto; try lia; try lra.
        -- rewrite is_finite_Bopp; auto.
        -- rewrite B2R_Bopp. apply Rabs_le. lra.
        -- apply Rabs_le. lra.
      * destruct (subU P24 E10 half (fp2 y x) (PI / 2) (rat t) 2 12 (26 / 10) 4 18 2) as [Fr Vr]; auto; try lia; try lra.
        -- apply Rabs_le. lra.
Qed.
End F.

(** ** fixed point *)
Lemma atan_fixed_rat : forall m f, supported f = true -> fsigned f = true -> forall y x,
  let M := Rmax (Rabs (fval f x)) (Rabs (fval f y)) in
  (16 * ulp f <= M * M -> 3 / 2 * (M * M) <= fval f (fmax f) ->
   exists r, fixed_atan2_poly m f y x = Ok r /\
   Rabs (fval f r - octant rat (fval f y) (fval f x)) <= (3 + 5 / (M * M)) * ulp f + / 1000000000000000)%R.
Proof.
  intros m f Hf S y x M H1 H2. pose proof (supported_fwf f Hf) as W. pose proof (fone_pos f (proj1 W)) as Q.
  pose proof (fone_IZR_pos f (proj1 W)) as QR. unfold M in *. clear M. rewrite big_sq in * by apply W. set (u := big y x) in *.
  assert (UL : (ulp f = / IZR (fone f))%R).
  { unfold ulp. rewrite bpow_opp, fone_bpow by apply W. reflexivity. }
  rewrite (fval_eq f (Z.abs u)), (fval_eq f (fmax f)) in * by apply W. rewrite UL in *. rewrite fmax_val in H2 by auto. set (qr := IZR (fone f)) in *.
  assert (IQ : (0 < / qr)%R) by (apply Rinv_0_lt_compat; auto).
  assert (EU : (IZR (Z.abs u) / qr * (IZR (Z.abs u) / qr) = IZR u * IZR u * / qr * / qr)%R).
  { rewrite abs_IZR. replace (IZR u * IZR u)%R with (Rabs (IZR u) * Rabs (IZR u))%R; [field; lra|].
    rewrite <- Rabs_mult. apply Rabs_pos_eq. apply Rle_0_sqr. }
  rewrite EU in *.
  assert (N : 16 * fone f <= u * u).
  { apply le_IZR. rewrite !mult_IZR. fold qr. apply Rmult_le_reg_r with (/ qr * / qr)%R; [apply Rmult_lt_0_compat; auto|].
    replace (16 * qr * (/ qr * / qr))%R with (16 * / qr)%R by (field; lra). lra. }
  assert (N2 : 3 * (u * u) <= 2 * (2 ^ (fwidth f - 1) - 1) * fone f).
  { apply le_IZR. rewrite !mult_IZR. fold qr. apply Rmult_le_reg_r with (/ qr * / qr)%R; [apply Rmult_lt_0_compat; auto|].
    set (b := IZR (2 ^ (fwidth f - 1) - 1)) in *. replace (2 * b * qr * (/ qr * / qr))%R with (2 * (b / qr))%R by (field; lra). lra. }
  assert (N3 : 3 * (u * u / fone f) <= 2 * (2 ^ (fwidth f - 1) - 1)).
  { pose proof (Z.mul_div_le (u * u) (fone f) Q). nia. }
  assert (N4 : 1 <= u * u / fone f) by (apply Z.div_le_lower_bound; lia).
  eexists. split; [apply atan2_all; auto|].
  pose proof (zatan2_acc_A f W rat 0%R y x N) as Z. fold u qr in Z. rewrite (fval_eq f (zatan2 _ _ _ _ _)) by apply W. fold qr.
  specialize (Z ltac:(intros t _ _; rewrite Rminus_diag_eq, Rabs_R0 by auto; lra)).
  set (r := IZR (zatan2 _ _ _ _ _)) in *. set (th := octant _ _ _) in *.
  replace (r / qr - th)%R with ((r - qr * th) * / qr)%R by (field; lra). rewrite Rabs_mult, (Rabs_pos_eq (/ qr)) by lra.
  eapply Rle_trans; [apply Rmult_le_compat_r; [lra|exact Z]|].
  assert (U0 : (0 < IZR u * IZR u)%R) by (rewrite <- mult_IZR; apply IZR_lt; lia).
  set (K := (IZR u * IZR u)%R) in *.
  replace (((0 + / 1000000000000000) * qr + 9 / 4 + 415 / 100 * (qr * qr / K)) * / qr)%R with (/ 1000000000000000 + 9 / 4 * / qr + 415 / 100 * (qr / K))%R by (field; lra).
  replace ((3 + 5 / (K * / qr * / qr)) * / qr)%R with (3 * / qr + 5 * (qr / K))%R by (field; lra).
  assert (0 < qr / K)%R by (apply Rmult_lt_0_compat; [lra | apply Rinv_0_lt_compat; lra]). lra.
Qed.

(** ** agreement *)
Lemma fmax_small : forall f, supported f = true -> (fval f (fmax f) <= bpow radix2 64)%R.
Proof.
  intros f Hf. pose proof (supported_fwf f Hf) as W. pose proof (supported_inv f Hf) as HI.
  rewrite fval_eq by apply W. pose proof (fone_pos f (proj1 W)) as Q.
  assert (B : (IZR (fmax f) <= bpow radix2 64)%R).
  { change (bpow radix2 64) with (IZR (2 ^ 64)). apply IZR_le. unfold fmax, imax, fity; cbn [isigned iwidth]. pose proof (Z.pow_le_mono_r 2 (fwidth f) 64 ltac:(lia) ltac:(lia)).
    pose proof (Z.pow_le_mono_r 2 (fwidth f - 1) (fwidth f) ltac:(lia) ltac:(lia)). destruct (fsigned f); lia. }
  assert (Q1 : (1 <= IZR (fone f))%R) by (apply IZR_le; lia).
  apply Rmult_le_reg_r with (IZR (fone f)); [lra|]. unfold Rdiv. rewrite Rmult_assoc, Rinv_l, Rmult_1_r by lra.
  pose proof (bpow_gt_0 radix2 64). apply Rle_trans with (bpow radix2 64 * 1)%R; [lra|]. apply Rmult_le_compat_l; lra.
Qed.
Lemma range_ok : forall f M e, supported f = true -> 61 <= e -> (0 <= M -> 16 * ulp f <= M * M -> 3 / 2 * (M * M) <= fval f (fmax f) ->
  bpow radix2 (- e) <= M <= bpow radix2 e)%R.
Proof.
  intros f M e Hf He M0 H1 H2. pose proof (fmax_small f Hf) as X. pose proof (supported_inv f Hf) as HI.
  assert (L1 : (bpow radix2 (- e) <= bpow radix2 (-61))%R) by (apply bpow_le; lia).
  assert (L2 : (bpow radix2 61 <= bpow radix2 e)%R) by (apply bpow_le; lia).
  assert (UL : (bpow radix2 (-61) <= ulp f)%R) by (unfold ulp; apply bpow_le; lia).
  pose proof (bpow_gt_0 radix2 (-61)) as P1. pose proof (bpow_gt_0 radix2 61) as P2.
  assert (Q1 : (bpow radix2 (-61) <= 1)%R) by (apply Rle_trans with (bpow radix2 0); [apply bpow_le; lia | apply Req_le; reflexivity]).
  assert (E64 : (bpow radix2 64 = 8 * bpow radix2 61)%R) by (replace 64 with (3 + 61) by lia; rewrite bpow_plus; reflexivity).
  assert (E61 : (8 <= bpow radix2 61)%R) by (apply Rle_trans with (bpow radix2 3); [apply Req_le; reflexivity | apply bpow_le; lia]).
  split.
  - apply Rle_trans with (1 := L1). destruct (Rle_or_lt (bpow radix2 (-61)) M); auto. nra.
  - apply Rle_trans with (2 := L2). destruct (Rle_or_lt M (bpow radix2 61)); auto. nra.
Qed.

Lemma cross_atan : forall m f, supported f = true -> fsigned f = true -> forall y x,
  let M := Rmax (Rabs (fval f x)) (Rabs (fval f y)) in
  (16 * ulp f <= M * M -> 3 / 2 * (M * M) <= fval f (fmax f) ->
  (forall yf xf : f32, is_finite yf = true -> is_finite xf = true -> B2R yf = fval f y -> B2R xf = fval f x ->
   exists r s, fixed_atan2_poly m f y x = Ok r /\ float_atan2_poly yf xf = Ok s /\ is_finite s = true /\
   Rabs (fval f r - B2R s) <= (3 + 5 / (M * M)) * ulp f + 19 * bpow radix2 (-24)) /\
  (forall yf xf : f64, is_finite yf = true -> is_finite xf = true -> B2R yf = fval f y -> B2R xf = fval f x ->
   exists r s, fixed_atan2_poly m f y x = Ok r /\ float_atan2_poly yf xf = Ok s /\ is_finite s = true /\
   Rabs (fval f r - B2R s) <= (3 + 5 / (M * M)) * ulp f + 28 * bpow radix2 (-53)))%R.
Proof.
  intros m f Hf S y x M H1 H2. destruct (atan_fixed_rat m f Hf S y x H1 H2) as (r & Er & Ar). fold M in Ar. pose proof pi_bounds as PB.
  assert (M0 : (0 <= M)%R) by (unfold M; eapply Rle_trans; [apply Rabs_pos | apply Rmax_l]).
  split; intros yf xf Fy Fx Vy Vx.
  - destruct f32_half_val as [Vh Fh]. destruct f32_pi_val as [Vp Fp].
    assert (Vh' : (B2R (@fhalf 24 128 _ _) = IZR 13176795 * / IZR 8388608)%R) by exact Vh.
    assert (Vp' : (B2R f32_pi = IZR 13176795 * / IZR 4194304)%R) by exact Vp.
    destruct (@fatan2_U 24 128 _ _ ltac:(lia) ltac:(lia)) with (y := yf) (x := xf) as [Fs As]; auto.
    + rewrite Vh'. change (bpow radix2 (- (24))) with (/ 16777216)%R. apply Rabs_le. lra.
    + change (Rabs (B2R f32_pi - PI) <= 2 * bpow radix2 (- (24)))%R. rewrite Vp'. change (bpow radix2 (- (24))) with (/ 16777216)%R. apply Rabs_le. lra.
    + unfold fhalf. apply Bdiv_opp_l.
    + rewrite Vx, Vy. change (3 - 128 / 2) with (- (61)). change (128 / 2 - 3) with 61. apply (range_ok f M 61); auto. lia.
    + exists r, (fatan2 yf xf). split; auto. split; [apply atan2_float_eq|]. split; auto. rewrite Vx, Vy in As. 
      change (bpow radix2 (- (24))) with (/ 16777216)%R in As. change (bpow radix2 (-24)) with (/ 16777216)%R.
      set (o := octant rat _ _) in *. set (k := ((3 + 5 / (M * M)) * ulp f)%R) in *. apply Rabs_le_inv in As, Ar. apply Rabs_le. lra.
  - destruct f64_half_val as [Vh Fh]. destruct f64_pi_val as [Vp Fp].
    assert (Vh' : (B2R (@fhalf 53 1024 _ _) = IZR 7074237752028440 * / IZR 4503599627370496)%R) by exact Vh.
    assert (Vp' : (B2R f64_pi = IZR 7074237752028440 * / IZR 2251799813685248)%R) by exact Vp.
    destruct (@fatan2_U 53 1024 _ _ ltac:(lia) ltac:(lia)) with (y := yf) (x := xf) as [Fs As]; auto.
    + rewrite Vh'. change (bpow radix2 (- (53))) with (/ 9007199254740992)%R. apply Rabs_le. lra.
    + change (Rabs (B2R f64_pi - PI) <= 2 * bpow radix2 (- (53)))%R. rewrite Vp'. change (bpow radix2 (- (53))) with (/ 9007199254740992)%R. apply Rabs_le. lra.
    + unfold fhalf. apply Bdiv_opp_l.
    + rewrite Vx, Vy. change (3 - 1024 / 2) with (- (509)). change (1024 / 2 - 3) with 509. apply (range_ok f M 509); auto. lia.
    + exists r, (fatan2 yf xf). split; auto. split; [apply atan2_float_eq|]. split; auto. rewrite Vx, Vy in As. 
      change (bpow radix2 (- (53))) with (/ 9007199254740992)%R in As. change (bpow radix2 (-53)) with (/ 9007199254740992)%R.
      set (o := octant rat _ _) in *. set (k := ((3 + 5 / (M * M)) * ulp f)%R) in *. apply Rabs_le_inv in As, Ar. apply Rabs_le. lra.
Qed.
