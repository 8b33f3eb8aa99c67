(** * Float instances: four quarter turns, the first guess of the square root, polar times Cartesian. *)

From Coq Require Import ZArith Reals Lia Lra Psatz List Bool.
From Flocq Require Import Core.Core IEEE754.BinarySingleNaN.
From Verif Require Import Base FloatBase Literals Traits Trig IntImpl FloatImpl Complex Spec SpecAngle SpecFilter SpecFloatPolar SpecRotor Lemmas FloatLemmas FloatProofs FloatWrap
  WrapProofs SqrtReal NiirfFixed NiirfInt FloatKit NiirfFloat FloatArith FloatSum MagProofs RotProofs UnitProofs FilterProofs.
Open Scope Z_scope.

Section Turn.
Context {prec emax : Z} {Hp : Prec_gt_0 prec} {He : Prec_lt_emax prec emax}.
Notation float := (binary_float prec emax).
Lemma same_fin : forall x y : float, same_float x y -> is_finite y = true -> is_finite x = true.
Proof using. intros x y [->|(a & b & -> & ->)]; auto. Qed.
Lemma same_tr : forall x y z : float, same_float x y -> same_float y z -> same_float x z.
Proof using.
  intros x y z H1 H2. destruct H1 as [->|(a & b & -> & E)]; auto. destruct H2 as [<-|(c & d & E2 & ->)]; right; eauto.
Qed.
Lemma same_opp : forall x y : float, same_float x y -> same_float (Bopp x) (Bopp y).
Proof using. intros x y [->|(a & b & -> & ->)]; [left; auto|right; exists (negb a), (negb b); auto]. Qed.
Lemma rot4_float : 24 <= prec -> forall (z i : Cartesian float) e o, mixed_zero float_zero = Ok e -> mixed_one float_one = Ok o -> i = mkC e o ->
  is_finite (re z) = true -> is_finite (im z) = true -> let M := fun z => cartesian_mul float_ops z i in
  exists r, (a <- M z ;; b <- M a ;; c <- M b ;; M c) = Ok r /\ same_float (re r) (re z) /\ same_float (im r) (im z).
Proof using.
  intros P z i e o E1 E2 E3 F1 F2 M. pose proof (RotProofs.rot_float P) as R.
  destruct (R z i e o E1 E2 E3 F1 F2) as (a & Ea & A1 & A2).
  assert (Fo : is_finite (Bopp (im z)) = true) by (rewrite is_finite_Bopp; auto).
  destruct (R a i e o E1 E2 E3 (same_fin _ _ A1 Fo) (same_fin _ _ A2 F1)) as (b & Eb & B1 & B2).
  assert (Fb1 : is_finite (re b) = true). { apply (same_fin _ _ B1). rewrite is_finite_Bopp. apply (same_fin _ _ A2 F1). }
  assert (Fb2 : is_finite (im b) = true). { apply (same_fin _ _ B2). apply (same_fin _ _ A1 Fo). }
  destruct (R b i e o E1 E2 E3 Fb1 Fb2) as (c & Ec & C1 & C2).
  assert (Fc1 : is_finite (re c) = true). { apply (same_fin _ _ C1). rewrite is_finite_Bopp. auto. }
  assert (Fc2 : is_finite (im c) = true). { apply (same_fin _ _ C2). auto. }
  destruct (R c i e o E1 E2 E3 Fc1 Fc2) as (d & Ed & D1 & D2).
  exists d. unfold M. rewrite Ea. cbn [bind]. rewrite Eb. cbn [bind]. rewrite Ec. cbn [bind]. split; [exact Ed|]. split.
  - eapply same_tr; [exact D1|]. eapply same_tr; [apply same_opp; exact C2|]. eapply same_tr; [apply same_opp; exact B1|]. rewrite Bopp_involutive. exact A2.
  - eapply same_tr; [exact D2|]. eapply same_tr; [exact C1|]. eapply same_tr; [apply same_opp; exact B2|]. eapply same_tr; [apply same_opp; exact A1|]. rewrite Bopp_involutive. left; auto.
Qed.
End Turn.

(** ** polar times Cartesian *)
Section PC.
Context {prec emax : Z} {Hp : Prec_gt_0 prec} {He : Prec_lt_emax prec emax}.
Notation float := (binary_float prec emax).
Notation rnd := (round radix2 (SpecFloat.fexp prec emax) ZnearestE).
Hypothesis P24 : 24 <= prec.
Hypothesis E40 : 40 <= emax.
Notation u := (bpow radix2 (- prec)).

Lemma pmul_cart_float : forall m fuel sq A d, (forall x : float, sq x = Bsqrt mode_NE x) -> accurate_atan2_float d A -> (0 <= d <= 1)%R ->
  forall (p : Polar float) (z : Cartesian float) th k, 2 * k + 1 < emax ->
  is_finite (mag p) = true -> is_finite (ang p) = true -> is_finite (re z) = true -> is_finite (im z) = true -> im z <> B754_zero true ->
  is_angle (B2R (im z)) (B2R (re z)) th ->
  let g := B2R (mag p) in let a := B2R (ang p) in let rho := cabs (B2R (re z), B2R (im z)) in
  (bpow radix2 (14 - emax) <= rho * rho)%R -> (rho <= bpow radix2 k)%R ->
  (Rabs g * rho <= bpow radix2 (emax - 2))%R -> (Rabs a <= bpow radix2 (emax - 2))%R ->
  let run := polar_mul_cartesian float_ops (float_sqrt m sq fuel) float_powi A p z in
  (g = 0%R -> run = Ok (mkP (B754_zero false) (B754_zero false))) /\
  (g <> 0%R -> exists q, run = Ok q /\ is_finite (mag q) = true /\ is_finite (ang q) = true /\
   (Rabs (B2R (mag q) - g * rho) <= 7 / 2 * u * (Rabs g * rho) + bpow radix2 (3 - emax - prec) /\
    Rabs (B2R (ang q) - (a + th)) <= d + u * (Rabs (a + th) + d))%R).
Proof using P24 E40.
  intros m fuel sq A d SQ HA D p z th k K F1 F2 F3 F4 NZ TH g a rho R1 R2 G1 A1 run.
  assert (US : (0 < u <= / 16777216)%R). { split; [apply bpow_gt_0|]. change (/ 16777216)%R with (bpow radix2 (-24)). apply bpow_le. lia. }
  destruct (mag_float_N P24 E40 m fuel z sq SQ k K (conj F3 F4) R1 R2) as (r & Er & Fr & Nr). cbv zeta in Nr. change (cabs (cvalf z)) with rho in Nr.
  destruct (HA (im z) (re z) th F4 F3 TH) as (t & Et & Ft & [Nt|(N0 & _)]); [|contradiction].
  assert (TP : ops_to_polar float_ops (float_sqrt m sq fuel) float_powi A z = Ok (mkP r t)).
  { unfold ops_to_polar. change (ops_abs float_ops (float_sqrt m sq fuel) float_powi z) with (cartesian_mag float_ops (float_sqrt m sq fuel) float_powi z).
    rewrite Er. cbn [bind]. rewrite Et. reflexivity. }
  unfold run, polar_mul_cartesian. rewrite TP. cbn [bind]. unfold ops_mul_polar. cbn [o_of_i32 float_ops bind mag ang].
  assert (RP : (0 < rho)%R).
  { pose proof (bpow_gt_0 radix2 (14 - emax)). assert (0 <= rho)%R by apply cabs_pos. destruct (Req_dec rho 0) as [Q|Q]; [rewrite Q in R1; lra|lra]. }
  assert (RR : (0 < B2R r)%R) by (apply Rabs_le_inv in Nr; nra).
  destruct (float_zero_eq (mag p) F1) as [[E0 V0]|[E0 V0]]; rewrite E0; (split; [intros G0; try contradiction|intros G0; try contradiction]).
  - rewrite float_of_Z_zero. reflexivity.
  - destruct (float_zero_eq r Fr) as [[E2 V2]|[E2 V2]]; [lra|]. cbn [bind]. rewrite E2. cbn [bind o_mul o_add].
    pose proof (Rabs_pos g) as GP. set (G := Rabs g) in *.
    assert (Nr' := Nr). apply Rabs_le_inv in Nr'.
    assert (PB : (Rabs (B2R (mag p) * B2R r) <= G * rho * (1 + 9 / 4 * u))%R).
    { rewrite Rabs_mult. fold g G. rewrite (Rabs_pos_eq (B2R r)) by lra. rewrite Rmult_assoc. apply Rmult_le_compat_l; auto. lra. }
    assert (GR : (0 <= G * rho)%R) by (apply Rmult_le_pos; lra).
    assert (B2e : (bpow radix2 (emax - 1) = 2 * bpow radix2 (emax - 2))%R) by (replace (emax - 1) with (1 + (emax - 2)) by lia; rewrite bpow_plus; reflexivity).
    destruct (mult_r (mag p) r F1 Fr (emax - 1) ltac:(lia)) as [Fm Vm]. { eapply Rle_trans; [exact PB|]. nra. }
    pose proof (proj1 TH) as th_range.
    assert (TB : (Rabs th <= 4)%R). { pose proof PI_4. pose proof PI_RGT_0. destruct th_range. apply Rabs_le. lra. }
    assert (TT : (Rabs (B2R t) <= 5)%R). { replace (B2R t) with (th + (B2R t - th))%R by ring. eapply Rle_trans; [apply Rabs_triang|]. lra. }
    assert (B8 : (8 <= bpow radix2 (emax - 2))%R) by (change 8%R with (bpow radix2 3); apply bpow_le; lia).
    destruct (plus_r (ang p) t F2 Ft (emax - 1) ltac:(lia)) as [Fa Va]. { eapply Rle_trans; [apply Rabs_triang|]. fold a. lra. }
    eexists. split; [reflexivity|]. cbn [mag ang]. split; auto. split; auto. split.
    + rewrite Vm. pose proof (MagProofs.rnd_rel (prec := prec) (emax := emax) (B2R (mag p) * B2R r)) as Q. fold g in Q, PB |- *.
      set (v := (g * B2R r)%R) in *. replace (rnd v - g * rho)%R with ((rnd v - v) + (v - g * rho))%R by ring.
      eapply Rle_trans; [apply Rabs_triang|]. 
      assert (V1 : (Rabs (v - g * rho) <= G * (9 / 4 * u * rho))%R). { unfold v. rewrite <- Rmult_minus_distr_l, Rabs_mult. fold G. apply Rmult_le_compat_l; auto. }
      pose proof (bpow_gt_0 radix2 (3 - emax - prec)) as ET. 
      assert (V2' : (u * Rabs v <= u * (G * rho * (1 + 9 / 4 * u)))%R) by (apply Rmult_le_compat_l; lra).
      assert (V3 : (G * rho * (u * u) <= G * rho * (u * / 16777216))%R) by (apply Rmult_le_compat_l; nra).
      assert (V4 : (0 <= G * rho * u)%R) by (apply Rmult_le_pos; lra). lra.
    + rewrite Va. pose proof (plus_rel (ang p) t F2 Ft) as Q. fold a in Q |- *. set (v := (a + B2R t)%R) in *.
      replace (rnd v - (a + th))%R with ((rnd v - v) + (B2R t - th))%R by (unfold v; ring).
      eapply Rle_trans; [apply Rabs_triang|].
      assert (V1 : (Rabs v <= Rabs (a + th) + d)%R). { replace v with ((a + th) + (B2R t - th))%R by (unfold v; ring). eapply Rle_trans; [apply Rabs_triang|]. lra. }
      assert (u * Rabs v <= u * (Rabs (a + th) + d))%R by (apply Rmult_le_compat_l; lra). lra.
Qed.
End PC.

(** ** the first guess of the square root *)
Section Guess.
Context {prec emax : Z} {Hp : Prec_gt_0 prec} {He : Prec_lt_emax prec emax}.
Notation float := (binary_float prec emax).
Hypothesis P24 : 24 <= prec <= 100.
Hypothesis E10 : prec + 20 <= emax <= 2000.
Notation O := (@float_ops prec emax Hp He).
Notation B2R := (@B2R prec emax).

Lemma fdenorm2 : forall m n0 (Y : float) fuel, is_finite Y = true -> (49 / 100 <= B2R Y <= 2)%R ->
  - (emax + prec) <= 2 * n0 <= emax + 2 -> 5000 < Z.of_nat fuel ->
  exists r, niirf_denormalize O m fuel (n0, Y) = Ok (0, r) /\ is_finite r = true /\ B2R r = (B2R Y * bpow radix2 n0)%R.
Proof using E10 P24 Hp He.
  intros m n0 Y fuel F VY N0 Hf. unfold niirf_denormalize.
  destruct (small_int (prec := prec) (emax := emax) ltac:(lia) 2 ltac:(lia)) as [T1 T2]. 
  match goal with |- exists _, while _ ?c ?b _ = _ /\ _ => 
  destruct (while_total c b (fun s => is_finite (snd s) = true /\ B2R (snd s) = (B2R Y * bpow radix2 (n0 - fst s))%R /\ 
     (0 <= fst s <= n0 \/ n0 <= fst s <= 0))
     (fun s => Z.to_nat (Z.abs (fst s)))) with (n := fuel) (s := (n0, Y)) as [[n t] [E [[I1 [I2 I3]] C]]] end.
  - intros [n t] [I1 [I2 I3]]. cbn [fst snd] in *. rewrite i32_ok by lia. cbn [bind].
    destruct (Z.eqb_spec (Z.abs n) 0) as [Nz|Nz]; [left; reflexivity|right; split; [reflexivity|]].
    cbn [o_of_i32 float_ops bind]. set (two := float_of_Z prec emax 2) in *.
    pose proof (bpow_gt_0 radix2 (n0 - n)) as BP.
    destruct (Z.ltb_spec 0 n) as [G|G].
    + assert (UP : (B2R t * bpow radix2 1 <= bpow radix2 (emax - 1))%R).
      { rewrite I2, Rmult_assoc, <- bpow_plus. apply Rle_trans with (2 * bpow radix2 (n0 - n + 1))%R.
        - apply Rmult_le_compat_r; [apply bpow_ge_0|lra].
        - change 2%R with (bpow radix2 1). rewrite <- bpow_plus. apply bpow_le. lia. }
      assert (T0 : (0 < B2R t)%R) by (rewrite I2; apply Rmult_lt_0_compat; lra).
      destruct (mult_r t two I1 T2 (emax - 1) ltac:(lia)) as [F1 V1]. { rewrite T1. rewrite Rabs_pos_eq; [exact UP|lra]. }
      rewrite T1 in V1. change 2%R with (bpow radix2 1) in V1. rewrite scale_up in V1; [|lia|auto|].
      2:{ rewrite Rabs_pos_eq; [exact UP|]. apply Rmult_le_pos; [lra|apply bpow_ge_0]. }
      exists (n - 1, Bmult mode_NE t two). cbn [o_mul float_ops bind]. rewrite i32_ok by lia. cbn [bind fst snd]. split; auto.
      split; [|lia]. split; auto. split; [|lia]. rewrite V1, I2, Rmult_assoc, <- bpow_plus. f_equal. f_equal. lia.
    + destruct (Z.ltb_spec n 0) as [G'|G']; [|lia].
      assert (T0 : (bpow radix2 (n0 - n - 2) <= B2R t)%R).
      { rewrite I2. replace (n0 - n - 2) with (-2 + (n0 - n)) by lia. rewrite bpow_plus. apply Rmult_le_compat_r; [lra|].
        change (bpow radix2 (-2)) with (/ 4)%R. lra. }
      pose proof (bpow_gt_0 radix2 (n0 - n - 2)) as BP2.
      assert (T3 : (B2R t <= 2)%R).
      { rewrite I2. apply Rle_trans with (2 * 1)%R; [|lra]. apply Rmult_le_compat; try lra. 
        change 1%R with (bpow radix2 0). apply bpow_le. lia. }
      assert (B4 : (B2R t / B2R two = B2R t * bpow radix2 (-1))%R) by (rewrite T1; reflexivity).
      destruct (div_r t two I1 ltac:(rewrite T1; lra) 0 ltac:(lia)) as [F1 V1]. 
      { rewrite T1. change (bpow radix2 0) with 1%R. rewrite Rabs_pos_eq; lra. }
      rewrite B4 in V1. rewrite round_generic in V1; [|apply valid_rnd_N|].
      2:{ apply scale_format; [apply generic_format_B2R|]. right. right. 
          assert (n0 - n - 1 <= Raux.mag radix2 (B2R t)); [|lia]. apply mag_ge_bpow.
          replace (n0 - n - 1 - 1) with (n0 - n - 2) by lia. rewrite Rabs_pos_eq; lra. }
      exists (n + 1, Bdiv mode_NE t two). cbn [o_div float_ops bind]. rewrite i32_ok by lia. cbn [bind fst snd]. split; auto.
      split; [|lia]. split; auto. split; [|lia]. rewrite V1, I2, Rmult_assoc, <- bpow_plus. f_equal. f_equal. lia.
  - cbn [fst snd]. rewrite Z.sub_diag. cbn [bpow]. rewrite Rmult_1_r. repeat split; auto; lia.
  - cbn [fst]. lia.
  - cbn [fst snd] in *. rewrite i32_ok in C by lia. cbn [bind] in C. inversion C as [C'].
    apply negb_false_iff in C'. apply Z.eqb_eq in C'. assert (n = 0) by lia. subst n. exists t.
    split; [exact E|]. split; auto. rewrite I2. f_equal. f_equal. lia.
Qed.

Lemma guess_float : forall m (x : float) it, is_finite x = true -> (it <= 1)%N -> exists r,
  returns (fun fuel => NF m fuel x it) r /\ is_finite r = true /\
  (Rabs (B2R r - sqrt (Rabs (B2R x))) <= 421 / 10000 * sqrt (Rabs (B2R x)))%R /\
  ((/ 4 <= Rabs (B2R x) < 1)%R -> (Rabs (B2R r - sqrt (Rabs (B2R x))) <= 20835 / 1000000 + 4 / 10000000)%R).
Proof using E10 P24 Hp He.
  intros m x it F Hit. destruct (float_zero_eq x F) as [[E X0]|[E X0]].
  - exists (float_of_Z prec emax 0). split; [|split; [|split]].
    + exists 0%nat. intros fuel _. unfold NF, niirf. cbn [mixed_zero float_zero bind]. rewrite E. reflexivity.
    + reflexivity.
    + rewrite X0, float_of_Z_zero. cbn [BinarySingleNaN.B2R]. rewrite Rabs_R0, sqrt_0, Rminus_0_r, Rabs_R0. lra.
    + rewrite X0, Rabs_R0. lra.
  - assert (FA : is_finite (Babs x) = true) by (rewrite is_finite_Babs; auto).
    assert (XA : (0 < B2R (Babs x))%R) by (rewrite B2R_Babs; apply Rabs_pos_lt; auto).
    destruct (fnorm1 P24 E10 m (Babs x) (Z.to_nat 5001) FA XA ltac:(lia)) as [n1 [t1 [E1 [F1 [V1 [N1 [L1 U1]]]]]]].
    destruct (fnorm2 P24 E10 m n1 (Babs x) t1 (Z.to_nat 5001) F1 XA V1 N1 U1 L1 ltac:(lia)) as [n2 [t2 [E2 [F2 [V2 [N2 LU]]]]]].
    destruct (fstart P24 E10 t2 it F2 LU) as (y & E3 & F3 & Y0). replace (it - 1)%N with 0%N in E3 by lia. cbn [for_n N.iter] in E3.
    set (s := sqrt (B2R t2)) in *. 
    assert (SS : (s * s = B2R t2)%R) by (apply sqrt_sqrt; lra).
    assert (S : (1 / 2 <= s <= 1)%R). { assert (0 <= s)%R by apply sqrt_pos. clearbody s. clear - SS LU H. split; nra. }
    assert (EY : (Rabs (B2R y - s) <= 20835 / 1000000 + 4 / 10000000 /\ Rabs (B2R y - s) <= 421 / 10000 * s)%R).
    { apply Rabs_le_inv in Y0. unfold y0i in Y0. clearbody s. clear - Y0 S.
      assert (0 <= (s - 1/2) * (1 - s))%R by (apply Rmult_le_pos; lra). pose proof (Rle_0_sqr (s - 3/4)) as Q. unfold Rsqr in Q.
      split; apply Rabs_le; split; lra. }
    destruct EY as [EY EYr]. assert (YR : (49 / 100 <= B2R y <= 2)%R).
    { apply Rabs_le_inv in EY, Y0. unfold y0i in Y0. clearbody s. clear - EY S Y0. nra. }
    destruct (fdenorm2 m n2 y (Z.to_nat 5001) F3 YR N2 ltac:(lia)) as [r [E4 [F4 V4]]].
    exists r. split; [|split; auto].
    { exists (Z.to_nat 5001). intros fuel Hf. unfold NF, niirf. cbn [mixed_zero float_zero bind]. rewrite E. cbn [mixed_abs float_abs bind].
      unfold niirf_normalize. 
      erewrite while_mono; [|exact E1|discriminate|exact Hf]. cbn [bind].
      erewrite while_mono; [|exact E2|discriminate|exact Hf]. cbn [bind fst snd]. rewrite E3. cbn [bind].
      unfold niirf_denormalize in *. erewrite while_mono; [|exact E4|discriminate|exact Hf]. reflexivity. }
    rewrite <- B2R_Babs. set (a := B2R (Babs x)) in *.
    assert (EA : (a = B2R t2 * (bpow radix2 n2 * bpow radix2 n2))%R).
    { rewrite V2, <- bpow_plus, Rmult_assoc, <- bpow_plus. replace (-2 * n2 + (n2 + n2)) with 0 by lia. cbn. ring. }
    pose proof (bpow_gt_0 radix2 n2) as BP.
    assert (SA : (sqrt a = s * bpow radix2 n2)%R).
    { rewrite EA, sqrt_mult by nra. unfold s. f_equal. apply sqrt_square. lra. }
    split.
    + rewrite SA, V4. replace (B2R y * bpow radix2 n2 - s * bpow radix2 n2)%R with ((B2R y - s) * bpow radix2 n2)%R by ring.
      rewrite Rabs_mult, (Rabs_pos_eq (bpow _ _)), <- Rmult_assoc by lra. apply Rmult_le_compat_r; [lra|]. exact EYr.
    + intros HA. assert (n2 = 0).
      { assert (bpow radix2 (-2) < bpow radix2 (2 * n2))%R.
        { change (bpow radix2 (-2)) with (/ 4)%R. replace (2 * n2) with (n2 + n2) by lia. rewrite bpow_plus.
          pose proof (Rmult_lt_0_compat _ _ BP BP). nra. }
        assert (bpow radix2 (2 * n2) < bpow radix2 2)%R.
        { change (bpow radix2 2) with 4%R. replace (2 * n2) with (n2 + n2) by lia. rewrite bpow_plus.
          pose proof (Rmult_lt_0_compat _ _ BP BP). nra. }
        apply lt_bpow in H, H0. lia. }
      subst n2. cbn [bpow] in *. rewrite Rmult_1_r in *. rewrite SA, V4. exact EY.
Qed.
End Guess.
Lemma guess_f32 : forall m (x : f32) it, is_finite x = true -> (it <= 1)%N -> exists r : f32,
  returns (fun fuel => NF m fuel x it) r /\ is_finite r = true /\
  (Rabs (B2R r - sqrt (Rabs (B2R x))) <= 421 / 10000 * sqrt (Rabs (B2R x)))%R /\
  ((/ 4 <= Rabs (B2R x) < 1)%R -> (Rabs (B2R r - sqrt (Rabs (B2R x))) <= 20835 / 1000000 + 4 / 10000000)%R).
Proof. intros. apply guess_float; auto; lia. Qed.
Lemma guess_f64 : forall m (x : f64) it, is_finite x = true -> (it <= 1)%N -> exists r : f64,
  returns (fun fuel => NF m fuel x it) r /\ is_finite r = true /\
  (Rabs (B2R r - sqrt (Rabs (B2R x))) <= 421 / 10000 * sqrt (Rabs (B2R x)))%R /\
  ((/ 4 <= Rabs (B2R x) < 1)%R -> (Rabs (B2R r - sqrt (Rabs (B2R x))) <= 20835 / 1000000 + 4 / 10000000)%R).
Proof. intros. apply guess_float; auto; lia. Qed.

(** ** conjugation of a product of integers *)
Lemma conj_mul_int : forall t z w cz cw zw p,
  cartesian_conj (int_signed Debug t) z = Ok cz -> cartesian_conj (int_signed Debug t) w = Ok cw ->
  cartesian_mul (int_ops Debug t) z w = Ok zw -> cartesian_mul (int_ops Debug t) cz cw = Ok p -> re p = re zw /\ im p = - im zw.
Proof.
  intros t z w cz cw zw p H1 H2 H3 H4. apply conj_dbg in H1, H2. apply mul_int_dbg in H3, H4. subst. unfold gauss_mul. cbn [re im]. lia.
Qed.
