(** * Fixed-point and floating square roots follow the same real recursion. *)

From Coq Require Import Nnat ZArith Reals Lia Lra Psatz List Bool.
From Flocq Require Import Core.Core IEEE754.BinarySingleNaN.
From Verif Require Import Base FloatBase Literals Traits Trig IntImpl FixedPrim FixedImpl FloatImpl Spec
  Lemmas ScalarProofs ScalarProofs2 WrapProofs FloatLemmas FloatProofs FloatWrap SqrtReal NiirfZ NiirfFixed NiirfFixed2 NiirfFixed3 NiirfInt FloatKit
  NiirfFloat SinReal SinFloat FloatU.
Open Scope Z_scope.

(** ** the recursion over the reals and its sensitivity *)
Definition rstep (b t z : R) : R := (b * (t - z * z) + z)%R.
Fixpoint rroot (n : nat) (b t : R) : R :=
  match n with O => (2 / 3 * t + 354167 / 1000000)%R | S n => rstep b t (rroot n b t) end.

Section Real.
Variables (k be : Z) (t : R).
Hypothesis I : In (k, be) betaZ.
Hypothesis T : (IZR k / 16 <= t < IZR (k + 1) / 16)%R.
Notation s := (sqrt t).

Lemma t_pos : (0 <= t)%R.
Proof using I T.
  assert (4 <= k) by (pose proof I as J; repeat (destruct J as [J|J]; [inversion J; lia|]); contradiction).
  assert (4 <= IZR k)%R by (apply IZR_le; lia). lra.
Qed.
Lemma reg : region k be s.
Proof using I T. split; auto. split; [apply sqrt_pos|]. rewrite sqrt_sqrt by apply t_pos. lra. Qed.

Lemma rroot_near : forall n, (Rabs (rroot n (bR be) t - s) <= 21 / 1000)%R.
Proof using I T.
  pose proof reg as R. pose proof t_pos as TP. assert (SS : (s * s = t)%R) by (apply sqrt_sqrt; auto).
  induction n as [|n IH]; cbn [rroot].
  - pose proof (e0i_bound s (region_s _ _ _ R)) as E. unfold e0i, y0i in E. rewrite SS in E. exact E.
  - unfold rstep. set (z := rroot n (bR be) t) in *. 
    replace (bR be * (t - z * z) + z - s)%R with ((z - s) * (1 - bR be * (z + s)))%R by (assert (bR be * (s * s - t) = 0)%R by (rewrite SS; ring); lra).
    eapply Rle_trans; [eapply (niirf_next k be s z (bR be) (21 / 1000) 0); auto; try lra; rewrite Rminus_diag_eq, Rabs_R0 by auto; lra|]. lra.
Qed.

Lemma rstep_near : forall z y b t' e db dt, (Rabs (z - s) <= 21 / 1000)%R -> (Rabs (y - z) <= e)%R -> (Rabs (b - bR be) <= db)%R -> (Rabs (t' - t) <= dt)%R ->
  (Rabs (rstep b t' y - rstep (bR be) t z) <=
   (8 / 100 + 962 / 1000 * (e + 42 / 1000) + db * (2042 / 1000 + e)) * e + 43 / 1000 * db + (962 / 1000 + db) * dt)%R.
Proof using I T.
  intros z y b t' e db dt Z Y B D. pose proof reg as R. pose proof (region_s _ _ _ R) as Sr. pose proof (region_b _ _ _ R) as Br. pose proof (region_slope _ _ _ R) as Sl.
  pose proof t_pos as TP. assert (SS : (s * s = t)%R) by (apply sqrt_sqrt; auto).
  assert (E0 : (0 <= e)%R) by (pose proof (Rabs_pos (y - z)); lra). assert (B0 : (0 <= db)%R) by (pose proof (Rabs_pos (b - bR be)); lra).
  assert (D0 : (0 <= dt)%R) by (pose proof (Rabs_pos (t' - t)); lra).
  unfold rstep. 
  replace (b * (t' - y * y) + y - (bR be * (t - z * z) + z))%R with
    ((1 - 2 * bR be * s - bR be * ((y - z) + 2 * (z - s)) - (b - bR be) * ((y - z) + 2 * z)) * (y - z) + (z - s) * ((- (z - s)) - 2 * s) * (b - bR be) + b * (t' - t))%R
    by (assert ((b - bR be) * (s * s - t) = 0)%R by (rewrite SS; ring); lra).
  assert (ZA : (Rabs z <= 1021 / 1000)%R) by (apply Rabs_le_inv in Z; apply Rabs_le; lra).
  apply Rle_trans with ((8 / 100 + 962 / 1000 * (e + 2 * (21 / 1000)) + db * (e + 2 * (1021 / 1000))) * e + 21 / 1000 * (21 / 1000 + 2) * db + (962 / 1000 + db) * dt)%R.
  2:{ clear - E0 B0 D0. nra. }
  apply add_bound; [apply add_bound|].
  - apply mul_bound; auto. apply sub_bound; [apply sub_bound; auto|].
    + apply mul_bound; [rewrite Rabs_pos_eq; lra|]. apply add_bound; auto. apply mul_bound; auto. rewrite Rabs_pos_eq; lra.
    + apply mul_bound; auto. apply add_bound; auto. apply mul_bound; auto. rewrite Rabs_pos_eq; lra.
  - apply mul_bound; auto. apply mul_bound; auto. apply sub_bound; [rewrite Rabs_Ropp; auto|]. rewrite Rabs_mult, !Rabs_pos_eq by lra. lra.
  - apply mul_bound; auto. replace b with (bR be + (b - bR be))%R by ring. apply add_bound; auto. rewrite Rabs_pos_eq; lra.
Qed.
End Real.

(** ** floats *)
Section F.
Context {prec emax : Z} {Hp : Prec_gt_0 prec} {He : Prec_lt_emax prec emax}.
Notation float := (binary_float prec emax).
Notation fexp := (SpecFloat.fexp prec emax).
Notation rnd := (round radix2 fexp ZnearestE).
Hypothesis P24 : 24 <= prec <= 100.
Hypothesis E10 : prec + 20 <= emax <= 2000.
Notation O := (@float_ops prec emax Hp He).
Notation B2R := (@B2R prec emax).
Notation U := (bpow radix2 (- prec)).

Lemma err2U : forall v, (Rabs v <= 2)%R -> (Rabs (rnd v - v) <= U)%R.
Proof using E10 P24 Hp He.
  intros v H. eapply Rle_trans; [apply (rnd_err (prec := prec) (emax := emax) v 1); [exact H|lia]|].
  rewrite half1. unfold eps. lra.
Qed.
Lemma err4U : forall v, (Rabs v <= 4)%R -> (Rabs (rnd v - v) <= 2 * U)%R.
Proof using E10 P24 Hp He.
  intros v H. eapply Rle_trans; [apply (rnd_err (prec := prec) (emax := emax) v 2); [exact H|lia]|].
  rewrite half2. unfold eps. lra.
Qed.

Lemma fbeta_strict : forall X : float, is_finite X = true -> (/ 4 <= B2R X < 1)%R ->
  exists bb k be, beta O X = Ok bb /\ is_finite bb = true /\ In (k, be) betaZ /\ (IZR k / 16 <= B2R X < IZR (k + 1) / 16)%R /\
  (Rabs (B2R bb - bR be) <= / 2 * U + / 1000000000000000)%R.
Proof using E10 P24 Hp He.
  intros X F HX. unfold beta. cbn [o_of_f64 float_ops bind].
  assert (SS : (sqrt (B2R X) * sqrt (B2R X) = B2R X)%R) by (apply sqrt_sqrt; lra).
  assert (G : forall (l : f64) k be, In (k, be) betaZ -> is_finite l = true -> (IZR k / 16 <= B2R X < IZR (k + 1) / 16)%R ->
     (Rabs (BinarySingleNaN.B2R l - bR be) <= / 1000000000000000)%R ->
     exists bb k be, Ok (float_of_float prec emax l) = Ok bb /\ is_finite bb = true /\ In (k, be) betaZ /\ (IZR k / 16 <= B2R X < IZR (k + 1) / 16)%R /\
     (Rabs (B2R bb - bR be) <= / 2 * U + / 1000000000000000)%R).
  { intros l k be I Fl K HB. exists (float_of_float prec emax l), k, be. split; auto.
    assert (R : region k be (sqrt (B2R X))). { split; auto. split; [apply sqrt_pos|]. rewrite SS. lra. }
    pose proof (region_b _ _ _ R) as RB.
    destruct (lit_approx (prec := prec) (emax := emax) ltac:(lia) ltac:(lia) l (bR be) Fl HB) as [A B]; [rewrite Rabs_pos_eq; lra|].
    split; auto. }
  assert (C : forall (l : f64) k, is_finite l = true -> (BinarySingleNaN.B2R l = IZR k / 16)%R -> Z.abs k <= 16384 ->
    (o_lt O X (float_of_float prec emax l) = true /\ B2R X < IZR k / 16)%R \/ (o_lt O X (float_of_float prec emax l) = false /\ IZR k / 16 <= B2R X)%R).
  { intros l k Fl V K. destruct (lit_exact (prec := prec) (emax := emax) ltac:(lia) ltac:(lia) l k Fl V) as [A B]; auto.
    - apply Z.le_lt_trans with 16384; auto. apply Z.lt_le_trans with (2 ^ 24); [reflexivity|]. apply Z.pow_le_mono_r; lia.
    - rewrite <- B. apply (ltb_cmp X); auto. }
  Ltac lv := match goal with |- BinarySingleNaN.B2R ?l = _ => unfold l, BinarySingleNaN.B2R, F2R; cbn; lra end.
  Ltac lc := match goal with |- (Rabs (BinarySingleNaN.B2R ?l - _) <= _)%R => unfold l, bR, BinarySingleNaN.B2R, F2R; cbn; apply Rabs_le; lra end.
  destruct (C lit_5_16 5 eq_refl ltac:(lv) ltac:(lia)) as [[-> C5]|[-> C5]].
  { apply G with 4 961914; [cbn; tauto | reflexivity | cbn in *; lra | lc]. }
  destruct (C lit_6_16 6 eq_refl ltac:(lv) ltac:(lia)) as [[-> C6]|[-> C6]].
  { apply G with 5 840332; [cbn; tauto | reflexivity | cbn in *; lra | lc]. }
  destruct (C lit_7_16 7 eq_refl ltac:(lv) ltac:(lia)) as [[-> C7]|[-> C7]].
  { apply G with 6 782715; [cbn; tauto | reflexivity | cbn in *; lra | lc]. }
  destruct (C lit_8_16 8 eq_refl ltac:(lv) ltac:(lia)) as [[-> C8]|[-> C8]].
  { apply G with 7 734869; [cbn; tauto | reflexivity | cbn in *; lra | lc]. }
  destruct (C lit_9_16 9 eq_refl ltac:(lv) ltac:(lia)) as [[-> C9]|[-> C9]].
  { apply G with 8 691406; [cbn; tauto | reflexivity | cbn in *; lra | lc]. }
  destruct (C lit_10_16 10 eq_refl ltac:(lv) ltac:(lia)) as [[-> C10]|[-> C10]].
  { apply G with 9 654297; [cbn; tauto | reflexivity | cbn in *; lra | lc]. }
  destruct (C lit_11_16 11 eq_refl ltac:(lv) ltac:(lia)) as [[-> C11]|[-> C11]].
  { apply G with 10 622070; [cbn; tauto | reflexivity | cbn in *; lra | lc]. }
  destruct (C lit_12_16 12 eq_refl ltac:(lv) ltac:(lia)) as [[-> C12]|[-> C12]].
  { apply G with 11 595215; [cbn; tauto | reflexivity | cbn in *; lra | lc]. }
  destruct (C lit_13_16 13 eq_refl ltac:(lv) ltac:(lia)) as [[-> C13]|[-> C13]].
  { apply G with 12 573731; [cbn; tauto | reflexivity | cbn in *; lra | lc]. }
  destruct (C lit_14_16 14 eq_refl ltac:(lv) ltac:(lia)) as [[-> C14]|[-> C14]].
  { apply G with 13 556152; [cbn; tauto | reflexivity | cbn in *; lra | lc]. }
  destruct (C lit_15_16 15 eq_refl ltac:(lv) ltac:(lia)) as [[-> C15]|[-> C15]].
  { apply G with 14 516113; [cbn; tauto | reflexivity | cbn in *; lra | lc]. }
  apply G with 15 502930; [cbn; tauto | reflexivity | cbn in *; lra | lc].
Qed.

Section Iter.
Variables (X bb : float) (k be : Z).
Hypothesis FX : is_finite X = true.
Hypothesis HX : (/ 4 <= B2R X < 1)%R.
Hypothesis HB : beta O X = Ok bb.
Hypothesis FB : is_finite bb = true.
Hypothesis I : In (k, be) betaZ.
Hypothesis T : (IZR k / 16 <= B2R X < IZR (k + 1) / 16)%R.
Hypothesis Hb : (Rabs (B2R bb - bR be) <= / 2 * U + / 1000000000000000)%R.
Notation s := (sqrt (B2R X)).
Lemma Rg : region k be s.
Proof using I T. eapply reg; eauto. Qed.

Lemma fstepU : forall y, is_finite y = true -> (0 <= B2R y <= 13 / 10)%R ->
  exists y', fbody X y = Ok y' /\ is_finite y' = true /\ exists rho, (Rabs rho <= 5 * U /\
  B2R y' = B2R bb * (B2R X - B2R y * B2R y) + B2R y + rho)%R.
Proof using E10 P24 Hp He FX HX HB FB I T Hb.
  intros y Fy Hy. unfold fbody. rewrite HB. cbn [bind]. destruct (powi_small y) as [_ [_ [-> _]]]. cbn [bind o_sub o_mul o_add float_ops].
  pose proof (region_b _ _ _ Rg) as RB. apply Rabs_le_inv in Hb. pose proof (@U_pos prec ltac:(lia)) as UP. pose proof bp1 as B1. pose proof bp2 as B2.
  assert (Y2 : (0 <= B2R y * B2R y <= 169 / 100)%R) by nra.
  destruct (mult_r y y Fy Fy 1 ltac:(lia)) as [F1 V1]. { rewrite B1, Rabs_pos_eq; lra. }
  pose proof (err2U (B2R y * B2R y)) as R1. rewrite <- V1 in R1. specialize (R1 ltac:(rewrite Rabs_pos_eq; lra)).
  set (y2 := Bmult mode_NE y y) in *. apply Rabs_le_inv in R1.
  destruct (minus_r X y2 FX F1 1 ltac:(lia)) as [F2 V2]. { rewrite B1. apply Rabs_le. lra. }
  pose proof (err2U (B2R X - B2R y2)) as R2. rewrite <- V2 in R2. specialize (R2 ltac:(apply Rabs_le; lra)).
  set (d := Bminus mode_NE X y2) in *. apply Rabs_le_inv in R2.
  assert (BD : (Rabs (B2R bb * B2R d) <= 17 / 10)%R).
  { replace (17 / 10)%R with (1 * (17 / 10))%R by lra. apply mul_bound; apply Rabs_le; lra. }
  destruct (mult_r bb d FB F2 1 ltac:(lia)) as [F3 V3]. { rewrite B1. lra. }
  pose proof (err2U (B2R bb * B2R d)) as R3. rewrite <- V3 in R3. specialize (R3 ltac:(lra)).
  set (p := Bmult mode_NE bb d) in *. apply Rabs_le_inv in R3, BD.
  destruct (plus_r p y F3 Fy 2 ltac:(lia)) as [F4 V4]. { rewrite B2. apply Rabs_le. lra. }
  pose proof (err4U (B2R p + B2R y)) as R4. rewrite <- V4 in R4. specialize (R4 ltac:(apply Rabs_le; lra)).
  set (y' := Bplus mode_NE p y) in *. apply Rabs_le_inv in R4.
  exists y'. split; auto. split; auto.
  exists ((B2R y' - (B2R p + B2R y)) + (B2R p - B2R bb * B2R d) + B2R bb * ((B2R d - (B2R X - B2R y2)) - (B2R y2 - B2R y * B2R y)))%R.
  split.
  - set (e1 := (B2R d - (B2R X - B2R y2) - (B2R y2 - B2R y * B2R y))%R).
    assert (E1 : (Rabs (B2R bb * e1) <= 1 * (2 * U))%R) by (apply mul_bound; apply Rabs_le; unfold e1; lra).
    apply Rabs_le_inv in E1. apply Rabs_le. lra.
  - ring.
Qed.

Lemma fiterU : forall n (y : float), is_finite y = true -> (Rabs (B2R y - (2 / 3 * B2R X + 354167 / 1000000)) <= 4 * U + / 1000000000000000)%R ->
  exists y', for_n (N.of_nat n) (fbody X) y = Ok y' /\ is_finite y' = true /\ (Rabs (B2R y' - rroot n (bR be) (B2R X)) <= 6 * U + 2 / 1000000000000000)%R.
Proof using E10 P24 Hp He FX HX HB FB I T Hb.
  intros n y Fy Hy. pose proof (@U_pos prec ltac:(lia)) as UP. induction n as [|n IH].
  - exists y. split; [reflexivity|]. split; auto. cbn [rroot]. lra.
  - destruct IH as (z & E & Fz & A). replace (N.of_nat (S n)) with (N.succ (N.of_nat n)) by lia. rewrite for_succ, E. cbn [bind].
    pose proof (rroot_near k be (B2R X) I T n) as Z. pose proof (region_s _ _ _ Rg) as Sr.
    destruct (fstepU z Fz) as (y' & E' & F' & rho & R1 & R2). { apply Rabs_le_inv in A, Z. lra. }
    exists y'. split; auto. split; auto. rewrite R2. cbn [rroot].
    pose proof (rstep_near k be (B2R X) I T _ (B2R z) (B2R bb) (B2R X) _ _ 0 Z A Hb ltac:(rewrite Rminus_diag_eq, Rabs_R0 by auto; lra)) as S.
    set (w := rroot n (bR be) (B2R X)) in *. unfold rstep in S at 1.
    replace (B2R bb * (B2R X - B2R z * B2R z) + B2R z + rho - rstep (bR be) (B2R X) w)%R with
      ((B2R bb * (B2R X - B2R z * B2R z) + B2R z - rstep (bR be) (B2R X) w) + rho)%R by ring.
    eapply Rle_trans; [apply add_bound; [exact S | exact R1]|]. clear - UP. set (v := U) in *. clearbody v. nra.
Qed.
End Iter.

Lemma fstartU : forall X it, is_finite X = true -> (/ 4 <= B2R X < 1)%R ->
  exists y0, niirf_iterate O float_powi it X = for_n (it - 1) (fbody X) y0 /\ is_finite y0 = true /\
  (Rabs (B2R y0 - (2 / 3 * B2R X + 354167 / 1000000)) <= 4 * U + / 1000000000000000)%R.
Proof using E10 P24 Hp He.
  intros X it FX HX.
  unfold niirf_iterate. cbn [o_of_i32 o_mul o_div o_of_f64 o_add float_ops bind].
  destruct (small_int (prec := prec) (emax := emax) ltac:(lia) 2 ltac:(lia)) as [T1 T2].
  destruct (small_int (prec := prec) (emax := emax) ltac:(lia) 3 ltac:(lia)) as [H1 H2].
  set (two := float_of_Z prec emax 2) in *. set (three := float_of_Z prec emax 3) in *.
  pose proof bp1 as B1. pose proof (@U_pos prec ltac:(lia)) as UP.
  destruct (mult_r two X T2 FX 1 ltac:(lia)) as [F1 V1]. { rewrite B1, T1. apply Rabs_le. lra. }
  pose proof (err2U (B2R two * B2R X)) as R1. rewrite <- V1 in R1. specialize (R1 ltac:(rewrite T1; apply Rabs_le; lra)). rewrite T1 in R1.
  set (tx := Bmult mode_NE two X) in *. apply Rabs_le_inv in R1.
  destruct (div_r tx three F1 ltac:(rewrite H1; lra) 1 ltac:(lia)) as [F2 V2]. { rewrite B1, H1. apply Rabs_le. lra. }
  pose proof (err2U (B2R tx / B2R three)) as R2. rewrite <- V2 in R2. specialize (R2 ltac:(rewrite H1; apply Rabs_le; lra)). rewrite H1 in R2.
  set (q := Bdiv mode_NE tx three) in *. apply Rabs_le_inv in R2.
  destruct (lit_approx (prec := prec) (emax := emax) ltac:(lia) ltac:(lia) lit_y0 (354167 / 1000000) eq_refl) as [F3 R3].
  { unfold lit_y0, BinarySingleNaN.B2R, F2R; cbn; apply Rabs_le; lra. } { rewrite Rabs_pos_eq; lra. }
  set (c := float_of_float prec emax lit_y0) in *. change (eps (prec := prec)) with U in R3. apply Rabs_le_inv in R3.
  destruct (plus_r q c F2 F3 1 ltac:(lia)) as [F4 V4]. { rewrite B1. apply Rabs_le. lra. }
  pose proof (err2U (B2R q + B2R c)) as R4. rewrite <- V4 in R4. specialize (R4 ltac:(apply Rabs_le; lra)).
  set (y0 := Bplus mode_NE q c) in *. apply Rabs_le_inv in R4.
  exists y0. split; [reflexivity|]. split; auto. apply Rabs_le. lra.
Qed.
End F.

(** ** fixed point *)
Section Fx.
Variable f : fty.
Hypothesis W : fwf f.
Hypothesis F4 : 4 <= ffrac f.
Notation q := (fone f).
Notation u := (/ IZR q)%R.
Variables (X : Z) (t : R).
Hypothesis L : q <= 4 * X.
Hypothesis U : X < q.
Hypothesis T0 : (IZR X * u <= t < IZR X * u + u)%R.

Lemma q16 : 16 <= q.
Proof using F4. unfold fone. change 16 with (2 ^ 4). apply Z.pow_le_mono_r; lia. Qed.
Lemma u16 : (0 < u <= / 16)%R.
Proof using F4. apply u_pos. apply q16. Qed.

Lemma region_t : exists k be, In (k, be) betaZ /\ (IZR k / 16 <= t < IZR (k + 1) / 16)%R /\
  (Rabs (IZR (beta_bits f X) * u - bR be) <= u / 2 + / 1000000000000000)%R.
Proof using F4 L U T0.
  destruct (beta_region f X F4 L U) as (k & be & I & K1 & K2 & B). exists k, be. split; auto. split; auto.
  pose proof (fone_16 f F4) as E. assert (H0 : 0 < 2 ^ (ffrac f - 4)) by (apply Z.pow_pos_nonneg; lia). set (h := 2 ^ (ffrac f - 4)) in *. clearbody h.
  assert (K3 : k * h <= X) by lia. assert (K4 : X + 1 <= (k + 1) * h) by lia. apply IZR_le in K3, K4. rewrite plus_IZR, mult_IZR in K4. rewrite mult_IZR in K3.
  assert (HR : (0 < IZR h)%R) by (apply IZR_lt; auto).
  assert (EU : (u = / 16 * / IZR h)%R) by (rewrite E, mult_IZR; field; lra).
  assert (HU : (IZR h * u = / 16)%R) by (rewrite EU; field; lra). pose proof u16 as UP.
  assert (M1 : (IZR k * IZR h * u <= IZR X * u)%R) by (apply Rmult_le_compat_r; lra).
  assert (M2 : ((IZR X + 1) * u <= IZR (k + 1) * IZR h * u)%R) by (apply Rmult_le_compat_r; lra).
  rewrite Rmult_assoc, HU in M1, M2. lra.
Qed.

Lemma zstep_rstep : forall b y, (0 <= IZR b * u <= 1)%R -> exists rho, (Rabs rho <= u /\
  IZR (zstep q b X y) * u = rstep (IZR b * u) (IZR X * u) (IZR y * u) + rho)%R.
Proof using F4.
  intros b y BB. unfold zstep, rstep. pose proof u16 as UP. pose proof (uQ q q16) as UQ.
  set (g := y * y / q). pose proof (div_real (y * y) q ltac:(pose proof q16; lia)) as D1. fold g in D1.
  set (h := b * (X - g) / q). pose proof (div_real (b * (X - g)) q ltac:(pose proof q16; lia)) as D2. fold h in D2.
  rewrite plus_IZR. rewrite !mult_IZR in D1, D2. rewrite minus_IZR in D2. unfold Rdiv in *.
  set (Y := IZR y) in *. set (B := IZR b) in *. set (G := IZR g) in *. set (H := IZR h) in *.
  exists (H * u - B * (IZR X - G) * u * u + B * u * (Y * Y * u * u - G * u))%R. split; [|ring].
  assert (A1 : (0 <= Y * Y * u - G <= 1)%R) by lra.
  assert (A2 : (-1 <= H - B * (IZR X - G) * u <= 0)%R) by lra.
  replace (H * u - B * (IZR X - G) * u * u + B * u * (Y * Y * u * u - G * u))%R with
    (u * ((H - B * (IZR X - G) * u) + B * u * (Y * Y * u - G)))%R by ring.
  rewrite Rabs_mult, (Rabs_pos_eq u) by lra. apply Rle_trans with (u * 1)%R; [|lra]. apply Rmult_le_compat_l; [lra|].
  assert (0 <= B * u * (Y * Y * u - G) <= 1)%R by nra.
  apply Rabs_le. lra.
Qed.

Lemma start_near : (Rabs (IZR (start f X) * u - (2 / 3 * t + 354167 / 1000000)) <= 7 / 2 * u + / 1000000000000000)%R.
Proof using F4 T0.
  pose proof (y0_real f ltac:(lia)) as Y. pose proof u16 as UP. unfold start. rewrite plus_IZR. 
  pose proof (div_real (2 * X) 3 ltac:(lia)) as D. rewrite mult_IZR in D. set (d := IZR (2 * X / 3)) in *. set (c := IZR (fx_bits f lit_y0)) in *.
  apply Rabs_le_inv in Y. unfold Rdiv in *.
  assert (D1 : (d * u <= 2 * IZR X * / 3 * u)%R) by (apply Rmult_le_compat_r; lra).
  assert (D2 : ((2 * IZR X * / 3 - 1) * u <= d * u)%R) by (apply Rmult_le_compat_r; lra).
  apply Rabs_le. lra.
Qed.

Lemma ziter_near : forall k be, In (k, be) betaZ -> (IZR k / 16 <= t < IZR (k + 1) / 16)%R ->
  (Rabs (IZR (beta_bits f X) * u - bR be) <= u / 2 + / 1000000000000000)%R -> forall n,
  (Rabs (IZR (ziter (N.of_nat n) q (beta_bits f X) X (start f X)) * u - rroot n (bR be) t) <= 7 / 2 * u + 2 / 1000000000000000)%R.
Proof using F4 T0 L U.
  intros k be I T B n. pose proof u16 as UP. pose proof (region_b _ _ _ (reg k be t I T)) as RB.
  assert (BB : (0 <= IZR (beta_bits f X) * u <= 1)%R) by (apply Rabs_le_inv in B; lra).
  induction n as [|n IH].
  - pose proof start_near as S. cbn [N.of_nat rroot]. unfold ziter. cbn [N.iter]. lra.
  - replace (N.of_nat (Datatypes.S n)) with (N.succ (N.of_nat n)) by lia. rewrite ziter_succ. set (y := ziter (N.of_nat n) _ _ _ _) in *.
    destruct (zstep_rstep (beta_bits f X) y BB) as (rho & R1 & ->). cbn [rroot]. pose proof (rroot_near k be t I T n) as Z.
    pose proof (rstep_near k be t I T _ (IZR y * u) (IZR (beta_bits f X) * u) (IZR X * u) _ _ u Z IH B ltac:(apply Rabs_le; lra)) as S.
    set (w := rroot n (bR be) t) in *.
    replace (rstep (IZR (beta_bits f X) * u) (IZR X * u) (IZR y * u) + rho - rstep (bR be) t w)%R with
      ((rstep (IZR (beta_bits f X) * u) (IZR X * u) (IZR y * u) - rstep (bR be) t w) + rho)%R by ring.
    eapply Rle_trans; [apply add_bound; [exact S | exact R1]|]. clear - UP. set (v := u) in *. clearbody v. nra.
Qed.
End Fx.

(** the root of a fixed-point value in terms of the real recursion *)
Lemma fixed_root : forall m f, supported f = true -> fsigned f = true -> 4 <= ffrac f <= fwidth f - 4 ->
  forall it, (2 <= it)%N -> forall x, fvalid f x -> 0 < x -> exists r n k be t,
  returns (fun fuel => NI m f fuel x it) r /\ In (k, be) betaZ /\ (IZR k / 16 <= t < IZR (k + 1) / 16)%R /\ (/ 4 <= t < 1)%R /\
  t = (fval f x * bpow radix2 (-2 * n))%R /\
  (Rabs (fval f r - rroot (N.to_nat (it - 1)) (bR be) t * bpow radix2 n) <=
    7 / 2 * ulp f * Rmax 1 (bpow radix2 n) + 2 / 1000000000000000 * bpow radix2 n)%R.
Proof.
  intros m f Sp Sg HF it Hit x V X0. pose proof (supported_fwf f Sp) as W. pose proof (width64 f Sp) as W64.
  assert (V4 : fvalid f (4 * fone f)).
  { apply fvalid_iff. rewrite Sg. pose proof (fone_pos f ltac:(lia)).
    assert (8 * fone f <= 2 ^ (fwidth f - 1)); [|lia].
    unfold fone. change 8 with (2 ^ 3). rewrite <- Z.pow_add_r by lia. apply Z.pow_le_mono_r; lia. }
  destruct (niirf_signed m f W ltac:(lia) V4 W64 x it Sg ltac:(lia) V) as [n [X' [N E]]].
  pose proof N as [_ [L [U D]]]. pose proof (fone_pos f (proj1 W)) as Q. pose proof (fone_IZR_pos f (proj1 W)) as QR.
  assert (IQ : (0 < / IZR (fone f))%R) by (apply Rinv_0_lt_compat; auto).
  set (t := (fval f x * bpow radix2 (-2 * n))%R).
  assert (T0 : (IZR X' * / IZR (fone f) <= t < IZR X' * / IZR (fone f) + / IZR (fone f))%R).
  { unfold t. rewrite fval_eq by apply W. unfold Rdiv. destruct D as [[D1 D2]|[D1 D2]].
    - rewrite D2, mult_IZR. replace (IZR (4 ^ (- n))) with (bpow radix2 (-2 * n)); [lra|].
      rewrite <- IZR_Zpower by lia. f_equal. change (radix_val radix2) with 2. replace (-2 * n) with (2 * - n) by lia. rewrite Z.pow_mul_r by lia. reflexivity.
    - assert (P4 : 0 < 4 ^ n) by (apply Z.pow_pos_nonneg; lia). pose proof (div_real x (4 ^ n) P4) as R. rewrite <- D2 in R.
      assert (E4 : bpow radix2 (-2 * n) = (/ IZR (4 ^ n))%R).
      { replace (-2 * n) with (- (2 * n)) by lia. rewrite bpow_opp. f_equal. rewrite <- IZR_Zpower by lia. f_equal. change (radix_val radix2) with 2. rewrite Z.pow_mul_r by lia. reflexivity. }
      rewrite E4. unfold Rdiv in R. replace (IZR x * / IZR (fone f) * / IZR (4 ^ n))%R with (IZR x * / IZR (4 ^ n) * / IZR (fone f))%R by ring.
      split; [apply Rmult_le_compat_r; lra|]. replace (IZR X' * / IZR (fone f) + / IZR (fone f))%R with ((IZR X' + 1) * / IZR (fone f))%R by ring. apply Rmult_lt_compat_r; lra. }
  assert (UQ1 : (/ IZR (fone f) * IZR (fone f) = 1)%R) by (apply Rinv_l; lra).
  assert (TR : (/ 4 <= t < 1)%R).
  { assert (L' : (IZR (fone f) <= 4 * IZR X')%R) by (apply IZR_le in L; rewrite mult_IZR in L; lra).
    assert (U' : (IZR X' + 1 <= IZR (fone f))%R) by (rewrite <- plus_IZR; apply IZR_le; lia).
    assert (IZR (fone f) * / IZR (fone f) <= 4 * IZR X' * / IZR (fone f))%R by (apply Rmult_le_compat_r; lra).
    assert ((IZR X' + 1) * / IZR (fone f) <= IZR (fone f) * / IZR (fone f))%R by (apply Rmult_le_compat_r; lra). lra. }
  destruct (region_t f (proj1 HF) X' t L U T0) as (k & be & I & T & B).
  pose proof (ziter_near f (proj1 HF) X' t L U T0 k be I T B (N.to_nat (it - 1))) as A. rewrite Nnat.N2Nat.id in A.
  set (y := ziter (it - 1) (fone f) (beta_bits f X') X' (start f X')) in *. set (z := rroot _ _ _) in *.
  exists (scaled n y), n, k, be, t. split; [exists 101%nat; intros fuel Hf; apply E; lia|]. split; auto. split; auto. split; auto. split; auto.
  rewrite ulp_eq, fval_eq by apply W. fold z. set (v := (/ IZR (fone f))%R) in *. pose proof (bpow_gt_0 radix2 n) as BP.
  unfold scaled. destruct (Z.leb_spec 0 n) as [G|G].
  - rewrite mult_IZR. replace (IZR (2 ^ n)) with (bpow radix2 n) by (symmetry; apply (IZR_Zpower radix2); lia).
    assert (B1 : (1 <= bpow radix2 n)%R) by (change 1%R with (bpow radix2 0); apply bpow_le; lia). rewrite Rmax_right by lra.
    unfold Rdiv at 1. fold v. replace (IZR y * bpow radix2 n * v - z * bpow radix2 n)%R with ((IZR y * v - z) * bpow radix2 n)%R by ring.
    rewrite Rabs_mult, (Rabs_pos_eq (bpow _ _)) by lra. eapply Rle_trans; [apply Rmult_le_compat_r; [lra|exact A]|]. lra.
  - assert (B1 : (bpow radix2 n <= / 2)%R) by (change (/ 2)%R with (bpow radix2 (-1)); apply bpow_le; lia). rewrite Rmax_left by lra.
    pose proof (div_real y (2 ^ (- n)) ltac:(apply Z.pow_pos_nonneg; lia)) as R.
    assert (E2 : (/ IZR (2 ^ (- n)) = bpow radix2 n)%R).
    { replace n with (- (- n)) at 2 by lia. rewrite bpow_opp. f_equal. apply (IZR_Zpower radix2). lia. }
    unfold Rdiv in R at 1 2. rewrite E2 in R. set (w := IZR (y / 2 ^ (- n))) in *. unfold Rdiv at 1. fold v.
    replace (w * v - z * bpow radix2 n)%R with ((w - IZR y * bpow radix2 n) * v + (IZR y * v - z) * bpow radix2 n)%R by ring.
    apply Rle_trans with (1 * v + (7 / 2 * v + 2 / 1000000000000000) * bpow radix2 n)%R.
    + apply add_bound; (rewrite Rabs_mult; apply Rmult_le_compat; auto using Rabs_pos).
      * apply Rabs_le. lra.
      * rewrite Rabs_pos_eq; lra.
      * rewrite Rabs_pos_eq; lra.
    + assert (v * bpow radix2 n <= v * / 2)%R by (apply Rmult_le_compat_l; lra). lra.
Qed.

(** ** agreement *)
Section Agree.
Context {prec emax : Z} {Hp : Prec_gt_0 prec} {He : Prec_lt_emax prec emax}.
Notation float := (binary_float prec emax).
Hypothesis P24 : 24 <= prec <= 100.
Hypothesis E10 : prec + 20 <= emax <= 2000.

Lemma region_unique : forall k be k' be' t, In (k, be) betaZ -> In (k', be') betaZ -> (IZR k / 16 <= t < IZR (k + 1) / 16)%R ->
  (IZR k' / 16 <= t < IZR (k' + 1) / 16)%R -> be = be'.
Proof.
  clear. intros k be k' be' t I I' T T'. assert (E : k = k').
  { assert (A1 : (IZR k < IZR (k' + 1))%R) by lra. assert (A2 : (IZR k' < IZR (k + 1))%R) by lra. apply lt_IZR in A1, A2. lia. }
  subst k'. clear T T'. unfold betaZ in *. cbn [In] in *.
  repeat (destruct I as [I|I]; [injection I as <- <-; repeat (destruct I' as [I'|I']; [congruence|]); contradiction|]); contradiction.
Qed.

Lemma cross_root : forall m f, supported f = true -> fsigned f = true -> 4 <= ffrac f <= fwidth f - 4 ->
  forall it, (2 <= it)%N -> forall x (xf : float), fvalid f x -> 0 <= x -> is_finite xf = true -> B2R xf = fval f x ->
  exists r s, returns (fun fuel => NI m f fuel x it) r /\ returns (fun fuel => NF m fuel xf it) s /\ is_finite s = true /\
  (Rabs (fval f r - B2R s) <= 7 / 2 * ulp f * Rmax 1 (2 * sqrt (fval f x)) + (12 * bpow radix2 (- prec) + 8 / 1000000000000000) * sqrt (fval f x))%R.
Proof using P24 E10.
  intros m f Sp Sg HF it Hit x xf V X0 Fx Vx. pose proof (supported_fwf f Sp) as W. pose proof (@U_pos prec ltac:(lia)) as UP.
  assert (UL : (0 < ulp f)%R) by apply bpow_gt_0.
  destruct (Z.eq_dec x 0) as [->|Nz].
  - exists 0, (float_of_Z prec emax 0). split; [exists 0%nat; intros; apply niirf_zero; auto|].
    assert (F0 : fval f 0 = 0%R) by (rewrite fval_eq by apply W; unfold Rdiv; ring).
    destruct (float_zero_eq xf Fx) as [[E _]|[_ N]]; [|rewrite Vx, F0 in N; lra].
    split; [exists 0%nat; intros fuel _; unfold NF, niirf; cbn [mixed_zero float_zero bind]; rewrite E; reflexivity|].
    rewrite float_of_Z_zero. split; [reflexivity|]. cbn [BinarySingleNaN.B2R]. rewrite F0, sqrt_0, Rminus_0_r, Rabs_R0, !Rmult_0_r.
    rewrite Rmax_left by lra. lra.
  - destruct (fixed_root m f Sp Sg HF it Hit x V ltac:(lia)) as (r & n & k & be & t & Rr & I & T & TR & Et & A).
    assert (XP : (0 < fval f x)%R).
    { rewrite fval_eq by apply W. apply Rmult_lt_0_compat; [apply IZR_lt; lia | apply Rinv_0_lt_compat, fone_IZR_pos, W]. }
    destruct (niirf_float_form P24 E10 m xf it Fx ltac:(rewrite Vx; lra) Hit) as (n' & t' & y & s & Ft & Vt & Lt & Ey & Rs & Fs & Vs).
    rewrite Vx, (Rabs_pos_eq (fval f x)) in Vt by lra.
    assert (NN : n' = n).
    { assert (Q : B2R t' = (t * bpow radix2 (2 * (n - n')))%R).
      { rewrite Vt, Et, Rmult_assoc, <- bpow_plus. do 2 f_equal. lia. }
      pose proof (bpow_gt_0 radix2 (2 * (n - n'))) as BP.
      assert (L1 : (bpow radix2 (2 * (n - n')) < bpow radix2 2)%R) by (change (bpow radix2 2) with 4%R; nra).
      assert (L2 : (bpow radix2 (-2) < bpow radix2 (2 * (n - n')))%R) by (change (bpow radix2 (-2)) with (/ 4)%R; nra).
      apply lt_bpow in L1, L2. lia. }
    subst n'. assert (ET : B2R t' = t) by (rewrite Vt, Et; reflexivity).
    destruct (fbeta_strict P24 E10 t' Ft Lt) as (bb & k' & be' & HB & FB & I' & T' & Hb).
    assert (be' = be) by (rewrite ET in T'; eapply region_unique; eauto). subst be'.
    destruct (fstartU P24 E10 t' it Ft Lt) as (y0 & E0 & F0 & Y0).
    destruct (fiterU P24 E10 t' bb k' be Ft Lt HB FB I' T' Hb (N.to_nat (it - 1)) y0 F0 Y0) as (y' & E1 & F1 & A1).
    rewrite Nnat.N2Nat.id, <- E0, Ey in E1. injection E1 as <-. rewrite ET in A1.
    exists r, s. split; auto. split; auto. split; auto. rewrite Vs.
    set (z := rroot _ _ _) in *. pose proof (bpow_gt_0 radix2 n) as BP.
    assert (SR : (bpow radix2 n <= 2 * sqrt (fval f x))%R).
    { assert (EX : (fval f x = t * (bpow radix2 n * bpow radix2 n))%R).
      { rewrite Et, <- bpow_plus, Rmult_assoc, <- bpow_plus. replace (-2 * n + (n + n)) with 0 by lia. cbn. ring. }
      rewrite EX, sqrt_mult, sqrt_square by nra. assert (/ 2 <= sqrt t)%R; [|nra].
      apply sq_le; [lra | apply sqrt_pos|]. rewrite sqrt_sqrt by lra. lra. }
    set (q := sqrt (fval f x)) in *.
    assert (MX : (Rmax 1 (bpow radix2 n) <= Rmax 1 (2 * q))%R).
    { apply Rmax_lub; [apply Rmax_l|]. eapply Rle_trans; [exact SR | apply Rmax_r]. }
    assert (M1 : (7 / 2 * ulp f * Rmax 1 (bpow radix2 n) <= 7 / 2 * ulp f * Rmax 1 (2 * q))%R) by (apply Rmult_le_compat_l; lra).
    replace (fval f r - B2R y * bpow radix2 n)%R with ((fval f r - z * bpow radix2 n) - (B2R y - z) * bpow radix2 n)%R by ring.
    eapply Rle_trans; [apply sub_bound; [exact A | apply mul_bound; [exact A1 | rewrite Rabs_pos_eq by lra; exact (Rle_refl _)]]|].
    set (U := bpow radix2 (- prec)) in *.
    assert (M2 : ((6 * U + 4 / 1000000000000000) * bpow radix2 n <= (6 * U + 4 / 1000000000000000) * (2 * q))%R) by (apply Rmult_le_compat_l; lra).
    lra.
Qed.
End Agree.

Lemma cross_sqrt : forall m f, supported f = true -> fsigned f = true -> 4 <= ffrac f <= fwidth f - 4 ->
  forall it, (2 <= it)%N -> forall x, fvalid f x -> 0 <= x ->
  (forall xf : f32, is_finite xf = true -> B2R xf = fval f x ->
   exists r s, returns (fun fuel => niirf (fixed_ops m f) (fixed_zero m f) (fixed_abs m f) (fixed_powi m f) m fuel x it) r /\
   returns (fun fuel => niirf float_ops float_zero float_abs float_powi m fuel xf it) s /\ is_finite s = true /\
   (Rabs (fval f r - B2R s) <= 7 / 2 * ulp f * Rmax 1 (2 * sqrt (fval f x)) + 13 * bpow radix2 (-24) * sqrt (fval f x))%R) /\
  (forall xf : f64, is_finite xf = true -> B2R xf = fval f x ->
   exists r s, returns (fun fuel => niirf (fixed_ops m f) (fixed_zero m f) (fixed_abs m f) (fixed_powi m f) m fuel x it) r /\
   returns (fun fuel => niirf float_ops float_zero float_abs float_powi m fuel xf it) s /\ is_finite s = true /\
   (Rabs (fval f r - B2R s) <= 7 / 2 * ulp f * Rmax 1 (2 * sqrt (fval f x)) + 90 * bpow radix2 (-53) * sqrt (fval f x))%R).
Proof.
  intros m f Sp Sg HF it Hit x V X0. pose proof (sqrt_pos (fval f x)) as SP. split; intros xf Fx Vx.
  - destruct (@cross_root 24 128 _ _ ltac:(lia) ltac:(lia) m f Sp Sg HF it Hit x xf V X0 Fx Vx) as (r & s & Rr & Rs & Fs & A).
    exists r, s. split; auto. split; auto. split; auto. eapply Rle_trans; [exact A|]. apply Rplus_le_compat_l. apply Rmult_le_compat_r; auto.
    change (bpow radix2 (- (24))) with (/ 16777216)%R. change (bpow radix2 (-24)) with (/ 16777216)%R. lra.
  - destruct (@cross_root 53 1024 _ _ ltac:(lia) ltac:(lia) m f Sp Sg HF it Hit x xf V X0 Fx Vx) as (r & s & Rr & Rs & Fs & A).
    exists r, s. split; auto. split; auto. split; auto. eapply Rle_trans; [exact A|]. apply Rplus_le_compat_l. apply Rmult_le_compat_r; auto.
    change (bpow radix2 (- (53))) with (/ 9007199254740992)%R. change (bpow radix2 (-53)) with (/ 9007199254740992)%R. lra.
Qed.
