(** * The NIIRF square root on floats. *)

From Coq Require Import ZArith Reals Lia Lra Psatz List Bool.
From Flocq Require Import Core.Core IEEE754.BinarySingleNaN.
From Verif Require Import Base FloatBase Literals Traits Trig FloatImpl Spec Lemmas FloatLemmas FloatProofs FloatWrap
  WrapProofs SqrtReal NiirfFixed NiirfInt FloatKit.
Open Scope Z_scope.

Section NF.
Context {prec emax : Z} {Hp : Prec_gt_0 prec} {He : Prec_lt_emax prec emax}.
Notation float := (binary_float prec emax).
Notation fexp := (SpecFloat.fexp prec emax).
Notation rnd := (round radix2 fexp ZnearestE).
Notation format := (generic_format radix2 fexp).
Hypothesis P24 : 24 <= prec <= 100.
Hypothesis E10 : prec + 20 <= emax <= 2000.
Notation O := (@float_ops prec emax Hp He).
Notation B2R := (@B2R prec emax).

Definition NF (m : mode) (fuel : nat) (x : float) (it : N) : res float :=
  niirf float_ops float_zero float_abs float_powi m fuel x it.

Lemma ltb_cmp : forall x y : float, is_finite x = true -> is_finite y = true ->
  (o_lt O x y = true /\ B2R x < B2R y)%R \/ (o_lt O x y = false /\ B2R y <= B2R x)%R.
Proof.
  intros x y Fx Fy. pose proof (lt_cmp x y Fx Fy) as H. destruct (o_lt O x y); [left|right]; split; auto.
  - apply H; auto.
  - apply Rnot_lt_le. intros L. apply H in L. discriminate.
Qed.
Lemma leb_cmp : forall x y : float, is_finite x = true -> is_finite y = true ->
  (o_le O x y = true /\ B2R x <= B2R y)%R \/ (o_le O x y = false /\ B2R y < B2R x)%R.
Proof.
  intros x y Fx Fy. pose proof (le_cmp x y Fx Fy) as H. destruct (o_le O x y); [left|right]; split; auto.
  - apply H; auto.
  - apply Rnot_le_lt. intros L. apply H in L. discriminate.
Qed.

Lemma fbeta : forall X : float, is_finite X = true -> (/ 4 <= B2R X < 1)%R ->
  exists bb k be, beta O X = Ok bb /\ is_finite bb = true /\ region k be (sqrt (B2R X)) /\
  (Rabs (B2R bb - bR be) <= / 10000000)%R.
Proof using E10 P24 Hp He.
  intros X F HX. unfold beta. cbn [o_of_f64 float_ops bind].
  assert (SS : (sqrt (B2R X) * sqrt (B2R X) = B2R X)%R) by (apply sqrt_sqrt; lra).
  assert (G : forall (l : f64) k be, In (k, be) betaZ -> is_finite l = true -> (IZR k / 16 <= B2R X <= IZR (k + 1) / 16)%R ->
     (Rabs (BinarySingleNaN.B2R l - bR be) <= / 1000000000000000)%R ->
     exists bb k be, Ok (float_of_float prec emax l) = Ok bb /\ is_finite bb = true /\ region k be (sqrt (B2R X)) /\
     (Rabs (B2R bb - bR be) <= / 10000000)%R).
  { intros l k be I Fl K HB. exists (float_of_float prec emax l), k, be. split; auto.
    assert (R : region k be (sqrt (B2R X))). { split; auto. split; [apply sqrt_pos|]. rewrite SS. exact K. }
    pose proof (region_b _ _ _ R) as RB.
    destruct (lit_approx (prec := prec) (emax := emax) ltac:(lia) ltac:(lia) l (bR be) Fl HB) as [A B]; [rewrite Rabs_pos_eq; lra|].
    split; auto. split; auto. pose proof (@eps_bound prec ltac:(lia)). lra. }
  assert (C : forall (l : f64) k, is_finite l = true -> (BinarySingleNaN.B2R l = IZR k / 16)%R -> Z.abs k <= 16384 ->
    (o_lt O X (float_of_float prec emax l) = true /\ B2R X < IZR k / 16)%R \/ (o_lt O X (float_of_float prec emax l) = false /\ IZR k / 16 <= B2R X)%R).
  { intros l k Fl V K. destruct (lit_exact (prec := prec) (emax := emax) ltac:(lia) ltac:(lia) l k Fl V) as [A B]; auto.
    - apply Z.le_lt_trans with 16384; auto. apply Z.lt_le_trans with (2 ^ 24); [reflexivity|]. apply Z.pow_le_mono_r; lia.
    - rewrite <- B. apply ltb_cmp; auto. }
  Ltac lv := match goal with |- BinarySingleNaN.B2R ?l = _ => unfold l, BinarySingleNaN.B2R, F2R; cbn; lra end.
  Ltac lc := match goal with |- (Rabs (BinarySingleNaN.B2R ?l - _) <= _)%R => unfold l, bR, BinarySingleNaN.B2R, F2R; cbn; apply Rabs_le; lra end.
  destruct (C lit_5_16 5 eq_refl ltac:(lv) ltac:(lia)) as [[-> C5]|[-> C5]].
  { apply G with 4 961914; [cbn; tauto | reflexivity | cbn in *; lra | lc]. }
  destruct (C lit_6_16 6 eq_refl ltac:(lv) ltac:(lia)) as [[-> C6]|[-> C6]].
  { apply G with 5 840332; [cbn; tauto | reflexivity | cbn in *; lra | lc]. }
  destruct (C lit_7_16 7 eq_refl ltac:(lv) ltac:(lia)) as [[-> C7]|[-> C7]].
  { apply G with 6 782715; [cbn; tauto | reflexivity | cbn in *; lra | lc]. }
  destruct (C lit_8_16 8 eq_refl ltac:(lv) ltac:(lia)) as [[-> C8]|[-> C8]].
  { apply G with 7 734869; [cbn; tauto | reflexivity | cbn in *; lra | lc]. }
  destruct (C lit_9_16 9 eq_refl ltac:(lv) ltac:(lia)) as [[-> C9]|[-> C9]].
  { apply G with 8 691406; [cbn; tauto | reflexivity | cbn in *; lra | lc]. }
  destruct (C lit_10_16 10 eq_refl ltac:(lv) ltac:(lia)) as [[-> C10]|[-> C10]].
  { apply G with 9 654297; [cbn; tauto | reflexivity | cbn in *; lra | lc]. }
  destruct (C lit_11_16 11 eq_refl ltac:(lv) ltac:(lia)) as [[-> C11]|[-> C11]].
  { apply G with 10 622070; [cbn; tauto | reflexivity | cbn in *; lra | lc]. }
  destruct (C lit_12_16 12 eq_refl ltac:(lv) ltac:(lia)) as [[-> C12]|[-> C12]].
  { apply G with 11 595215; [cbn; tauto | reflexivity | cbn in *; lra | lc]. }
  destruct (C lit_13_16 13 eq_refl ltac:(lv) ltac:(lia)) as [[-> C13]|[-> C13]].
  { apply G with 12 573731; [cbn; tauto | reflexivity | cbn in *; lra | lc]. }
  destruct (C lit_14_16 14 eq_refl ltac:(lv) ltac:(lia)) as [[-> C14]|[-> C14]].
  { apply G with 13 556152; [cbn; tauto | reflexivity | cbn in *; lra | lc]. }
  destruct (C lit_15_16 15 eq_refl ltac:(lv) ltac:(lia)) as [[-> C15]|[-> C15]].
  { apply G with 14 516113; [cbn; tauto | reflexivity | cbn in *; lra | lc]. }
  apply G with 15 502930; [cbn; tauto | reflexivity | cbn in *; lra | lc].
Qed.

(** ** one update *)
Lemma bp1 : bpow radix2 1 = 2%R. Proof. reflexivity. Qed.
Lemma bp2 : bpow radix2 2 = 4%R. Proof. reflexivity. Qed.
Lemma half1 : (/ 2 * bpow radix2 (1 - prec) = eps (prec := prec))%R.
Proof. unfold eps, Z.sub. rewrite bpow_plus, bp1. field. Qed.
Lemma half2 : (/ 2 * bpow radix2 (2 - prec) = 2 * eps (prec := prec))%R.
Proof. unfold eps, Z.sub. rewrite bpow_plus, bp2. field. Qed.

Lemma err2 : forall v, (Rabs v <= 2)%R -> (Rabs (rnd v - v) <= 6 / 100000000)%R.
Proof using E10 P24 Hp He.
  intros v H. pose proof (@eps_bound prec ltac:(lia)) as E. eapply Rle_trans; [apply (rnd_err v 1); [exact H|lia]|].
  rewrite half1. lra.
Qed.
Lemma err4 : forall v, (Rabs v <= 4)%R -> (Rabs (rnd v - v) <= 12 / 100000000)%R.
Proof using E10 P24 Hp He.
  intros v H. pose proof (@eps_bound prec ltac:(lia)) as E. eapply Rle_trans; [apply (rnd_err v 2); [exact H|lia]|].
  rewrite half2. lra.
Qed.

Section Iter.
Variables (X bb : float) (k be : Z).
Hypothesis FX : is_finite X = true.
Hypothesis HX : (/ 4 <= B2R X < 1)%R.
Hypothesis HB : beta O X = Ok bb.
Hypothesis FB : is_finite bb = true.
Notation s := (sqrt (B2R X)).
Hypothesis Rg : region k be s.
Hypothesis Hb : (Rabs (B2R bb - bR be) <= / 10000000)%R.

Definition fbody (y : float) : res float :=
  b <- beta O X ;; y2 <- mixed_powi float_powi y 2 ;; d <- o_sub O X y2 ;; p <- o_mul O b d ;; o_add O p y.

Lemma fstep : forall y, is_finite y = true -> (0 <= B2R y <= 13 / 10)%R ->
  exists y', fbody y = Ok y' /\ is_finite y' = true /\ exists rho, (Rabs rho <= 3 / 10000000 /\
  B2R y' - s = (B2R y - s) * (1 - B2R bb * (B2R y + s)) + rho)%R.
Proof using E10 P24 Hp He FX HX HB FB Rg Hb.
  intros y Fy Hy. unfold fbody. rewrite HB. cbn [bind]. destruct (powi_small y) as [_ [_ [-> _]]]. cbn [bind o_sub o_mul o_add float_ops].
  pose proof (region_b _ _ _ Rg) as RB. apply Rabs_le_inv in Hb. pose proof bp1 as B1. pose proof bp2 as B2.
  assert (S2 : (s * s = B2R X)%R) by (apply sqrt_sqrt; lra).
  assert (Y2 : (0 <= B2R y * B2R y <= 169 / 100)%R) by nra.
  destruct (mult_r y y Fy Fy 1 ltac:(lia)) as [F1 V1]. { rewrite B1, Rabs_pos_eq; lra. }
  pose proof (err2 (B2R y * B2R y)) as R1. rewrite <- V1 in R1. specialize (R1 ltac:(rewrite Rabs_pos_eq; lra)).
  set (y2 := Bmult mode_NE y y) in *. apply Rabs_le_inv in R1.
  destruct (minus_r X y2 FX F1 1 ltac:(lia)) as [F2 V2]. { rewrite B1. apply Rabs_le. lra. }
  pose proof (err2 (B2R X - B2R y2)) as R2. rewrite <- V2 in R2. specialize (R2 ltac:(apply Rabs_le; lra)).
  set (d := Bminus mode_NE X y2) in *. apply Rabs_le_inv in R2.
  assert (BD : (Rabs (B2R bb * B2R d) <= 17 / 10)%R).
  { replace (17 / 10)%R with (1 * (17 / 10))%R by lra. apply mul_bound; apply Rabs_le; lra. }
  destruct (mult_r bb d FB F2 1 ltac:(lia)) as [F3 V3]. { rewrite B1. lra. }
  pose proof (err2 (B2R bb * B2R d)) as R3. rewrite <- V3 in R3. specialize (R3 ltac:(lra)).
  set (p := Bmult mode_NE bb d) in *. apply Rabs_le_inv in R3, BD.
  destruct (plus_r p y F3 Fy 2 ltac:(lia)) as [F4 V4]. { rewrite B2. apply Rabs_le. lra. }
  pose proof (err4 (B2R p + B2R y)) as R4. rewrite <- V4 in R4. specialize (R4 ltac:(apply Rabs_le; lra)).
  set (y' := Bplus mode_NE p y) in *. apply Rabs_le_inv in R4.
  exists y'. split; auto. split; auto.
  exists ((B2R y' - (B2R p + B2R y)) + (B2R p - B2R bb * B2R d) + B2R bb * ((B2R d - (B2R X - B2R y2)) - (B2R y2 - B2R y * B2R y)))%R.
  split.
  - set (e1 := (B2R d - (B2R X - B2R y2) - (B2R y2 - B2R y * B2R y))%R).
    assert (E1 : (Rabs (B2R bb * e1) <= 1 * (12 / 100000000))%R) by (apply mul_bound; apply Rabs_le; unfold e1; lra).
    apply Rabs_le_inv in E1. apply Rabs_le. lra.
  - clear - S2. set (sv := sqrt (B2R X)) in *. clearbody sv. rewrite <- S2. ring.
Qed.

Definition fgood (y : float) : Prop := is_finite y = true /\ 
  (Rabs (B2R y - s) <= 996 / 1000000 * s /\ Rabs (B2R y - s) <= 703 / 1000000)%R.

Lemma fgood_range : forall y, fgood y -> (49 / 100 <= B2R y <= 101 / 100)%R.
Proof using HX Rg. intros y [_ [_ G]]. pose proof (region_s _ _ _ Rg). apply Rabs_le_inv in G. lra. Qed.

Lemma ffirst : forall y, is_finite y = true -> (Rabs (B2R y - y0i s) <= 4 / 10000000)%R ->
  exists y', fbody y = Ok y' /\ fgood y'.
Proof using E10 P24 Hp He FX HX HB FB Rg Hb.
  intros y Fy Hy. pose proof (region_s _ _ _ Rg) as Sr. pose proof (e0i_bound _ Sr) as E0. unfold e0i in E0.
  destruct (fstep y Fy) as [y' [B [F' [rho [R1 R2]]]]]. { apply Rabs_le_inv in E0, Hy. lra. }
  exists y'. split; auto. split; auto. rewrite R2.
  destruct (niirf_first k be s (B2R y) (B2R bb) _ _ Rg Hy ltac:(lra) Hb ltac:(lra)) as [e [E1 [E2 _]]]. rewrite E1.
  destruct (err1_bounds _ _ _ Rg) as [B1 B2].
  split; (eapply Rle_trans; [apply add_bound; [apply add_bound; [|exact E2]|exact R1]|]); [exact B1|lra|exact B2|lra].
Qed.
Lemma fnext : forall y, fgood y -> exists y', fbody y = Ok y' /\ fgood y' /\ (Rabs (B2R y' - s) <= 177 / 1000000)%R.
Proof using E10 P24 Hp He FX HX HB FB Rg Hb.
  intros y G. pose proof (fgood_range y G) as Yr. destruct G as [Fy [G1 G2]]. pose proof (region_s _ _ _ Rg) as Sr.
  destruct (fstep y Fy ltac:(lra)) as [y' [B [F' [rho [R1 R2]]]]].
  exists y'. split; auto. 
  assert (A : (Rabs (B2R y' - s) <= 177 / 1000000)%R).
  { rewrite R2. eapply Rle_trans; [apply add_bound; [eapply niirf_next; [exact Rg|exact G2|lra|exact Hb|lra]|exact R1]|]. lra. }
  split; auto. split; auto. split; lra.
Qed.

Lemma fiter : forall y n, is_finite y = true -> (Rabs (B2R y - y0i s) <= 4 / 10000000)%R -> (1 <= n)%N ->
  exists y', for_n n fbody y = Ok y' /\ fgood y' /\ ((2 <= n)%N -> (Rabs (B2R y' - s) <= 177 / 1000000)%R).
Proof using E10 P24 Hp He FX HX HB FB Rg Hb.
  intros y n Fy Hy. induction n using N.peano_ind; intros Hn; [lia|].
  rewrite for_succ. destruct (N.eq_dec n 0) as [->|N0].
  - cbn [for_n N.iter bind]. destruct (ffirst y Fy Hy) as [y' [E G]]. exists y'. split; [exact E|]. split; auto. lia.
  - destruct (IHn ltac:(lia)) as [z [-> [G _]]]. cbn [bind]. destruct (fnext z G) as [y' [E [G' A]]]. eauto.
Qed.
End Iter.

Lemma fstart : forall X it, is_finite X = true -> (/ 4 <= B2R X < 1)%R ->
  exists y0, niirf_iterate O float_powi it X = for_n (it - 1) (fbody X) y0 /\ is_finite y0 = true /\
  (Rabs (B2R y0 - y0i (sqrt (B2R X))) <= 4 / 10000000)%R.
Proof using E10 P24 Hp He.
  intros X it FX HX.
  unfold niirf_iterate. cbn [o_of_i32 o_mul o_div o_of_f64 o_add float_ops bind].
  destruct (small_int (prec := prec) (emax := emax) ltac:(lia) 2 ltac:(lia)) as [T1 T2].
  destruct (small_int (prec := prec) (emax := emax) ltac:(lia) 3 ltac:(lia)) as [H1 H2].
  set (two := float_of_Z prec emax 2) in *. set (three := float_of_Z prec emax 3) in *.
  pose proof bp1 as B1. pose proof (@eps_bound prec ltac:(lia)) as EB.
  destruct (mult_r two X T2 FX 1 ltac:(lia)) as [F1 V1]. { rewrite B1, T1. apply Rabs_le. lra. }
  pose proof (err2 (B2R two * B2R X)) as R1. rewrite <- V1 in R1. specialize (R1 ltac:(rewrite T1; apply Rabs_le; lra)). rewrite T1 in R1.
  set (tx := Bmult mode_NE two X) in *. apply Rabs_le_inv in R1.
  destruct (div_r tx three F1 ltac:(rewrite H1; lra) 1 ltac:(lia)) as [F2 V2]. { rewrite B1, H1. apply Rabs_le. lra. }
  pose proof (err2 (B2R tx / B2R three)) as R2. rewrite <- V2 in R2. specialize (R2 ltac:(rewrite H1; apply Rabs_le; lra)). rewrite H1 in R2.
  set (q := Bdiv mode_NE tx three) in *. apply Rabs_le_inv in R2.
  destruct (lit_approx (prec := prec) (emax := emax) ltac:(lia) ltac:(lia) lit_y0 (354167 / 1000000) eq_refl) as [F3 R3].
  { unfold lit_y0, BinarySingleNaN.B2R, F2R; cbn; apply Rabs_le; lra. } { rewrite Rabs_pos_eq; lra. }
  set (c := float_of_float prec emax lit_y0) in *. apply Rabs_le_inv in R3.
  destruct (plus_r q c F2 F3 1 ltac:(lia)) as [F4 V4]. { rewrite B1. apply Rabs_le. lra. }
  pose proof (err2 (B2R q + B2R c)) as R4. rewrite <- V4 in R4. specialize (R4 ltac:(apply Rabs_le; lra)).
  set (y0 := Bplus mode_NE q c) in *. apply Rabs_le_inv in R4.
  assert (S2 : (sqrt (B2R X) * sqrt (B2R X) = B2R X)%R) by (apply sqrt_sqrt; lra).
  exists y0. split; [reflexivity|]. split; auto. unfold y0i. rewrite S2. apply Rabs_le. lra.
Qed.
Lemma fiterate : forall X it, is_finite X = true -> (/ 4 <= B2R X < 1)%R -> (2 <= it)%N -> 
  exists y, niirf_iterate O float_powi it X = Ok y /\ fgood X y /\ (49 / 100 <= B2R y <= 101 / 100)%R /\
  ((3 <= it)%N -> (Rabs (B2R y - sqrt (B2R X)) <= 177 / 1000000)%R).
Proof using E10 P24 Hp He.
  intros X it FX HX Hit. destruct (fbeta X FX HX) as [bb [k [be [HB [FB [Rg Hb]]]]]].
  destruct (fstart X it FX HX) as (y0 & -> & F4 & Y0).
  destruct (fiter X bb k be FX HX HB FB Rg Hb y0 (it - 1) F4 Y0 ltac:(lia)) as [y [E [G A]]].
  exists y. split; [exact E|]. split; auto. split; [eapply fgood_range; eauto|]. intros I3. apply A. lia.
Qed.
(** convergence to the rounding error *)
Lemma fiterate_conv : forall X n, is_finite X = true -> (/ 4 <= B2R X < 1)%R ->
  exists y, niirf_iterate O float_powi (N.of_nat (n + 2)) X = Ok y /\ fgood X y /\
  (Rabs (B2R y - sqrt (B2R X)) <= 703 / 1000000 * (/ 4) ^ n + / 2000000)%R.
Proof using E10 P24 Hp He.
  intros X n FX HX. destruct (fbeta X FX HX) as [bb [k [be [HB [FB [Rg Hb]]]]]].
  destruct (fstart X (N.of_nat (n + 2)) FX HX) as (y0 & -> & F4 & Y0). replace (N.of_nat (n + 2) - 1)%N with (N.of_nat (S n)) by lia.
  induction n as [|n IH].
  - destruct (fiter X bb k be FX HX HB FB Rg Hb y0 1%N F4 Y0 ltac:(lia)) as [y [E [G _]]]. exists y. split; [exact E|]. split; auto.
    destruct G as [_ [_ G]]. rewrite pow_O. lra.
  - destruct IH as (z & E & G & A). replace (N.of_nat (S (S n))) with (N.succ (N.of_nat (S n))) by lia. rewrite for_succ, E. cbn [bind].
    destruct (fnext X bb k be FX HX HB FB Rg Hb z G) as (y' & E' & G' & _). exists y'. split; auto. split; auto.
    pose proof (fgood_range X k be HX Rg z G) as Yr. destruct (fstep X bb k be FX HX HB FB Rg Hb z (proj1 G) ltac:(lra)) as (y2 & E2 & _ & rho & R1 & R2).
    assert (y2 = y') by congruence. subst y2. rewrite R2. clear - Rg A R1 Hb. rewrite <- tech_pow_Rmult.
    assert (P : (0 < (/ 4) ^ n <= 1)%R). { split; [apply pow_lt; lra|]. rewrite <- (pow1 n). apply pow_incr. lra. }
    set (p := ((/ 4) ^ n)%R) in *.
    eapply Rle_trans; [apply add_bound; [eapply niirf_next; [exact Rg|exact A| |exact Hb|]|exact R1]|]; lra.
Qed.

(** ** normalisation *)
Lemma quarter_lit : is_finite (float_of_float prec emax lit_quarter) = true /\ B2R (float_of_float prec emax lit_quarter) = (/ 4)%R.
Proof using E10 P24 Hp He.
  destruct (lit_exact (prec := prec) (emax := emax) ltac:(lia) ltac:(lia) lit_quarter 4 eq_refl) as [A B].
  - unfold lit_quarter, BinarySingleNaN.B2R, F2R. cbn. lra.
  - apply Z.lt_le_trans with (2 ^ 24); [reflexivity|]. apply Z.pow_le_mono_r; lia.
  - lia.
  - split; auto. rewrite B. lra.
Qed.
Lemma one_lit : is_finite (float_of_float prec emax lit_one) = true /\ B2R (float_of_float prec emax lit_one) = 1%R.
Proof using E10 P24 Hp He.
  destruct (lit_exact (prec := prec) (emax := emax) ltac:(lia) ltac:(lia) lit_one 16 eq_refl) as [A B].
  - unfold lit_one, BinarySingleNaN.B2R, F2R. cbn. lra.
  - apply Z.lt_le_trans with (2 ^ 24); [reflexivity|]. apply Z.pow_le_mono_r; lia.
  - lia.
  - split; auto. rewrite B. lra.
Qed.

Lemma i32_ok : forall m z, -10000 <= z <= 10000 -> fin m i32 z = Ok z.
Proof. intros. apply fin_ok. unfold in_range, imin, imax. cbn. lia. Qed.

Lemma scale_up : forall (t : float) k, 0 <= k -> is_finite t = true -> (Rabs (B2R t * bpow radix2 k) <= bpow radix2 (emax - 1))%R ->
  rnd (B2R t * bpow radix2 k) = (B2R t * bpow radix2 k)%R.
Proof.
  intros t k K F H. apply round_generic; [apply valid_rnd_N|]. apply scale_format; auto. apply generic_format_B2R.
Qed.

Lemma fnorm1 : forall m (x : float) fuel, is_finite x = true -> (0 < B2R x)%R -> 5000 < Z.of_nat fuel ->
  exists n t, while fuel (fun s : Z * float => q <- o_of_f64 O lit_quarter ;; Ok (o_lt O (snd s) q))
          (fun s => n <- fin m i32 (fst s - 1) ;; four <- o_of_i32 O 4 ;; x <- o_mul O (snd s) four ;; Ok (n, x)) (0, x) = Ok (n, t) /\
  is_finite t = true /\ B2R t = (B2R x * bpow radix2 (-2 * n))%R /\ - (emax + prec) <= 2 * n <= 0 /\ (/ 4 <= B2R t)%R /\
  (n < 0 -> (B2R t < 1)%R).
Proof using E10 P24 Hp He.
  intros m x fuel F X0 Hf. destruct quarter_lit as [Q1 Q2]. set (q := float_of_float prec emax lit_quarter) in *.
  assert (XL : (bpow radix2 (3 - emax - prec) <= B2R x)%R).
  { rewrite <- (Rabs_pos_eq (B2R x)) by lra. apply (abs_B2R_ge_emin prec emax).
    destruct x; try discriminate; auto. cbn in X0. lra. }
  match goal with |- exists _ _, while _ ?c ?b _ = _ /\ _ => 
  destruct (while_total c b (fun s => is_finite (snd s) = true /\ B2R (snd s) = (B2R x * bpow radix2 (-2 * fst s))%R /\ 
     - (emax + prec) <= 2 * fst s <= 0 /\ (fst s < 0 -> (B2R (snd s) < 1)%R))
     (fun s => Z.to_nat (emax + prec + 2 * fst s))) with (n := fuel) (s := (0, x)) as [[n t] [E [[I1 [I2 [I3 I4]]] C]]] end.
  - intros [n t] [I1 [I2 [I3 I4]]]. cbn [fst snd o_of_f64 o_of_i32 float_ops bind] in *. fold q.
    destruct (ltb_cmp t q I1 Q1) as [[-> L]|[-> L]]; [right|left; reflexivity]. split; [reflexivity|]. rewrite Q2 in L.
    destruct (small_int (prec := prec) (emax := emax) ltac:(lia) 4 ltac:(lia)) as [T1 T2]. set (four := float_of_Z prec emax 4) in *.
    assert (T0 : (bpow radix2 (3 - emax - prec - 2 * n) <= B2R t)%R).
    { rewrite I2. replace (3 - emax - prec - 2 * n) with ((3 - emax - prec) + (-2 * n)) by lia. rewrite bpow_plus.
      apply Rmult_le_compat_r; [apply bpow_ge_0|auto]. }
    assert (N2 : 3 - emax - prec - 2 * n < -2). { apply (lt_bpow radix2). change (bpow radix2 (-2)) with (/ 4)%R. lra. }
    pose proof (bpow_gt_0 radix2 (3 - emax - prec - 2 * n)) as T00.
    assert (B4 : B2R four = bpow radix2 2) by (rewrite T1; reflexivity).
    destruct (mult_r t four I1 T2 0 ltac:(lia)) as [F1 V1]. { rewrite T1. change (bpow radix2 0) with 1%R. rewrite Rabs_pos_eq; lra. }
    rewrite B4, scale_up in V1; [|lia|auto|].
    2:{ change (bpow radix2 2) with 4%R. rewrite Rabs_pos_eq by lra. apply Rle_trans with (bpow radix2 0); [cbn; lra|apply bpow_le; lia]. }
    exists (n - 1, Bmult mode_NE t four). rewrite i32_ok by lia. cbn [bind o_mul float_ops fst snd]. split; auto.
    split; [|lia]. split; auto. split.
    + rewrite V1, I2, Rmult_assoc, <- bpow_plus. f_equal. f_equal. lia.
    + split; [lia|]. intros _. rewrite V1. change (bpow radix2 2) with 4%R. lra.
  - cbn [fst snd]. change (-2 * 0) with 0. cbn [bpow]. rewrite Rmult_1_r. repeat split; auto; lia.
  - cbn [fst]. lia.
  - cbn [fst snd o_of_f64 float_ops bind] in *. fold q in C. exists n, t. split; [exact E|]. split; auto. split; auto. split; [lia|]. split; [|exact I4].
    destruct (ltb_cmp t q I1 Q1) as [[EQ L]|[EQ L]]; [rewrite EQ in C; discriminate|]. rewrite Q2 in L. exact L.
Qed.

Lemma fnorm2 : forall m n0 (x t0 : float) fuel, is_finite t0 = true -> (0 < B2R x)%R -> B2R t0 = (B2R x * bpow radix2 (-2 * n0))%R ->
  - (emax + prec) <= 2 * n0 <= 0 -> (n0 < 0 -> (B2R t0 < 1)%R) -> (/ 4 <= B2R t0)%R -> 5000 < Z.of_nat fuel ->
  exists n t, while fuel (fun s : Z * float => one <- o_of_f64 O lit_one ;; Ok (o_le O one (snd s)))
    (fun s => n <- fin m i32 (fst s + 1) ;; four <- o_of_i32 O 4 ;; x <- o_div O (snd s) four ;; Ok (n, x)) (n0, t0) = Ok (n, t) /\
  is_finite t = true /\ B2R t = (B2R x * bpow radix2 (-2 * n))%R /\ - (emax + prec) <= 2 * n <= emax + 2 /\ (/ 4 <= B2R t < 1)%R.
Proof using E10 P24 Hp He.
  intros m n0 x t0 fuel F X0 V0 N0 N0' L0 Hf. destruct one_lit as [Q1 Q2]. set (q := float_of_float prec emax lit_one) in *.
  assert (XU : (B2R x < bpow radix2 emax)%R).
  { rewrite <- (Rabs_pos_eq (B2R x)) by lra. apply (abs_B2R_lt_emax prec emax). }
  match goal with |- exists _ _, while _ ?c ?b _ = _ /\ _ => 
  destruct (while_total c b (fun s => is_finite (snd s) = true /\ B2R (snd s) = (B2R x * bpow radix2 (-2 * fst s))%R /\ 
     - (emax + prec) <= 2 * fst s <= emax + 2 /\ (/ 4 <= B2R (snd s))%R)
     (fun s => Z.to_nat (emax + 4 - 2 * fst s))) with (n := fuel) (s := (n0, t0)) as [[n t] [E [[I1 [I2 [I3 I4]]] C]]] end.
  - intros [n t] [I1 [I2 [I3 I4]]]. cbn [fst snd o_of_f64 o_of_i32 float_ops bind] in *. fold q.
    destruct (leb_cmp q t Q1 I1) as [[-> L]|[-> L]]; [right|left; reflexivity]. split; [reflexivity|]. rewrite Q2 in L.
    destruct (small_int (prec := prec) (emax := emax) ltac:(lia) 4 ltac:(lia)) as [T1 T2]. set (four := float_of_Z prec emax 4) in *.
    assert (T0 : (B2R t < bpow radix2 (emax - 2 * n))%R).
    { rewrite I2. replace (emax - 2 * n) with (emax + (-2 * n)) by lia. rewrite bpow_plus.
      apply Rmult_lt_compat_r; [apply bpow_gt_0|auto]. }
    assert (N2 : 0 < emax - 2 * n). { apply (lt_bpow radix2). change (bpow radix2 0) with 1%R. lra. }
    assert (B4 : (B2R t / B2R four = B2R t * bpow radix2 (-2))%R) by (rewrite T1; reflexivity).
    pose proof (abs_B2R_lt_emax prec emax t) as TE. rewrite Rabs_pos_eq in TE by lra.
    assert (BE : (bpow radix2 emax = 4 * bpow radix2 (emax - 2))%R). { change 4%R with (bpow radix2 2). rewrite <- bpow_plus. f_equal. lia. }
    destruct (div_r t four I1 ltac:(rewrite T1; lra) (emax - 2) ltac:(lia)) as [F1 V1]. 
    { rewrite T1. rewrite Rabs_pos_eq; lra. }
    rewrite B4 in V1. rewrite round_generic in V1; [|apply valid_rnd_N|].
    2:{ apply scale_format; [apply generic_format_B2R|]. right. right. 
        assert (1 <= mag radix2 (B2R t)); [|lia]. apply mag_ge_bpow. change (bpow radix2 (1 - 1)) with 1%R. rewrite Rabs_pos_eq; lra. }
    exists (n + 1, Bdiv mode_NE t four). rewrite i32_ok by lia. cbn [bind o_div float_ops fst snd]. split; auto.
    split; [|lia]. split; auto. split; [|split].
    + rewrite V1, I2, Rmult_assoc, <- bpow_plus. f_equal. f_equal. lia.
    + lia.
    + rewrite V1. change (bpow radix2 (-2)) with (/ 4)%R. lra.
  - cbn [fst snd]. repeat split; auto; lia.
  - cbn [fst]. lia.
  - cbn [fst snd o_of_f64 float_ops bind] in *. fold q in C. exists n, t. split; [exact E|]. split; auto. split; auto. split; [lia|].
    split; auto. destruct (leb_cmp q t Q1 I1) as [[EQ L]|[EQ L]]; [rewrite EQ in C; discriminate|]. rewrite Q2 in L. exact L.
Qed.

Lemma fdenorm : forall m n0 (Y : float) fuel, is_finite Y = true -> (49 / 100 <= B2R Y <= 101 / 100)%R ->
  - (emax + prec) <= 2 * n0 <= emax + 2 -> 5000 < Z.of_nat fuel ->
  exists r, niirf_denormalize O m fuel (n0, Y) = Ok (0, r) /\ is_finite r = true /\ B2R r = (B2R Y * bpow radix2 n0)%R.
Proof using E10 P24 Hp He.
  intros m n0 Y fuel F VY N0 Hf. unfold niirf_denormalize.
  destruct (small_int (prec := prec) (emax := emax) ltac:(lia) 2 ltac:(lia)) as [T1 T2]. 
  match goal with |- exists _, while _ ?c ?b _ = _ /\ _ => 
  destruct (while_total c b (fun s => is_finite (snd s) = true /\ B2R (snd s) = (B2R Y * bpow radix2 (n0 - fst s))%R /\ 
     (0 <= fst s <= n0 \/ n0 <= fst s <= 0))
     (fun s => Z.to_nat (Z.abs (fst s)))) with (n := fuel) (s := (n0, Y)) as [[n t] [E [[I1 [I2 I3]] C]]] end.
  - intros [n t] [I1 [I2 I3]]. cbn [fst snd] in *. rewrite i32_ok by lia. cbn [bind].
    destruct (Z.eqb_spec (Z.abs n) 0) as [Nz|Nz]; [left; reflexivity|right; split; [reflexivity|]].
    cbn [o_of_i32 float_ops bind]. set (two := float_of_Z prec emax 2) in *.
    pose proof (bpow_gt_0 radix2 (n0 - n)) as BP.
    destruct (Z.ltb_spec 0 n) as [G|G].
    + assert (UP : (B2R t * bpow radix2 1 <= bpow radix2 (emax - 1))%R).
      { rewrite I2, Rmult_assoc, <- bpow_plus. apply Rle_trans with (2 * bpow radix2 (n0 - n + 1))%R.
        - apply Rmult_le_compat_r; [apply bpow_ge_0|lra].
        - change 2%R with (bpow radix2 1). rewrite <- bpow_plus. apply bpow_le. lia. }
      assert (T0 : (0 < B2R t)%R) by (rewrite I2; apply Rmult_lt_0_compat; lra).
      destruct (mult_r t two I1 T2 (emax - 1) ltac:(lia)) as [F1 V1]. { rewrite T1. rewrite Rabs_pos_eq; [exact UP|lra]. }
      rewrite T1 in V1. change 2%R with (bpow radix2 1) in V1. rewrite scale_up in V1; [|lia|auto|].
      2:{ rewrite Rabs_pos_eq; [exact UP|]. apply Rmult_le_pos; [lra|apply bpow_ge_0]. }
      exists (n - 1, Bmult mode_NE t two). cbn [o_mul float_ops bind]. rewrite i32_ok by lia. cbn [bind fst snd]. split; auto.
      split; [|lia]. split; auto. split; [|lia]. rewrite V1, I2, Rmult_assoc, <- bpow_plus. f_equal. f_equal. lia.
    + destruct (Z.ltb_spec n 0) as [G'|G']; [|lia].
      assert (T0 : (bpow radix2 (n0 - n - 2) <= B2R t)%R).
      { rewrite I2. replace (n0 - n - 2) with (-2 + (n0 - n)) by lia. rewrite bpow_plus. apply Rmult_le_compat_r; [lra|].
        change (bpow radix2 (-2)) with (/ 4)%R. lra. }
      pose proof (bpow_gt_0 radix2 (n0 - n - 2)) as BP2.
      assert (T3 : (B2R t <= 2)%R).
      { rewrite I2. apply Rle_trans with (2 * 1)%R; [|lra]. apply Rmult_le_compat; try lra. 
        change 1%R with (bpow radix2 0). apply bpow_le. lia. }
      assert (B4 : (B2R t / B2R two = B2R t * bpow radix2 (-1))%R) by (rewrite T1; reflexivity).
      destruct (div_r t two I1 ltac:(rewrite T1; lra) 0 ltac:(lia)) as [F1 V1]. 
      { rewrite T1. change (bpow radix2 0) with 1%R. rewrite Rabs_pos_eq; lra. }
      rewrite B4 in V1. rewrite round_generic in V1; [|apply valid_rnd_N|].
      2:{ apply scale_format; [apply generic_format_B2R|]. right. right. 
          assert (n0 - n - 1 <= mag radix2 (B2R t)); [|lia]. apply mag_ge_bpow.
          replace (n0 - n - 1 - 1) with (n0 - n - 2) by lia. rewrite Rabs_pos_eq; lra. }
      exists (n + 1, Bdiv mode_NE t two). cbn [o_div float_ops bind]. rewrite i32_ok by lia. cbn [bind fst snd]. split; auto.
      split; [|lia]. split; auto. split; [|lia]. rewrite V1, I2, Rmult_assoc, <- bpow_plus. f_equal. f_equal. lia.
  - cbn [fst snd]. rewrite Z.sub_diag. cbn [bpow]. rewrite Rmult_1_r. repeat split; auto; lia.
  - cbn [fst]. lia.
  - cbn [fst snd] in *. rewrite i32_ok in C by lia. cbn [bind] in C. inversion C as [C'].
    apply negb_false_iff in C'. apply Z.eqb_eq in C'. assert (n = 0) by lia. subst n. exists t.
    split; [exact E|]. split; auto. rewrite I2. f_equal. f_equal. lia.
Qed.

(** ** accuracy *)
Lemma float_zero_eq : forall x : float, is_finite x = true -> 
  (o_eq O x (float_of_Z prec emax 0) = true /\ B2R x = 0%R) \/ (o_eq O x (float_of_Z prec emax 0) = false /\ B2R x <> 0%R).
Proof.
  intros x F. rewrite float_of_Z_zero. unfold o_eq. cbn [o_cmp float_ops]. rewrite Bcompare_correct by auto.
  cbn [BinarySingleNaN.B2R]. destruct (Rcompare_spec (B2R x) 0); [right|left|right]; split; auto; lra.
Qed.

Lemma niirf_float : forall m (x : float) it, is_finite x = true -> (2 <= it)%N -> exists r,
  returns (fun fuel => NF m fuel x it) r /\ is_finite r = true /\
  (Rabs (B2R r - sqrt (Rabs (B2R x))) <= / 1000 * sqrt (Rabs (B2R x)))%R /\
  ((/ 4 <= Rabs (B2R x) < 1)%R -> (Rabs (B2R r - sqrt (Rabs (B2R x))) <= 703 / 1000000)%R /\ 
    ((3 <= it)%N -> (Rabs (B2R r - sqrt (Rabs (B2R x))) <= 177 / 1000000)%R)).
Proof using E10 P24 Hp He.
  intros m x it F Hit. destruct (float_zero_eq x F) as [[E X0]|[E X0]].
  - exists (float_of_Z prec emax 0). split; [|split; [|split]].
    + exists 0%nat. intros fuel _. unfold NF, niirf. cbn [mixed_zero float_zero bind]. rewrite E. reflexivity.
    + reflexivity.
    + rewrite X0, float_of_Z_zero. cbn [BinarySingleNaN.B2R]. rewrite Rabs_R0, sqrt_0, Rminus_0_r, Rabs_R0. lra.
    + rewrite X0, Rabs_R0. lra.
  - assert (FA : is_finite (Babs x) = true) by (rewrite is_finite_Babs; auto).
    assert (XA : (0 < B2R (Babs x))%R) by (rewrite B2R_Babs; apply Rabs_pos_lt; auto).
    destruct (fnorm1 m (Babs x) (Z.to_nat 5001) FA XA ltac:(lia)) as [n1 [t1 [E1 [F1 [V1 [N1 [L1 U1]]]]]]].
    destruct (fnorm2 m n1 (Babs x) t1 (Z.to_nat 5001) F1 XA V1 N1 U1 L1 ltac:(lia)) as [n2 [t2 [E2 [F2 [V2 [N2 LU]]]]]].
    destruct (fiterate t2 it F2 LU Hit) as [y [E3 [[F3 [G3 G3']] [YR A3]]]].
    destruct (fdenorm m n2 y (Z.to_nat 5001) F3 YR N2 ltac:(lia)) as [r [E4 [F4 V4]]].
    exists r. split; [|split; auto].
    { exists (Z.to_nat 5001). intros fuel Hf. unfold NF, niirf. cbn [mixed_zero float_zero bind]. rewrite E. cbn [mixed_abs float_abs bind].
      unfold niirf_normalize. 
      erewrite while_mono; [|exact E1|discriminate|exact Hf]. cbn [bind].
      erewrite while_mono; [|exact E2|discriminate|exact Hf]. cbn [bind fst snd]. rewrite E3. cbn [bind].
      unfold niirf_denormalize in *. erewrite while_mono; [|exact E4|discriminate|exact Hf]. reflexivity. }
    rewrite <- B2R_Babs. set (a := B2R (Babs x)) in *.
    assert (EA : (a = B2R t2 * (bpow radix2 n2 * bpow radix2 n2))%R).
    { rewrite V2, <- bpow_plus, Rmult_assoc, <- bpow_plus. replace (-2 * n2 + (n2 + n2)) with 0 by lia. cbn. ring. }
    pose proof (bpow_gt_0 radix2 n2) as BP.
    assert (SA : (sqrt a = sqrt (B2R t2) * bpow radix2 n2)%R).
    { rewrite EA, sqrt_mult by nra. f_equal. apply sqrt_square. lra. }
    split.
    + rewrite SA, V4. replace (B2R y * bpow radix2 n2 - sqrt (B2R t2) * bpow radix2 n2)%R with ((B2R y - sqrt (B2R t2)) * bpow radix2 n2)%R by ring.
      rewrite Rabs_mult, (Rabs_pos_eq (bpow _ _)), <- Rmult_assoc by lra. apply Rmult_le_compat_r; [lra|].
      pose proof (sqrt_pos (B2R t2)). lra.
    + intros HA. assert (n2 = 0).
      { assert (bpow radix2 (-2) < bpow radix2 (2 * n2))%R.
        { change (bpow radix2 (-2)) with (/ 4)%R. replace (2 * n2) with (n2 + n2) by lia. rewrite bpow_plus.
          pose proof (Rmult_lt_0_compat _ _ BP BP). nra. }
        assert (bpow radix2 (2 * n2) < bpow radix2 2)%R.
        { change (bpow radix2 2) with 4%R. replace (2 * n2) with (n2 + n2) by lia. rewrite bpow_plus.
          pose proof (Rmult_lt_0_compat _ _ BP BP). nra. }
        apply lt_bpow in H, H0. lia. }
      subst n2. cbn [bpow] in *. rewrite Rmult_1_r in *. rewrite SA, V4. auto.
Qed.

(** the result as a scaled root of the normalised argument *)
Lemma niirf_float_form : forall m (x : float) it, is_finite x = true -> B2R x <> 0%R -> (2 <= it)%N -> exists n t y r,
  is_finite t = true /\ B2R t = (Rabs (B2R x) * bpow radix2 (-2 * n))%R /\ (/ 4 <= B2R t < 1)%R /\
  niirf_iterate O float_powi it t = Ok y /\ returns (fun fuel => NF m fuel x it) r /\ is_finite r = true /\ B2R r = (B2R y * bpow radix2 n)%R.
Proof using E10 P24 Hp He.
  intros m x it F X0 Hit. destruct (float_zero_eq x F) as [[E X0']|[E _]]; [contradiction|].
  assert (FA : is_finite (Babs x) = true) by (rewrite is_finite_Babs; auto).
  assert (XA : (0 < B2R (Babs x))%R) by (rewrite B2R_Babs; apply Rabs_pos_lt; auto).
  destruct (fnorm1 m (Babs x) (Z.to_nat 5001) FA XA ltac:(lia)) as [n1 [t1 [E1 [F1 [V1 [N1 [L1 U1]]]]]]].
  destruct (fnorm2 m n1 (Babs x) t1 (Z.to_nat 5001) F1 XA V1 N1 U1 L1 ltac:(lia)) as [n2 [t2 [E2 [F2 [V2 [N2 LU]]]]]].
  destruct (fiterate t2 it F2 LU Hit) as [y [E3 [[F3 [G3 G3']] [YR A3]]]].
  destruct (fdenorm m n2 y (Z.to_nat 5001) F3 YR N2 ltac:(lia)) as [r [E4 [F4 V4]]].
  exists n2, t2, y, r. split; auto. split; [rewrite <- B2R_Babs; auto|]. split; auto. split; auto. split; [|split; auto].
  exists (Z.to_nat 5001). intros fuel Hf. unfold NF, niirf. cbn [mixed_zero float_zero bind]. rewrite E. cbn [mixed_abs float_abs bind].
  unfold niirf_normalize. 
  erewrite while_mono; [|exact E1|discriminate|exact Hf]. cbn [bind].
  erewrite while_mono; [|exact E2|discriminate|exact Hf]. cbn [bind fst snd]. rewrite E3. cbn [bind].
  unfold niirf_denormalize in *. erewrite while_mono; [|exact E4|discriminate|exact Hf]. reflexivity.
Qed.
Lemma niirf_float_scale : forall m (x x4 : float) it, is_finite x = true -> is_finite x4 = true -> B2R x4 = (4 * B2R x)%R -> (2 <= it)%N ->
  exists r r4, returns (fun fuel => NF m fuel x it) r /\ returns (fun fuel => NF m fuel x4 it) r4 /\
  is_finite r = true /\ is_finite r4 = true /\ B2R r4 = (2 * B2R r)%R.
Proof using E10 P24 Hp He.
  intros m x x4 it F F4 V Hit. destruct (Req_dec (B2R x) 0) as [Z|Z].
  - assert (Z4 : B2R x4 = 0%R) by lra. exists (float_of_Z prec emax 0), (float_of_Z prec emax 0).
    assert (G : forall y : float, is_finite y = true -> B2R y = 0%R -> returns (fun fuel => NF m fuel y it) (float_of_Z prec emax 0)).
    { intros y Fy Y. exists 0%nat. intros fuel _. unfold NF, niirf. cbn [mixed_zero float_zero bind]. destruct (float_zero_eq y Fy) as [[E _]|[_ N]]; [|contradiction]. rewrite E. reflexivity. }
    rewrite float_of_Z_zero in *. split; [apply G; auto|]. split; [apply G; auto|]. cbn. repeat split; auto. lra.
  - destruct (niirf_float_form m x it F Z Hit) as (n & t & y & r & Ft & Vt & Lt & Ey & Rr & Fr & Vr).
    destruct (niirf_float_form m x4 it F4 ltac:(lra) Hit) as (n' & t' & y' & r' & Ft' & Vt' & Lt' & Ey' & Rr' & Fr' & Vr').
    exists r, r'. split; auto. split; auto. split; auto. split; auto.
    assert (N : n' = n + 1).
    { rewrite V, Rabs_mult, (Rabs_pos_eq 4) in Vt' by lra. 
      assert (X : (0 < Rabs (B2R x))%R) by (apply Rabs_pos_lt; auto).
      assert (Q : B2R t' = (B2R t * bpow radix2 (2 * (n + 1 - n')))%R).
      { rewrite Vt', Vt. replace (-2 * n') with (-2 * n + (2 * (n + 1 - n') - 2)) by lia. unfold Z.sub at 1. rewrite !bpow_plus. change (bpow radix2 (- (2))) with (/ 4)%R. field. }
      assert (L1 : (bpow radix2 (2 * (n + 1 - n')) < bpow radix2 2)%R) by (change (bpow radix2 2) with 4%R; pose proof (bpow_gt_0 radix2 (2 * (n + 1 - n'))); nra).
      assert (L2 : (bpow radix2 (-2) < bpow radix2 (2 * (n + 1 - n')))%R) by (change (bpow radix2 (-2)) with (/ 4)%R; pose proof (bpow_gt_0 radix2 (2 * (n + 1 - n'))); nra).
      apply lt_bpow in L1, L2. lia. }
    assert (T : t' = t).
    { apply B2R_inj.
      - destruct t'; cbn in Ft', Lt' |- *; auto; try discriminate; exfalso; lra.
      - destruct t; cbn in Ft, Lt |- *; auto; try discriminate; exfalso; lra.
      - rewrite Vt', Vt, V, N, Rabs_mult, (Rabs_pos_eq 4) by lra. replace (-2 * (n + 1)) with (-2 * n + -2) by lia. rewrite bpow_plus. change (bpow radix2 (-2)) with (/ 4)%R. field. }
    subst t'. assert (y' = y) by congruence. subst y'. rewrite Vr, Vr', N, bpow_plus. change (bpow radix2 1) with 2%R. ring.
Qed.
Lemma niirf_float_conv : forall m (x : float) n, is_finite x = true -> exists r,
  returns (fun fuel => NF m fuel x (N.of_nat (n + 2))) r /\ is_finite r = true /\
  (Rabs (B2R r - sqrt (Rabs (B2R x))) <= (141 / 100000 * (/ 4) ^ n + / 1000000) * sqrt (Rabs (B2R x)))%R.
Proof using E10 P24 Hp He.
  intros m x n F. destruct (Req_dec (B2R x) 0) as [Z|Z].
  - destruct (niirf_float m x (N.of_nat (n + 2)) F ltac:(lia)) as (r & R & Fr & A & _). exists r. split; auto. split; auto.
    rewrite Z, Rabs_R0, sqrt_0, Rmult_0_r in *. exact A.
  - destruct (niirf_float_form m x (N.of_nat (n + 2)) F Z ltac:(lia)) as (k & t & y & r & Ft & Vt & Lt & Ey & Rr & Fr & Vr).
    exists r. split; auto. split; auto. destruct (fiterate_conv t n Ft Lt) as (y' & E & _ & A). assert (y' = y) by congruence. subst y'.
    pose proof (bpow_gt_0 radix2 k) as BP. set (a := Rabs (B2R x)) in *.
    assert (EA : (a = B2R t * (bpow radix2 k * bpow radix2 k))%R).
    { rewrite Vt, <- bpow_plus, Rmult_assoc, <- bpow_plus. replace (-2 * k + (k + k)) with 0 by lia. cbn. ring. }
    assert (SA : (sqrt a = sqrt (B2R t) * bpow radix2 k)%R).
    { rewrite EA, sqrt_mult by nra. f_equal. apply sqrt_square. lra. }
    rewrite SA, Vr. replace (B2R y * bpow radix2 k - sqrt (B2R t) * bpow radix2 k)%R with ((B2R y - sqrt (B2R t)) * bpow radix2 k)%R by ring.
    rewrite Rabs_mult, (Rabs_pos_eq (bpow _ _)), <- Rmult_assoc by lra. apply Rmult_le_compat_r; [lra|].
    assert (S : (1 / 2 <= sqrt (B2R t))%R). { replace (1 / 2)%R with (sqrt (/ 4)); [apply sqrt_le_1; lra|]. replace (/ 4)%R with (1 / 2 * (1 / 2))%R by lra. apply sqrt_square. lra. }
    assert (P : (0 < (/ 4) ^ n)%R) by (apply pow_lt; lra). set (p := ((/ 4) ^ n)%R) in *. nra.
Qed.

(** ** sign, NaN, infinities *)
Lemma niirf_float_opp : forall m fuel (x : float) it, NF m fuel (Bopp x) it = NF m fuel x it.
Proof.
  intros m fuel x it. unfold NF, niirf. cbn [mixed_zero float_zero bind mixed_abs float_abs].
  assert (E : o_eq O (Bopp x) (float_of_Z prec emax 0) = o_eq O x (float_of_Z prec emax 0)).
  { rewrite float_of_Z_zero. unfold o_eq. cbn [o_cmp float_ops]. destruct x as [[]|[]| |[] ? ? ?]; reflexivity. }
  assert (A : Babs (Bopp x) = Babs x) by (destruct x; reflexivity).
  rewrite E, A. reflexivity.
Qed.

Lemma beta_nan : exists b, beta O B754_nan = Ok b.
Proof. eexists. reflexivity. Qed.

Lemma niirf_float_nan : forall m it, returns (fun fuel => NF m fuel (B754_nan : float) it) B754_nan.
Proof using E10 P24 Hp He.
  intros m it. exists 1%nat. intros [|fuel] Hf; [lia|]. unfold NF, niirf. cbn [mixed_zero float_zero bind mixed_abs float_abs].
  rewrite float_of_Z_zero. change (o_eq O B754_nan (B754_zero false)) with false. cbn [Babs bind].
  unfold niirf_normalize. rewrite while_S. cbn [o_of_f64 float_ops bind snd]. 
  assert (C1 : forall q : float, o_lt O B754_nan q = false) by reflexivity.
  assert (C2 : forall q : float, o_le O q B754_nan = false) by (intros []; reflexivity).
  change {| o_add := _; o_sub := _; o_mul := _; o_div := _; o_cmp := _; o_of_i32 := _; o_of_f64 := _ |} with O.
  rewrite C1. cbn [bind]. rewrite while_S. cbn [o_of_f64 float_ops bind snd].
  change {| o_add := _; o_sub := _; o_mul := _; o_div := _; o_cmp := _; o_of_i32 := _; o_of_f64 := _ |} with O.
  rewrite C2. cbn [bind fst snd].
  assert (I : niirf_iterate O float_powi it B754_nan = Ok B754_nan).
  { unfold niirf_iterate. cbn [o_of_i32 o_mul o_div o_add o_of_f64 float_ops bind].
    assert (M : forall a : float, Bmult mode_NE a B754_nan = B754_nan) by (intros []; reflexivity). rewrite M.
    change (Bdiv mode_NE B754_nan (float_of_Z prec emax 3)) with (B754_nan : float). 
    change (Bplus mode_NE B754_nan (float_of_float prec emax lit_y0)) with (B754_nan : float). cbn [bind].
    apply for_fixpoint. destruct beta_nan as [b ->]. cbn [bind]. destruct (powi_small (B754_nan : float)) as [_ [_ [-> _]]]. cbn [bind o_sub o_mul o_add float_ops].
    change (Bmult mode_NE B754_nan B754_nan) with (B754_nan : float). change (Bminus mode_NE B754_nan B754_nan) with (B754_nan : float). rewrite M. reflexivity. }
  rewrite I. reflexivity.
Qed.

Lemma inf_norm : forall m fuel s, niirf_normalize O m (S fuel) (0, Babs (B754_infinity s)) =
  while (S fuel) (fun s : Z * float => one <- o_of_f64 O lit_one ;; Ok (o_le O one (snd s)))
    (fun s => n <- fin m i32 (fst s + 1) ;; four <- o_of_i32 O 4 ;; x <- o_div O (snd s) four ;; Ok (n, x)) (0, B754_infinity false).
Proof using E10 P24 Hp He.
  intros m fuel s. unfold niirf_normalize. rewrite while_S. cbn [o_of_f64 float_ops bind snd Babs].
  change {| o_add := _; o_sub := _; o_mul := _; o_div := _; o_cmp := _; o_of_i32 := _; o_of_f64 := _ |} with O.
  assert (C1 : o_lt O (B754_infinity false) (float_of_float prec emax lit_quarter) = false).
  { destruct quarter_lit as [Q _]. unfold o_lt. cbn [o_cmp float_ops]. destruct (float_of_float prec emax lit_quarter); try discriminate; reflexivity. }
  rewrite C1. reflexivity.
Qed.
Lemma inf_step : forall m n,
  (bind (o_of_f64 O lit_one) (fun one => Ok (o_le O one (B754_infinity false))) = Ok true) /\
  (bind (fin m i32 (n + 1)) (fun n => bind (o_of_i32 O 4) (fun four => bind (o_div O (B754_infinity false) four) (fun x => Ok (n, x)))) =
   bind (fin m i32 (n + 1)) (fun n => Ok (n, (B754_infinity false : float)))).
Proof using E10 P24 Hp He.
  intros m n. split.
  - cbn [o_of_f64 float_ops bind]. destruct one_lit as [Q _]. unfold o_le. cbn [o_cmp float_ops].
    destruct (float_of_float prec emax lit_one); try discriminate; reflexivity.
  - cbn [o_of_i32 o_div float_ops bind]. destruct (float_of_Z_exact (prec := prec) (emax := emax) 4) as [_ [Q1 Q2]].
    { apply Z.lt_le_trans with (2 ^ 24); [reflexivity|]. apply Z.pow_le_mono_r; lia. }
    assert (D : Bdiv mode_NE (B754_infinity false) (float_of_Z prec emax 4) = B754_infinity false); [|rewrite D; reflexivity].
    destruct (float_of_Z prec emax 4); try discriminate; cbn in Q2; subst; reflexivity.
Qed.

Lemma niirf_inf_unfold : forall m fuel s it, NF m (S fuel) (B754_infinity s) it =
  bind (while (S fuel) (fun s : Z * float => one <- o_of_f64 O lit_one ;; Ok (o_le O one (snd s)))
    (fun s => n <- fin m i32 (fst s + 1) ;; four <- o_of_i32 O 4 ;; x <- o_div O (snd s) four ;; Ok (n, x)) (0, B754_infinity false))
  (fun s => bind (niirf_iterate O float_powi it (snd s)) (fun y => bind (niirf_denormalize O m (S fuel) (fst s, y)) (fun s => Ok (snd s)))).
Proof using E10 P24 Hp He.
  intros. unfold NF, niirf. cbn [mixed_zero float_zero bind mixed_abs float_abs].
  rewrite float_of_Z_zero. assert (E : o_eq O (B754_infinity s) (B754_zero false) = false) by (destruct s; reflexivity).
  rewrite E. rewrite inf_norm. reflexivity.
Qed.

Lemma inf_release : forall fuel n, while fuel (fun s : Z * float => one <- o_of_f64 O lit_one ;; Ok (o_le O one (snd s)))
    (fun s => n <- fin Release i32 (fst s + 1) ;; four <- o_of_i32 O 4 ;; x <- o_div O (snd s) four ;; Ok (n, x)) (n, B754_infinity false) = OutOfFuel.
Proof using E10 P24 Hp He.
  induction fuel; intros n; [reflexivity|]. rewrite while_S. cbn [fst snd]. destruct (inf_step Release n) as [-> ->]. cbn [bind].
  unfold fin at 1. cbn [bind]. destruct (in_rangeb i32 (n + 1)); apply IHfuel.
Qed.
Lemma niirf_float_inf_release : forall s it, diverges (fun fuel => NF Release fuel (B754_infinity s : float) it).
Proof using E10 P24 Hp He.
  intros s it [|fuel].
  - unfold NF, niirf. cbn [mixed_zero float_zero bind mixed_abs float_abs].
    rewrite float_of_Z_zero. assert (E : o_eq O (B754_infinity s) (B754_zero false) = false) by (destruct s; reflexivity).
    rewrite E. reflexivity.
  - rewrite niirf_inf_unfold, inf_release. reflexivity.
Qed.

Lemma inf_debug : forall j fuel n, Z.of_nat j = 2 ^ 31 - 1 - n -> 0 <= n -> (j < fuel)%nat ->
  while fuel (fun s : Z * float => one <- o_of_f64 O lit_one ;; Ok (o_le O one (snd s)))
    (fun s => n <- fin Debug i32 (fst s + 1) ;; four <- o_of_i32 O 4 ;; x <- o_div O (snd s) four ;; Ok (n, x)) (n, B754_infinity false) = Panic POverflow.
Proof using E10 P24 Hp He.
  induction j; intros fuel n Hj N0 Hf; (destruct fuel as [|fuel]; [lia|]); rewrite while_S; cbn [fst snd];
    destruct (inf_step Debug n) as [-> ->]; cbn [bind].
  - rewrite fin_debug_over; [reflexivity|]. unfold in_range, imin, imax. cbn [isigned iwidth i32]. change (32 - 1) with 31. lia.
  - rewrite fin_ok; [|unfold in_range, imin, imax; cbn [isigned iwidth i32]; change (32 - 1) with 31; lia].
    cbn [bind]. apply IHj; lia.
Qed.
Lemma niirf_float_inf_debug : forall s it, panics (fun fuel => NF Debug fuel (B754_infinity s : float) it) POverflow.
Proof using E10 P24 Hp He.
  intros s it. exists (S (Z.to_nat (2 ^ 31))). intros [|fuel] Hf; [lia|]. rewrite niirf_inf_unfold.
  rewrite (inf_debug (Z.to_nat (2 ^ 31 - 1))); [reflexivity| lia | lia | lia].
Qed.
End NF.

Lemma niirf_f32 : forall m (x : f32) it, is_finite x = true -> (2 <= it)%N -> exists r : f32,
  returns (fun fuel => NF m fuel x it) r /\ is_finite r = true /\
  (Rabs (B2R r - sqrt (Rabs (B2R x))) <= / 1000 * sqrt (Rabs (B2R x)))%R.
Proof.
  intros m x it F I. destruct (niirf_float (prec := 24) (emax := 128) ltac:(lia) ltac:(lia) m x it F I) as [r [A [B [C _]]]]. eauto.
Qed.
Lemma niirf_f64 : forall m (x : f64) it, is_finite x = true -> (2 <= it)%N -> exists r : f64,
  returns (fun fuel => NF m fuel x it) r /\ is_finite r = true /\
  (Rabs (B2R r - sqrt (Rabs (B2R x))) <= / 1000 * sqrt (Rabs (B2R x)))%R.
Proof.
  intros m x it F I. destruct (niirf_float (prec := 53) (emax := 1024) ltac:(lia) ltac:(lia) m x it F I) as [r [A [B [C _]]]]. eauto.
Qed.
Lemma niirf_f32_norm : forall m (x : f32) it, is_finite x = true -> (2 <= it)%N -> (/ 4 <= Rabs (B2R x) < 1)%R -> exists r : f32,
  returns (fun fuel => NF m fuel x it) r /\ is_finite r = true /\
  (Rabs (B2R r - sqrt (Rabs (B2R x))) <= 703 / 1000000)%R /\
  ((3 <= it)%N -> (Rabs (B2R r - sqrt (Rabs (B2R x))) <= 177 / 1000000)%R).
Proof.
  intros m x it F I R. destruct (niirf_float (prec := 24) (emax := 128) ltac:(lia) ltac:(lia) m x it F I) as [r [A [B [_ C]]]].
  specialize (C R). destruct C. eauto 6.
Qed.
Lemma niirf_f64_norm : forall m (x : f64) it, is_finite x = true -> (2 <= it)%N -> (/ 4 <= Rabs (B2R x) < 1)%R -> exists r : f64,
  returns (fun fuel => NF m fuel x it) r /\ is_finite r = true /\
  (Rabs (B2R r - sqrt (Rabs (B2R x))) <= 703 / 1000000)%R /\
  ((3 <= it)%N -> (Rabs (B2R r - sqrt (Rabs (B2R x))) <= 177 / 1000000)%R).
Proof.
  intros m x it F I R. destruct (niirf_float (prec := 53) (emax := 1024) ltac:(lia) ltac:(lia) m x it F I) as [r [A [B [_ C]]]].
  specialize (C R). destruct C. eauto 6.
Qed.

Definition special_claim (prec emax : Z) (Hp : Prec_gt_0 prec) (He : Prec_lt_emax prec emax) : Prop := forall it,
  (forall m, returns (fun fuel => NF m fuel (B754_nan : binary_float prec emax) it) B754_nan) /\
  forall s, diverges (fun fuel => NF Release fuel (B754_infinity s : binary_float prec emax) it) /\
            panics (fun fuel => NF Debug fuel (B754_infinity s : binary_float prec emax) it) POverflow.
Lemma special_f32 : special_claim 24 128 _ _.
Proof.
  intros it. split; [intros m; apply niirf_float_nan; lia|]. intros s. 
  split; [apply niirf_float_inf_release; lia | apply niirf_float_inf_debug; lia].
Qed.
Lemma special_f64 : special_claim 53 1024 _ _.
Proof.
  intros it. split; [intros m; apply niirf_float_nan; lia|]. intros s. 
  split; [apply niirf_float_inf_release; lia | apply niirf_float_inf_debug; lia].
Qed.

Lemma niirf_neg_f32 : forall m fuel (x : f32) it, NF m fuel (Bopp x) it = NF m fuel x it.
Proof. intros. apply niirf_float_opp. Qed.
Lemma niirf_neg_f64 : forall m fuel (x : f64) it, NF m fuel (Bopp x) it = NF m fuel x it.
Proof. intros. apply niirf_float_opp. Qed.

Lemma niirf_scale_f32 : forall m (x x4 : f32) it, is_finite x = true -> is_finite x4 = true -> B2R x4 = (4 * B2R x)%R -> (2 <= it)%N ->
  exists r r4 : f32, returns (fun fuel => NF m fuel x it) r /\ returns (fun fuel => NF m fuel x4 it) r4 /\
  is_finite r = true /\ is_finite r4 = true /\ B2R r4 = (2 * B2R r)%R.
Proof. intros. apply niirf_float_scale; auto; lia. Qed.
Lemma niirf_scale_f64 : forall m (x x4 : f64) it, is_finite x = true -> is_finite x4 = true -> B2R x4 = (4 * B2R x)%R -> (2 <= it)%N ->
  exists r r4 : f64, returns (fun fuel => NF m fuel x it) r /\ returns (fun fuel => NF m fuel x4 it) r4 /\
  is_finite r = true /\ is_finite r4 = true /\ B2R r4 = (2 * B2R r)%R.
Proof. intros. apply niirf_float_scale; auto; lia. Qed.
Lemma niirf_conv_f32 : forall m (x : f32) n, is_finite x = true -> exists r : f32,
  returns (fun fuel => NF m fuel x (N.of_nat (n + 2))) r /\ is_finite r = true /\
  (Rabs (B2R r - sqrt (Rabs (B2R x))) <= (141 / 100000 * (/ 4) ^ n + / 1000000) * sqrt (Rabs (B2R x)))%R.
Proof. intros. apply niirf_float_conv; auto; lia. Qed.
Lemma niirf_conv_f64 : forall m (x : f64) n, is_finite x = true -> exists r : f64,
  returns (fun fuel => NF m fuel x (N.of_nat (n + 2))) r /\ is_finite r = true /\
  (Rabs (B2R r - sqrt (Rabs (B2R x))) <= (141 / 100000 * (/ 4) ^ n + / 1000000) * sqrt (Rabs (B2R x)))%R.
Proof. intros. apply niirf_float_conv; auto; lia. Qed.
