(** * The NIIRF square root on floats: convergence down to the rounding unit of the format. *)

From Coq Require Import ZArith Reals Lia Lra Psatz List Bool.
From Flocq Require Import Core.Core IEEE754.BinarySingleNaN.
From Verif Require Import Base FloatBase Literals Traits Trig FloatImpl Spec Lemmas FloatLemmas FloatProofs FloatWrap
  WrapProofs SqrtReal NiirfFixed NiirfInt FloatKit NiirfFloat.
Open Scope Z_scope.

Lemma niirf_next12 : forall k b s y bb d db, region k b s ->
  (Rabs (y - s) <= d -> d <= 704 / 1000000 -> Rabs (bb - bR b) <= db -> db <= / 10000000 ->
  Rabs ((y - s) * (1 - bb * (y + s))) <= d / 12)%R.
Proof.
  intros k b s y bb d db R Y D B DB.
  assert (0 <= d)%R by (pose proof (Rabs_pos (y - s)); lra).
  assert (0 <= db)%R by (pose proof (Rabs_pos (bb - bR b)); lra).
  replace (d / 12)%R with (d * (1/12))%R by lra. apply mul_bound; auto.
  eapply Rle_trans; [apply (slope_bound k b s y bb d db R Y B)|]. nra.
Qed.

Section NF.
Context {prec emax : Z} {Hp : Prec_gt_0 prec} {He : Prec_lt_emax prec emax}.
Notation float := (binary_float prec emax).
Notation fexp := (SpecFloat.fexp prec emax).
Notation rnd := (round radix2 fexp ZnearestE).
Hypothesis P24 : 24 <= prec <= 100.
Hypothesis E10 : prec + 20 <= emax <= 2000.
Notation O := (@float_ops prec emax Hp He).
Notation B2R := (@B2R prec emax).
Notation eps := (@eps prec).

Lemma err_two : forall v, (Rabs v <= 2)%R -> (Rabs (rnd v - v) <= eps)%R.
Proof using E10 P24 Hp He.
  intros v H. eapply Rle_trans; [apply (rnd_err v 1); [exact H|lia]|]. rewrite half1. apply Rle_refl.
Qed.
Lemma err_small : forall v, (Rabs v <= / 256)%R -> (Rabs (rnd v - v) <= eps / 512)%R.
Proof using E10 P24 Hp He.
  intros v H. eapply Rle_trans; [apply (rnd_err v (-8)); [exact H|lia]|]. unfold FloatKit.eps, Z.sub. rewrite bpow_plus.
  change (bpow radix2 (-8)) with (/ 256)%R. lra.
Qed.

Section Iter.
Variables (X bb : float) (k be : Z).
Hypothesis FX : is_finite X = true.
Hypothesis HX : (/ 4 <= B2R X < 1)%R.
Hypothesis HB : beta O X = Ok bb.
Hypothesis FB : is_finite bb = true.
Notation s := (sqrt (B2R X)).
Hypothesis Rg : region k be s.
Hypothesis Hb : (Rabs (B2R bb - bR be) <= / 10000000)%R.

Lemma fstep_tight : forall y, fgood X y ->
  exists y', fbody X y = Ok y' /\ is_finite y' = true /\ exists rho, (Rabs rho <= 198 / 100 * eps /\
  B2R y' - s = (B2R y - s) * (1 - B2R bb * (B2R y + s)) + rho)%R.
Proof using E10 P24 Hp He FX HX HB FB Rg Hb.
  intros y G. pose proof (fgood_range X k be HX Rg y G) as Hy. destruct G as [Fy [_ G2]].
  unfold fbody. rewrite HB. cbn [bind]. destruct (powi_small y) as [_ [_ [-> _]]]. cbn [bind o_sub o_mul o_add float_ops].
  pose proof (region_b _ _ _ Rg) as RB. pose proof (region_s _ _ _ Rg) as RS. apply Rabs_le_inv in Hb, G2. pose proof bp1 as B1.
  pose proof (@eps_bound prec ltac:(lia)) as EB.
  assert (S2 : (s * s = B2R X)%R) by (apply sqrt_sqrt; lra).
  assert (Y2 : (0 <= B2R y * B2R y <= 11 / 10)%R) by nra.
  assert (YD : (- (15 / 10000) <= B2R X - B2R y * B2R y <= 15 / 10000)%R).
  { rewrite <- S2. replace (s * s - B2R y * B2R y)%R with (- ((B2R y - s) * (B2R y + s)))%R by ring. 
    set (a := (B2R y - s)%R) in *. set (b := (B2R y + s)%R). assert (0 <= b <= 202 / 100)%R by (unfold b; lra). clearbody a b. split; nra. }
  destruct (mult_r y y Fy Fy 1 ltac:(lia)) as [F1 V1]. { rewrite B1, Rabs_pos_eq; lra. }
  pose proof (err_two (B2R y * B2R y)) as R1. rewrite <- V1 in R1. specialize (R1 ltac:(rewrite Rabs_pos_eq; lra)).
  set (y2 := Bmult mode_NE y y) in *. apply Rabs_le_inv in R1.
  destruct (minus_r X y2 FX F1 1 ltac:(lia)) as [F2 V2]. { rewrite B1. apply Rabs_le. lra. }
  pose proof (err_small (B2R X - B2R y2)) as R2. rewrite <- V2 in R2. specialize (R2 ltac:(apply Rabs_le; lra)).
  set (d := Bminus mode_NE X y2) in *. apply Rabs_le_inv in R2.
  assert (BD : (Rabs (B2R bb * B2R d) <= 1 * (16 / 10000))%R).
  { apply mul_bound; apply Rabs_le; lra. }
  destruct (mult_r bb d FB F2 1 ltac:(lia)) as [F3 V3]. { rewrite B1. lra. }
  pose proof (err_small (B2R bb * B2R d)) as R3. rewrite <- V3 in R3. specialize (R3 ltac:(lra)).
  set (p := Bmult mode_NE bb d) in *. apply Rabs_le_inv in R3, BD.
  destruct (plus_r p y F3 Fy 1 ltac:(lia)) as [F4 V4]. { rewrite B1. apply Rabs_le. lra. }
  pose proof (err_two (B2R p + B2R y)) as R4. rewrite <- V4 in R4. specialize (R4 ltac:(apply Rabs_le; lra)).
  set (y' := Bplus mode_NE p y) in *. apply Rabs_le_inv in R4.
  exists y'. split; auto. split; auto.
  exists ((B2R y' - (B2R p + B2R y)) + (B2R p - B2R bb * B2R d) + B2R bb * ((B2R d - (B2R X - B2R y2)) - (B2R y2 - B2R y * B2R y)))%R.
  split.
  - set (e1 := (B2R d - (B2R X - B2R y2) - (B2R y2 - B2R y * B2R y))%R).
    assert (E1 : (Rabs (B2R bb * e1) <= (9621 / 10000) * (513 / 512 * eps))%R) by (apply mul_bound; apply Rabs_le; unfold e1; lra).
    apply Rabs_le_inv in E1. apply Rabs_le. lra.
  - clear - S2. set (sv := sqrt (B2R X)) in *. clearbody sv. rewrite <- S2. ring.
Qed.
End Iter.

Lemma fiterate_tight : forall X n, is_finite X = true -> (/ 4 <= B2R X < 1)%R ->
  exists y, niirf_iterate O float_powi (N.of_nat (n + 2)) X = Ok y /\ fgood X y /\
  (Rabs (B2R y - sqrt (B2R X)) <= 703 / 1000000 * (/ 12) ^ n + 22 / 10 * eps)%R.
Proof using E10 P24 Hp He.
  intros X n FX HX. destruct (fbeta P24 E10 X FX HX) as [bb [k [be [HB [FB [Rg Hb]]]]]].
  destruct (fstart P24 E10 X (N.of_nat (n + 2)) FX HX) as (y0 & -> & F4 & Y0). replace (N.of_nat (n + 2) - 1)%N with (N.of_nat (S n)) by lia.
  pose proof (@eps_bound prec ltac:(lia)) as EB.
  induction n as [|n IH].
  - destruct (fiter P24 E10 X bb k be FX HX HB FB Rg Hb y0 1%N F4 Y0 ltac:(lia)) as [y [E [G _]]]. exists y. split; [exact E|]. split; auto.
    destruct G as [_ [_ G]]. rewrite pow_O. lra.
  - destruct IH as (z & E & G & A). replace (N.of_nat (S (S n))) with (N.succ (N.of_nat (S n))) by lia. rewrite for_succ, E. cbn [bind].
    destruct (fnext P24 E10 X bb k be FX HX HB FB Rg Hb z G) as (y' & E' & G' & _). exists y'. split; auto. split; auto.
    destruct (fstep_tight X bb k be FX HX HB FB Rg Hb z G) as (y2 & E2 & _ & rho & R1 & R2).
    assert (y2 = y') by congruence. subst y2. rewrite R2. clear - Rg A R1 Hb EB. rewrite <- tech_pow_Rmult.
    assert (P : (0 < (/ 12) ^ n <= 1)%R). { split; [apply pow_lt; lra|]. rewrite <- (pow1 n). apply pow_incr. lra. }
    set (p := ((/ 12) ^ n)%R) in *. set (e := eps) in *. clearbody p e.
    eapply Rle_trans; [apply add_bound; [eapply niirf_next12; [exact Rg|exact A| |exact Hb|]|exact R1]|]; lra.
Qed.

Lemma niirf_float_tight : forall m (x : float) n, is_finite x = true -> exists r,
  returns (fun fuel => NF m fuel x (N.of_nat (n + 2))) r /\ is_finite r = true /\
  (Rabs (B2R r - sqrt (Rabs (B2R x))) <= (1406 / 1000000 * (/ 12) ^ n + 44 / 10 * bpow radix2 (- prec)) * sqrt (Rabs (B2R x)))%R.
Proof using E10 P24 Hp He.
  intros m x n F. destruct (Req_dec (B2R x) 0) as [Z|Z].
  - destruct (niirf_float P24 E10 m x (N.of_nat (n + 2)) F ltac:(lia)) as (r & R & Fr & A & _). exists r. split; auto. split; auto.
    rewrite Z, Rabs_R0, sqrt_0, Rmult_0_r in *. exact A.
  - destruct (niirf_float_form P24 E10 m x (N.of_nat (n + 2)) F Z ltac:(lia)) as (k & t & y & r & Ft & Vt & Lt & Ey & Rr & Fr & Vr).
    exists r. split; auto. split; auto. destruct (fiterate_tight t n Ft Lt) as (y' & E & _ & A). assert (y' = y) by congruence. subst y'.
    pose proof (bpow_gt_0 radix2 k) as BP. set (a := Rabs (B2R x)) in *.
    assert (EA : (a = B2R t * (bpow radix2 k * bpow radix2 k))%R).
    { rewrite Vt, <- bpow_plus, Rmult_assoc, <- bpow_plus. replace (-2 * k + (k + k)) with 0 by lia. cbn. ring. }
    assert (SA : (sqrt a = sqrt (B2R t) * bpow radix2 k)%R).
    { rewrite EA, sqrt_mult by nra. f_equal. apply sqrt_square. lra. }
    rewrite SA, Vr. replace (B2R y * bpow radix2 k - sqrt (B2R t) * bpow radix2 k)%R with ((B2R y - sqrt (B2R t)) * bpow radix2 k)%R by ring.
    rewrite Rabs_mult, (Rabs_pos_eq (bpow _ k)), <- Rmult_assoc by lra. apply Rmult_le_compat_r; [lra|].
    assert (S : (1 / 2 <= sqrt (B2R t))%R). { replace (1 / 2)%R with (sqrt (/ 4)); [apply sqrt_le_1; lra|]. replace (/ 4)%R with (1 / 2 * (1 / 2))%R by lra. apply sqrt_square. lra. }
    assert (P : (0 < (/ 12) ^ n)%R) by (apply pow_lt; lra). set (p := ((/ 12) ^ n)%R) in *. unfold FloatKit.eps in A.
    pose proof (bpow_gt_0 radix2 (- prec)) as B0. set (e := bpow radix2 (- prec)) in *. nra.
Qed.
End NF.

Lemma niirf_tight_f32 : forall m (x : f32) n, is_finite x = true -> exists r : f32,
  returns (fun fuel => NF m fuel x (N.of_nat (n + 2))) r /\ is_finite r = true /\
  (Rabs (B2R r - sqrt (Rabs (B2R x))) <= (1406 / 1000000 * (/ 12) ^ n + 44 / 10 * bpow radix2 (-24)) * sqrt (Rabs (B2R x)))%R.
Proof. intros. apply (niirf_float_tight (prec := 24) (emax := 128)); auto; lia. Qed.
Lemma niirf_tight_f64 : forall m (x : f64) n, is_finite x = true -> exists r : f64,
  returns (fun fuel => NF m fuel x (N.of_nat (n + 2))) r /\ is_finite r = true /\
  (Rabs (B2R r - sqrt (Rabs (B2R x))) <= (1406 / 1000000 * (/ 12) ^ n + 44 / 10 * bpow radix2 (-53)) * sqrt (Rabs (B2R x)))%R.
Proof. intros. apply (niirf_float_tight (prec := 53) (emax := 1024)); auto; lia. Qed.
