(** * Interpolation, averages and smoothing on floats; smoothing against its real-number counterpart. *)

From Coq Require Import ZArith Reals List Lia Lra Psatz Bool.
From Flocq Require Import Core.Core Sterbenz IEEE754.BinarySingleNaN.
From Verif Require Import Base FloatBase Literals Traits FixedPrim FixedImpl FloatImpl Spec Lemmas ScalarProofs FloatLemmas FloatKit MagProofs FloatArith PowFloat SpecBlend BlendProofs.
From Verif Require FloatSum.
Import ListNotations.
Open Scope Z_scope.

Lemma mean_between : forall a b t, (0 <= t <= 1 -> Rabs (a + (b - a) * t) <= Rmax (Rabs a) (Rabs b))%R.
Proof.
  intros a b t T. replace (a + (b - a) * t)%R with (a * (1 - t) + b * t)%R by ring. eapply Rle_trans; [apply Rabs_triang|].
  rewrite !Rabs_mult, (Rabs_pos_eq (1 - t)), (Rabs_pos_eq t) by lra. pose proof (Rmax_l (Rabs a) (Rabs b)). pose proof (Rmax_r (Rabs a) (Rabs b)). nra.
Qed.

Section F.
Context {prec emax : Z} {Hp : Prec_gt_0 prec} {He : Prec_lt_emax prec emax}.
Notation float := (binary_float prec emax).
Notation rnd := (round radix2 (SpecFloat.fexp prec emax) ZnearestE).
Notation u := (bpow radix2 (- prec)).
Notation eta := (bpow radix2 (3 - emax - prec)).
Hypothesis P24 : 24 <= prec.
Hypothesis E128 : 128 <= emax.
Let Vexp : Valid_exp (SpecFloat.fexp prec emax) := fexp_correct prec emax _.
Notation O := (float_ops (prec := prec) (emax := emax)).

Lemma u_small : (0 < u <= / 16777216)%R.
Proof using P24. split; [apply bpow_gt_0|]. change (/ 16777216)%R with (bpow radix2 (-24)). apply bpow_le. lia. Qed.

(** everything about one interpolation *)
Lemma lerp_parts : forall (a b t : float) k, is_finite a = true -> is_finite b = true -> is_finite t = true -> (0 <= B2R t <= 1)%R ->
  (Rabs (B2R a) <= bpow radix2 k)%R -> (Rabs (B2R b) <= bpow radix2 k)%R -> 2 - emax <= k -> k + 2 < emax ->
  exists r, lerp O a b t = Ok r /\ is_finite r = true /\ B2R r = rnd (B2R a + rnd (rnd (B2R b - B2R a) * B2R t)) /\
  (Rabs (rnd (B2R a + rnd (rnd (B2R b - B2R a) * B2R t)) - (B2R a + rnd (rnd (B2R b - B2R a) * B2R t))) <= u * Rabs (B2R a + rnd (rnd (B2R b - B2R a) * B2R t)))%R /\
  (Rabs (rnd (B2R b - B2R a) - (B2R b - B2R a)) <= u * Rabs (B2R b - B2R a))%R.
Proof using Vexp.
  intros a b t k Fa Fb Ft T A B K1 K2.
  assert (P1 : bpow radix2 (k + 1) = (2 * bpow radix2 k)%R) by (rewrite bpow_plus; change (bpow radix2 1) with 2%R; ring).
  assert (P2 : bpow radix2 (k + 2) = (4 * bpow radix2 k)%R) by (rewrite bpow_plus; change (bpow radix2 2) with 4%R; ring).
  assert (DB : (Rabs (B2R b - B2R a) <= bpow radix2 (k + 1))%R).
  { unfold Rminus. eapply Rle_trans; [apply Rabs_triang|]. rewrite Rabs_Ropp. lra. }
  destruct (minus_r b a Fb Fa (k + 1) ltac:(lia) DB) as [FD VD]. set (d := Bminus mode_NE b a) in *.
  assert (DB' : (Rabs (B2R d) <= bpow radix2 (k + 1))%R) by (rewrite VD; apply rnd_le; auto; lia).
  assert (PB : (Rabs (B2R d * B2R t) <= bpow radix2 (k + 1))%R).
  { rewrite Rabs_mult, (Rabs_pos_eq (B2R t)) by lra. pose proof (Rabs_pos (B2R d)). nra. }
  destruct (mult_r d t FD Ft (k + 1) ltac:(lia) PB) as [FP VP]. set (p := Bmult mode_NE d t) in *.
  assert (PB' : (Rabs (B2R p) <= bpow radix2 (k + 1))%R) by (rewrite VP; apply rnd_le; auto; lia).
  assert (RB : (Rabs (B2R a + B2R p) <= bpow radix2 (k + 2))%R) by (eapply Rle_trans; [apply Rabs_triang|]; pose proof (bpow_gt_0 radix2 k); lra).
  destruct (plus_r a p Fa FP (k + 2) ltac:(lia) RB) as [FR VR].
  exists (Bplus mode_NE a p). split; [reflexivity|]. split; auto. rewrite VD in VP. split; [rewrite VR, VP; reflexivity|]. split.
  - rewrite <- VP. apply FloatSum.plus_rel; auto.
  - pose proof (FloatSum.plus_rel b (Bopp a) Fb ltac:(rewrite is_finite_Bopp; auto)) as Q. rewrite B2R_Bopp in Q. exact Q.
Qed.

Lemma lerp_float : forall (a b t : float) k, is_finite a = true -> is_finite b = true -> is_finite t = true -> (0 <= B2R t <= 1)%R ->
  (Rabs (B2R a) <= bpow radix2 k)%R -> (Rabs (B2R b) <= bpow radix2 k)%R -> 2 - emax <= k -> k + 2 < emax ->
  exists r, lerp O a b t = Ok r /\ is_finite r = true /\
  (Rabs (B2R r - (B2R a + (B2R b - B2R a) * B2R t)) <= 4 * u * (Rabs (B2R a) + Rabs (B2R b)) + eta)%R /\
  (B2R t = 0 -> B2R r = B2R a)%R /\ (B2R a = B2R b -> B2R r = B2R a)%R /\
  (B2R t = 1 -> B2R b / 2 <= B2R a <= 2 * B2R b -> B2R r = B2R b)%R.
Proof using Vexp P24 E128.
  intros a b t k Fa Fb Ft T A B K1 K2. destruct (lerp_parts a b t k Fa Fb Ft T A B K1 K2) as (r & E & F & V & R3 & R1). exists r. split; auto. split; auto.
  pose proof u_small as US. pose proof (bpow_gt_0 radix2 (3 - emax - prec)) as ET.
  pose proof (MagProofs.rnd_rel (prec := prec) (emax := emax) (rnd (B2R b - B2R a) * B2R t)) as R2.
  assert (GA : generic_format radix2 (SpecFloat.fexp prec emax) (B2R a)) by apply generic_format_B2R.
  assert (GB : generic_format radix2 (SpecFloat.fexp prec emax) (B2R b)) by apply generic_format_B2R.
  assert (R0 : forall v, v = 0%R -> rnd (B2R a + rnd (rnd (B2R b - B2R a) * v)) = B2R a).
  { intros v ->. rewrite Rmult_0_r, round_0, Rplus_0_r by apply valid_rnd_N. apply round_generic; auto. apply valid_rnd_N. }
  split; [|split; [|split]].
  - rewrite V. set (x := B2R a) in *. set (y := B2R b) in *. set (s := B2R t) in *. set (d := rnd (y - x)) in *. set (p := rnd (d * s)) in *. set (w := rnd (x + p)) in *.
    set (D := Rabs (y - x)) in *. assert (D0 : (0 <= D)%R) by apply Rabs_pos. assert (DM : (D <= Rabs x + Rabs y)%R) by (unfold D, Rminus; eapply Rle_trans; [apply Rabs_triang|]; rewrite Rabs_Ropp; lra).
    set (M := (Rabs x + Rabs y)%R) in *. assert (AD : (Rabs d <= (1 + u) * D)%R).
    { replace d with ((d - (y - x)) + (y - x))%R by ring. eapply Rle_trans; [apply Rabs_triang|]. fold D. lra. }
    rewrite Rabs_mult, (Rabs_pos_eq s) in R2 by lra. pose proof (Rabs_pos d) as D1.
    assert (E1 : (Rabs (d * s - (y - x) * s) <= u * D)%R).
    { replace (d * s - (y - x) * s)%R with ((d - (y - x)) * s)%R by ring. rewrite Rabs_mult, (Rabs_pos_eq s) by lra. pose proof (Rabs_pos (d - (y - x))). nra. }
    assert (E2 : (Rabs (p - (y - x) * s) <= (2 * u + u * u) * M + / 2 * eta)%R).
    { replace (p - (y - x) * s)%R with ((p - d * s) + (d * s - (y - x) * s))%R by ring. eapply Rle_trans; [apply Rabs_triang|].
      assert (Rabs d * s <= (1 + u) * M)%R by nra. assert (u * (Rabs d * s) <= u * ((1 + u) * M))%R by (apply Rmult_le_compat_l; lra). assert (u * D <= u * M)%R by (apply Rmult_le_compat_l; lra). lra. }
    assert (E3 : (Rabs (x + p) <= M + (2 * u + u * u) * M + / 2 * eta)%R).
    { replace (x + p)%R with ((x + (y - x) * s) + (p - (y - x) * s))%R by ring. eapply Rle_trans; [apply Rabs_triang|].
      pose proof (mean_between x y s T) as MB. assert (Rmax (Rabs x) (Rabs y) <= M)%R by (unfold M; pose proof (Rabs_pos x); pose proof (Rabs_pos y); apply Rmax_lub; lra). lra. }
    replace (w - (x + (y - x) * s))%R with ((w - (x + p)) + (p - (y - x) * s))%R by ring. eapply Rle_trans; [apply Rabs_triang|].
    apply (Rmult_le_compat_l u) in E3; [|lra]. assert (M0 : (0 <= M)%R) by lra. set (v := u) in *. set (h := eta) in *.
    assert (v * (M + (2 * v + v * v) * M + / 2 * h) + (2 * v + v * v) * M + / 2 * h = (3 * v + (3 + v) * (v * v)) * M + (/ 2 + / 2 * v) * h)%R by ring.
    assert ((3 + v) * (v * v) <= v)%R by nra. assert ((3 * v + (3 + v) * (v * v)) * M <= 4 * v * M)%R by (apply Rmult_le_compat_r; lra).
    assert ((/ 2 + / 2 * v) * h <= h)%R by nra. lra.
  - intros T0. rewrite V. apply R0. auto.
  - intros AB. rewrite V. rewrite <- AB, Rminus_diag_eq, round_0, Rmult_0_l, round_0, Rplus_0_r by (reflexivity || apply valid_rnd_N). apply round_generic; auto. apply valid_rnd_N.
  - intros T1 [S1 S2]. rewrite V, T1, Rmult_1_r.
    assert (GD : generic_format radix2 (SpecFloat.fexp prec emax) (B2R b - B2R a)).
    { replace (B2R b - B2R a)%R with (- (B2R a - B2R b))%R by ring. apply generic_format_opp. apply sterbenz; auto. apply (@FLT_exp_monotone (3 - emax - prec) prec). }
    rewrite (round_generic radix2 _ _ (B2R b - B2R a)) by (auto; apply valid_rnd_N). rewrite (round_generic radix2 _ _ (B2R b - B2R a)) by (auto; apply valid_rnd_N).
    replace (B2R a + (B2R b - B2R a))%R with (B2R b) by ring. apply round_generic; auto. apply valid_rnd_N.
Qed.
Lemma lerp_mono_float : forall (a b t t' : float) k, is_finite a = true -> is_finite b = true -> is_finite t = true -> is_finite t' = true -> (0 <= B2R t <= B2R t')%R -> (B2R t' <= 1)%R ->
  (Rabs (B2R a) <= bpow radix2 k)%R -> (Rabs (B2R b) <= bpow radix2 k)%R -> 2 - emax <= k -> k + 2 < emax ->
  exists r r', lerp O a b t = Ok r /\ lerp O a b t' = Ok r' /\ (B2R a <= B2R b -> B2R r <= B2R r')%R /\ (B2R b <= B2R a -> B2R r' <= B2R r)%R.
Proof using Vexp.
  intros a b t t' k Fa Fb Ft Ft' T T' A B K1 K2. destruct (lerp_parts a b t k Fa Fb Ft ltac:(lra) A B K1 K2) as (r & E & _ & V & _).
  destruct (lerp_parts a b t' k Fa Fb Ft' ltac:(lra) A B K1 K2) as (r' & E' & _ & V' & _). exists r, r'. split; auto. split; auto. rewrite V, V'.
  pose proof (valid_rnd_N (fun x => negb (Z.even x))) as VN.
  split; intros H; apply round_le; auto; apply Rplus_le_compat_l, round_le; auto.
  - apply Rmult_le_compat_l; [|lra]. rewrite <- (round_0 radix2 (SpecFloat.fexp prec emax) ZnearestE). apply round_le; auto. lra.
  - assert (rnd (B2R b - B2R a) <= 0)%R by (rewrite <- (round_0 radix2 (SpecFloat.fexp prec emax) ZnearestE); apply round_le; auto; lra). nra.
Qed.

(** ** averages *)
Lemma total_fold : forall (l : list float) acc, total O acc l = Ok (fold_left (fun a b => Bplus mode_NE a b) l acc).
Proof using. induction l as [|x l IH]; intros acc; [reflexivity|]. cbn [total fold_left]. cbn [o_add float_ops bind]. apply IH. Qed.

Lemma mean_float : forall (l : list float), l <> [] -> (forall x, In x l -> is_finite x = true) -> Z.of_nat (length l) < 2 ^ (prec - 2) ->
  let n := INR (length l) in let A := sumR (map (fun x => Rabs (B2R x)) l) in (A <= bpow radix2 (emax - 2))%R ->
  exists r, mean O (B754_zero false) l = Ok r /\ is_finite r = true /\
  (Rabs (B2R r - sumR (map B2R l) / n) <= 2 * (n + 1) * u * (A / n) + eta)%R.
Proof using Vexp P24 E128.
  intros l NE F LN n A HA. pose proof u_small as US. pose proof (bpow_gt_0 radix2 (3 - emax - prec)) as ET.
  assert (N1 : (1 <= n)%R) by (unfold n; destruct l; [congruence|]; cbn [length]; rewrite S_INR; pose proof (pos_INR (length l)); lra).
  assert (NZ : n = IZR (Z.of_nat (length l))) by apply INR_IZR_INZ.
  assert (NU : (n * u <= / 4)%R).
  { rewrite NZ. apply Rle_trans with (bpow radix2 (prec - 2) * u)%R.
    - apply Rmult_le_compat_r; [lra|]. rewrite <- (IZR_Zpower radix2 (prec - 2)) by lia. apply IZR_le. change (Zpower radix2 (prec - 2)) with (2 ^ (prec - 2)). lia.
    - rewrite <- bpow_plus. replace (prec - 2 + - prec) with (-2) by ring. change (bpow radix2 (-2)) with (/ 4)%R. lra. }
  assert (A0 : (0 <= A)%R) by (unfold A; clear; induction l as [|y l IH]; unfold sumR in *; cbn [map fold_right]; [lra | pose proof (Rabs_pos (B2R y)); lra]).
  destruct (FloatSum.fold_acc (prec := prec) (emax := emax) ltac:(lia) l (B754_zero false) 0 0 0) as [G1 G2]; auto.
  - rewrite Rabs_R0. lra.
  - change (B2R (B754_zero false : float)) with 0%R. rewrite Rminus_0_r, Rabs_R0. cbn. lra.
  - rewrite Rplus_0_l. exact HA.
  - cbn [Nat.add]. fold n. lra.
  - cbn [Nat.add] in G2. rewrite !Rplus_0_l in G2. change (fold_right Rplus 0%R) with sumR in G2. fold A in G2.
    pose proof (bern_high u (length l) ltac:(lra) ltac:(fold n; lra)) as BH. fold n in BH.
    set (s := fold_left (fun a b => Bplus mode_NE a b) l (B754_zero false)) in *. set (S := sumR (map B2R l)) in *.
    assert (SE : (Rabs (B2R s - S) <= 2 * (n * u) * A)%R) by (eapply Rle_trans; [exact G2|]; apply Rmult_le_compat_r; lra).
    assert (SA : (Rabs S <= A)%R).
    { unfold S, A. clear. unfold sumR. induction l as [|y l IH]; cbn [map fold_right]; [rewrite Rabs_R0; lra|]. eapply Rle_trans; [apply Rabs_triang|]. lra. }
    assert (SB : (Rabs (B2R s) <= (1 + 2 * (n * u)) * A)%R).
    { replace (B2R s) with ((B2R s - S) + S)%R by ring. eapply Rle_trans; [apply Rabs_triang|]. lra. }
    destruct (float_of_Z_exact (prec := prec) (emax := emax) (Z.of_nat (length l))) as (VN & FN & _).
    { rewrite Z.abs_eq by lia. eapply Z.lt_le_trans; [exact LN|]. apply Z.pow_le_mono_r; lia. }
    rewrite <- NZ in VN.
    assert (QB : (Rabs (B2R s / n) <= (1 + 2 * (n * u)) * (A / n))%R).
    { unfold Rdiv. rewrite Rabs_mult, Rabs_inv, (Rabs_pos_eq n) by lra. rewrite <- Rmult_assoc. apply Rmult_le_compat_r; [|exact SB]. left. apply Rinv_0_lt_compat. lra. }
    assert (AN : (0 <= A / n <= A)%R).
    { split; [apply Rmult_le_pos; [lra | left; apply Rinv_0_lt_compat; lra]|]. apply Rmult_le_reg_r with n; [lra|]. unfold Rdiv. rewrite Rmult_assoc, Rinv_l by lra. nra. }
    assert (QE : (Rabs (B2R s / n) <= bpow radix2 (emax - 1))%R).
    { eapply Rle_trans; [exact QB|]. replace (emax - 1) with (emax - 2 + 1) by ring. rewrite bpow_plus. change (bpow radix2 1) with 2%R. nra. }
    destruct (div_r s (float_of_Z prec emax (Z.of_nat (length l))) G1 ltac:(rewrite VN; lra) (emax - 1) ltac:(lia) ltac:(rewrite VN; exact QE)) as [FR VR].
    eexists. split; [unfold mean; rewrite total_fold; cbn [bind o_of_i32 float_ops o_div]; reflexivity|]. fold s. split; [exact FR|]. rewrite VR, VN.
    pose proof (MagProofs.rnd_rel (prec := prec) (emax := emax) (B2R s / n)) as RR.
    replace (rnd (B2R s / n) - S / n)%R with ((rnd (B2R s / n) - B2R s / n) + (B2R s - S) / n)%R by (field; lra). eapply Rle_trans; [apply Rabs_triang|].
    assert (E2 : (Rabs ((B2R s - S) / n) <= 2 * (n * u) * (A / n))%R).
    { unfold Rdiv. rewrite Rabs_mult, Rabs_inv, (Rabs_pos_eq n) by lra. rewrite <- Rmult_assoc. apply Rmult_le_compat_r; [|exact SE]. left. apply Rinv_0_lt_compat. lra. }
    set (q := (A / n)%R) in *. set (v := u) in *. assert (v * Rabs (B2R s / n) <= v * ((1 + 2 * (n * v)) * q))%R by (apply Rmult_le_compat_l; lra).
    assert (v * ((1 + 2 * (n * v)) * q) <= 2 * v * q)%R by (replace (v * ((1 + 2 * (n * v)) * q))%R with ((1 + 2 * (n * v)) * (v * q))%R by ring; rewrite Rmult_assoc; apply Rmult_le_compat_r; [apply Rmult_le_pos; lra | lra]). lra.
Qed.
End F.

(** ** smoothing against the real recursion *)
Lemma smoothR_const : forall n alpha y x, smoothR alpha y (repeat x n) = (x + (1 - alpha) ^ n * (y - x))%R.
Proof. induction n as [|n IH]; intros alpha y x; cbn [repeat smoothR pow]; [ring|]. rewrite IH. ring. Qed.

(** a disturbed recursion stays within e/alpha of the undisturbed one *)
Section Track.
Variables (alpha e : R).
Hypothesis Ha : (0 < alpha <= 1)%R.
Lemma track_step : forall y Y x w, (Rabs (y - Y) <= e / alpha -> Rabs (w - (y + (x - y) * alpha)) <= e -> Rabs (w - (Y + (x - Y) * alpha)) <= e / alpha)%R.
Proof using Ha.
  intros y Y x w H W. replace (w - (Y + (x - Y) * alpha))%R with ((w - (y + (x - y) * alpha)) + (1 - alpha) * (y - Y))%R by ring.
  eapply Rle_trans; [apply Rabs_triang|]. rewrite Rabs_mult, (Rabs_pos_eq (1 - alpha)) by lra.
  assert ((1 - alpha) * Rabs (y - Y) <= (1 - alpha) * (e / alpha))%R by (apply Rmult_le_compat_l; lra).
  replace (e / alpha)%R with (e + (1 - alpha) * (e / alpha))%R at 1 by (field; lra). lra.
Qed.
End Track.

Section SmoothFixed.
Variables (m : mode) (f : fty) (alpha lo hi : Z).
Hypothesis Hf : supported f = true.
Hypothesis Ha : 0 < alpha <= fone f.
Hypothesis Hlo : fvalid f lo.
Hypothesis Hhi : fvalid f hi.
Hypothesis Hd : fvalid f (hi - lo).
Hypothesis Hd' : fvalid f (lo - hi).
Let al := fval f alpha.
Lemma al_range : (0 < al <= 1)%R.
Proof using Hf Ha.
  unfold al, fval. pose proof (bpow_gt_0 radix2 (- ffrac f)) as W. assert (FW : (IZR (fone f) * bpow radix2 (- ffrac f) = 1)%R).
  { unfold fone. change 2 with (radix_val radix2) at 1. rewrite IZR_Zpower by (pose proof (width_pos f Hf); lia). rewrite <- bpow_plus, Z.add_opp_diag_r. reflexivity. }
  split; [apply Rmult_lt_0_compat; [apply IZR_lt; lia | exact W]|]. rewrite <- FW. apply Rmult_le_compat_r; [lra|]. apply IZR_le. lia.
Qed.
Lemma smooth_track_fixed : forall l y Y, lo <= y <= hi -> (forall x, In x l -> lo <= x <= hi) -> (0 <= Y - fval f y <= ulp f / al)%R ->
  exists r, smooth (fixed_ops m f) alpha y l = Ok r /\ lo <= r <= hi /\ (0 <= smoothR al Y (map (fval f) l) - fval f r <= ulp f / al)%R.
Proof using Hf Ha Hlo Hhi Hd Hd'.
  pose proof al_range as AR. induction l as [|x l IH]; intros y Y HY HL HE; [exists y; auto|].
  destruct (step_ok m f Hf alpha lo hi ltac:(lia) Hlo Hhi Hd Hd' y x HY (HL x (or_introl eq_refl))) as [E B].
  destruct (lerp_all m f Hf y x alpha) as (w & EW & _ & _ & _ & _ & AC).
  - apply (between_valid f lo hi); auto.
  - apply (between_valid f lo hi); auto; apply HL; left; auto.
  - apply (between_valid f (lo - hi) (hi - lo)); auto. pose proof (HL x (or_introl eq_refl)). lia.
  - lia.
  - rewrite E in EW. injection EW as EW. cbn [smooth map smoothR]. rewrite E. cbn [bind]. rewrite EW in *. clear EW. fold al in AC.
    apply IH; auto; [intros z Z; apply HL; right; auto|].
    replace (Y + (fval f x - Y) * al - fval f w)%R with ((1 - al) * (Y - fval f y) + (fval f y + (fval f x - fval f y) * al - fval f w))%R by ring.
    assert ((1 - al) * (Y - fval f y) <= (1 - al) * (ulp f / al))%R by (apply Rmult_le_compat_l; lra). assert (0 <= (1 - al) * (Y - fval f y))%R by (apply Rmult_le_pos; lra).
    replace (ulp f / al)%R with (ulp f + (1 - al) * (ulp f / al))%R by (field; lra). lra.
Qed.
End SmoothFixed.

Section SmoothFloat.
Context {prec emax : Z} {Hp : Prec_gt_0 prec} {He : Prec_lt_emax prec emax}.
Notation float := (binary_float prec emax).
Notation u := (bpow radix2 (- prec)).
Notation eta := (bpow radix2 (3 - emax - prec)).
Notation O := (float_ops (prec := prec) (emax := emax)).
Hypothesis P24 : 24 <= prec.
Hypothesis E128 : 128 <= emax.
Variables (alpha : float) (k : Z).
Notation B := (bpow radix2 k).
Notation e := (16 * u * B + eta)%R.
Hypothesis Fa : is_finite alpha = true.
Hypothesis Ha : (0 < B2R alpha <= 1)%R.
Hypothesis K1 : 1 - emax <= k.
Hypothesis K2 : k + 3 < emax.
Hypothesis HE : (e <= B2R alpha * B)%R.
Lemma smooth_track_float : forall (l : list float) y Y, is_finite y = true -> (Rabs (B2R y) <= 2 * B)%R -> (Rabs Y <= B)%R -> (Rabs (B2R y - Y) <= e / B2R alpha)%R ->
  (forall x, In x l -> is_finite x = true /\ (Rabs (B2R x) <= B)%R) ->
  exists r, smooth O alpha y l = Ok r /\ is_finite r = true /\ (Rabs (B2R r) <= 2 * B)%R /\ (Rabs (B2R r - smoothR (B2R alpha) Y (map B2R l)) <= e / B2R alpha)%R.
Proof using Hp He P24 E128 Fa Ha K1 K2 HE.
  assert (B0 : (0 < B)%R) by apply bpow_gt_0. assert (P1 : bpow radix2 (k + 1) = (2 * B)%R) by (rewrite bpow_plus; change (bpow radix2 1) with 2%R; ring).
  pose proof (bpow_gt_0 radix2 (- prec)) as U0.
  assert (EA : (e / B2R alpha <= B)%R).
  { apply Rmult_le_reg_r with (B2R alpha); [lra|]. unfold Rdiv. rewrite Rmult_assoc, Rinv_l by lra. lra. }
  induction l as [|x l IH]; intros y Y Fy By BY TR FL; [exists y; auto|].
  destruct (FL x (or_introl eq_refl)) as [Fx Bx].
  destruct (lerp_float P24 E128 y x alpha (k + 1) Fy Fx Fa ltac:(lra) ltac:(lra) ltac:(lra) ltac:(lia) ltac:(lia)) as (w & E & Fw & AC & _).
  assert (ACe : (Rabs (B2R w - (B2R y + (B2R x - B2R y) * B2R alpha)) <= e)%R).
  { eapply Rle_trans; [exact AC|]. apply Rplus_le_compat_r. assert (Rabs (B2R y) + Rabs (B2R x) <= 4 * B)%R by lra. replace (16 * u * B)%R with (4 * u * (4 * B))%R by ring. apply Rmult_le_compat_l; lra. }
  pose proof (track_step (B2R alpha) e Ha (B2R y) Y (B2R x) (B2R w) TR ACe) as TS.
  assert (BY' : (Rabs (Y + (B2R x - Y) * B2R alpha) <= B)%R).
  { eapply Rle_trans; [apply mean_between; lra|]. apply Rmax_lub; auto. }
  destruct (IH w (Y + (B2R x - Y) * B2R alpha)%R Fw) as (r & ER & R); auto.
  - replace (B2R w) with ((B2R w - (Y + (B2R x - Y) * B2R alpha)) + (Y + (B2R x - Y) * B2R alpha))%R by ring. eapply Rle_trans; [apply Rabs_triang|]. lra.
  - intros z Z. apply FL. right; auto.
  - exists r. split; auto. cbn [smooth]. rewrite E. exact ER.
Qed.
Lemma smooth_float : forall (l : list float) y, is_finite y = true -> (Rabs (B2R y) <= B)%R -> (forall x, In x l -> is_finite x = true /\ (Rabs (B2R x) <= B)%R) ->
  exists r, smooth O alpha y l = Ok r /\ is_finite r = true /\ (Rabs (B2R r) <= 2 * B)%R /\ (Rabs (B2R r - smoothR (B2R alpha) (B2R y) (map B2R l)) <= e / B2R alpha)%R.
Proof using Hp He P24 E128 Fa Ha K1 K2 HE.
  intros l y Fy By FL. pose proof (bpow_gt_0 radix2 k). pose proof (bpow_gt_0 radix2 (- prec)). pose proof (bpow_gt_0 radix2 (3 - emax - prec)). apply smooth_track_float; auto; [lra|].
  rewrite Rminus_diag_eq, Rabs_R0 by reflexivity. apply Rmult_le_pos; [nra | left; apply Rinv_0_lt_compat; lra].
Qed.
End SmoothFloat.
