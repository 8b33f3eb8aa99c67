(** * The sine at a fixed-point type and at a float type: the same polynomial up to rounding. *)

From Coq Require Import ZArith Reals Lia Lra Psatz List Bool.
From Flocq Require Import Core.Core IEEE754.BinarySingleNaN.
From Verif Require Import Base FloatBase Literals Traits Trig FixedPrim FixedImpl FloatImpl Spec Lemmas FloatLemmas FloatProofs FloatWrap
  ScalarProofs ScalarProofs2 WrapProofs WrapProofs2 SqrtReal FloatKit NiirfZ NiirfFloat SinReal SinFixed SinFloat TrigProofs FloatU.
Open Scope R_scope.

(** ** the polynomial is 1-Lipschitz on the folded range *)
Definition P9' (x : R) : R := 1 - x ^ 2 / 2 + x ^ 4 / 24 - x ^ 6 / 720 + x ^ 8 / 40320.
Lemma P9_deriv : forall x, derivable_pt_lim P9 x (P9' x).
Proof.
  intros x. unfold P9.
  assert (D : forall n k, derivable_pt_lim (fun y => y ^ n / k) x (INR n * x ^ Nat.pred n / k)).
  { intros n k. unfold Rdiv. pose proof (derivable_pt_lim_scal (fun y => y ^ n) (/ k) x _ (derivable_pt_lim_pow x n)) as H.
    unfold mult_real_fct in H. rewrite (Rmult_comm _ (/ k)). 
    assert (E : forall y, / k * y ^ n = y ^ n * / k) by (intros; ring).
    intros eps He. destruct (H eps He) as [d Hd]. exists d. intros h H0 H1. rewrite <- !E. auto. }
  pose proof (derivable_pt_lim_plus _ _ x _ _ (derivable_pt_lim_minus _ _ x _ _ (derivable_pt_lim_plus _ _ x _ _ 
    (derivable_pt_lim_minus _ _ x _ _ (derivable_pt_lim_id x) (D 3%nat 6)) (D 5%nat 120)) (D 7%nat 5040)) (D 9%nat 362880)) as H.
  replace (P9' x) with (1 - INR 3 * x ^ Nat.pred 3 / 6 + INR 5 * x ^ Nat.pred 5 / 120 - INR 7 * x ^ Nat.pred 7 / 5040 + INR 9 * x ^ Nat.pred 9 / 362880).
  - exact H.
  - unfold P9'. cbn [Nat.pred INR]. field.
Qed.
Lemma P9'_bound : forall x, Rabs x <= 15711 / 10000 -> -1 <= P9' x <= 1.
Proof.
  intros x H. unfold P9'. assert (S : 0 <= x ^ 2 <= 2469 / 1000).
  { split; [apply pow2_ge_0|]. rewrite <- Rsqr_pow2, Rsqr_abs. unfold Rsqr. pose proof (Rabs_pos x). nra. }
  set (s := x ^ 2) in *. replace (x ^ 4) with (s * s) by (unfold s; ring). replace (x ^ 6) with (s * s * s) by (unfold s; ring).
  replace (x ^ 8) with (s * s * s * s) by (unfold s; ring). clearbody s.
  assert (A : 0 <= s * s <= 61 / 10) by nra. assert (B : 0 <= s * s * s <= 2469 / 1000 * (s * s)) by nra.
  assert (C : 0 <= s * s * s * s <= 2469 / 1000 * (s * s * s)) by nra. assert (D : s * s <= 2469 / 1000 * s) by nra. lra.
Qed.
Lemma P9_lip : forall a b, Rabs a <= 15711 / 10000 -> Rabs b <= 15711 / 10000 -> Rabs (P9 a - P9 b) <= Rabs (a - b).
Proof.
  assert (K : forall a b, a < b -> Rabs a <= 15711 / 10000 -> Rabs b <= 15711 / 10000 -> Rabs (P9 b - P9 a) <= b - a).
  { intros a b L Ha Hb. destruct (MVT_cor2 P9 P9' a b L) as (c & E & C); [intros; apply P9_deriv|]. rewrite E.
    apply Rabs_le_inv in Ha, Hb. assert (B : -1 <= P9' c <= 1) by (apply P9'_bound; apply Rabs_le; lra). apply Rabs_le. nra. }
  intros a b Ha Hb. destruct (Rtotal_order a b) as [L|[->|L]].
  - rewrite Rabs_minus_sym, (Rabs_minus_sym a). rewrite (Rabs_pos_eq (b - a)) by lra. auto.
  - rewrite !Rminus_diag_eq by auto. lra.
  - rewrite (Rabs_pos_eq (a - b)) by lra. auto.
Qed.

(** ** folding *)
Definition rfold (h x : R) : R := Rmax (- (2 * h) - x) (Rmin x (2 * h - x)).
Lemma rfold_lip : forall h h' x x', Rabs (rfold h x - rfold h' x') <= Rabs (x - x') + 2 * Rabs (h - h').
Proof.
  intros. unfold rfold, Rmax, Rmin.
  repeat (destruct (Rle_dec _ _)); apply Rabs_le; unfold Rabs; destruct (Rcase_abs (x - x')), (Rcase_abs (h - h')); lra.
Qed.
Lemma rfold_cases : forall h x, 0 <= h -> rfold h x = if Rlt_dec x (- h) then - h - (x + h) else if Rlt_dec h x then h - (x - h) else x.
Proof. intros. unfold rfold, Rmax, Rmin. destruct (Rlt_dec x (- h)), (Rlt_dec h x); repeat (destruct (Rle_dec _ _)); lra. Qed.

Section Fixed.
Variables (m : mode) (f : fty).
Hypothesis W : fwf f.
Hypothesis Sg : fsigned f = true.
Hypothesis I20 : (ffrac f <= fwidth f - 20)%Z.
Hypothesis F44 : (ffrac f <= 44)%Z.
Notation q := (fone f).
Notation p := (pi_bits f).

Lemma zfold_rfold : forall x, IZR (zfold p x) / IZR q = rfold (IZR (p / 2) / IZR q) (fval f x).
Proof using W F44.
  intros x. pose proof (q_le f W F44) as Q. rewrite fval_eq by apply W. assert (I : 0 < / IZR q) by (apply Rinv_0_lt_compat; lra).
  assert (H0 : (0 <= p / 2)%Z). { pose proof (pi_bits_bounds f W). pose proof (fone_pos f (proj1 W)). apply Z.div_pos; lia. }
  rewrite rfold_cases by (apply Rmult_le_pos; [apply IZR_le; auto|lra]).
  assert (C1 : IZR x / IZR q < - (IZR (p / 2) / IZR q) <-> (x < - (p / 2))%Z).
  { replace (- (IZR (p / 2) / IZR q)) with (IZR (- (p / 2)) / IZR q) by (rewrite opp_IZR; field; lra). split; intros H.
    - apply lt_IZR. unfold Rdiv in H. apply Rmult_lt_reg_r in H; auto.
    - apply Rmult_lt_compat_r; auto. apply IZR_lt; auto. }
  assert (C2 : IZR (p / 2) / IZR q < IZR x / IZR q <-> (p / 2 < x)%Z).
  { split; intros H.
    - apply lt_IZR. unfold Rdiv in H. apply Rmult_lt_reg_r in H; auto.
    - apply Rmult_lt_compat_r; auto. apply IZR_lt; auto. }
  unfold zfold. destruct (Rlt_dec (IZR x / IZR q) _) as [L|L], (Z.ltb_spec x (- (p / 2))) as [L'|L']; try (apply C1 in L; lia); try (apply C1 in L'; lra).
  - rewrite minus_IZR, plus_IZR, opp_IZR. field. lra.
  - destruct (Rlt_dec _ (IZR x / IZR q)) as [M|M], (Z.ltb_spec (p / 2) x) as [M'|M']; try (apply C2 in M; lia); try (apply C2 in M'; lra).
    + rewrite !minus_IZR. field. lra.
    + reflexivity.
Qed.

Lemma sin_fixed_P9 : forall x, (Z.abs x <= p)%Z -> exists r,
  sin (fixed_ops m f) (fixed_signed m f) (fixed_pi m f) (fixed_powi m f) x = Ok r /\
  Rabs (rfold (PI / 2) (fval f x)) <= 15711 / 10000 /\
  Rabs (fval f r - P9 (rfold (PI / 2) (fval f x))) <= 404 / 100 * ulp f.
Proof using W Sg I20 F44.
  intros x H. exists (zpoly q (zfold p x)). split; [apply sin_bits; auto|]. pose proof (q_le f W F44) as Q.
  pose proof (zfold_range f W x H) as Z1. pose proof (half_pi_small f W) as HP. assert (Q0 : (0 < q)%Z) by (apply fone_pos; apply W).
  pose proof (zfold_rfold x) as E. set (z := zfold p x) in *. assert (Z2 : (10000 * Z.abs z <= 15711 * q)%Z) by lia.
  pose proof (zpoly_err q z Q0 Z2) as Er. pose proof (v_bound q z Q0 Z2) as B.
  assert (U : 0 < / IZR q) by (apply Rinv_0_lt_compat; lra). pose proof (half_near f W F44) as HN.
  assert (HN' : Rabs (IZR (p / 2) / IZR q - PI / 2) <= 76 / 100 * / IZR q).
  { replace (IZR (p / 2) / IZR q - PI / 2) with ((IZR (p / 2) - PI / 2 * IZR q) * / IZR q) by (field; lra).
    rewrite Rabs_mult, (Rabs_pos_eq (/ IZR q)) by lra. apply Rmult_le_compat_r; lra. }
  assert (B2 : Rabs (rfold (PI / 2) (fval f x)) <= 15711 / 10000).
  { pose proof pi_bounds as PB. assert (XB : Rabs (fval f x) <= PI + 1 / 1).
    { rewrite fval_eq by apply W. pose proof (pi_near f W F44) as PN. apply Rabs_le_inv in PN. unfold Rdiv. rewrite Rabs_mult, (Rabs_pos_eq (/ IZR q)) by lra.
      apply IZR_le in H. rewrite abs_IZR in H. apply Rmult_le_reg_r with (IZR q); [lra|]. rewrite Rmult_assoc, Rinv_l by lra. nra. }
    apply Rabs_le_inv in XB. rewrite rfold_cases by lra.
    destruct (Rlt_dec _ _); [|destruct (Rlt_dec _ _)]; apply Rabs_le; lra. }
  split; auto. rewrite fval_eq, ulp_eq by apply W.
  assert (E' : Rabs (IZR (zpoly q z) / IZR q - P9 (IZR z / IZR q)) <= 252 / 100 * / IZR q).
  { replace (IZR (zpoly q z) / IZR q - P9 (IZR z / IZR q)) with ((IZR (zpoly q z) - IZR q * P9 (IZR z / IZR q)) * / IZR q) by (field; lra).
    rewrite Rabs_mult, (Rabs_pos_eq (/ IZR q)) by lra. apply Rmult_le_compat_r; lra. }
  pose proof (P9_lip _ _ B B2) as L. pose proof (rfold_lip (IZR (p / 2) / IZR q) (PI / 2) (fval f x) (fval f x)) as R.
  rewrite E in L. rewrite E in E'. rewrite (Rminus_diag_eq (fval f x)), Rabs_R0 in R by auto.
  replace (_ - _) with ((IZR (zpoly q z) / IZR q - P9 (rfold (IZR (p / 2) / IZR q) (fval f x))) + (P9 (rfold (IZR (p / 2) / IZR q) (fval f x)) - P9 (rfold (PI / 2) (fval f x)))) by ring.
  eapply Rle_trans; [apply Rabs_triang|]. lra.
Qed.
End Fixed.

Section Float.
Context {prec emax : Z} {Hp : Prec_gt_0 prec} {He : Prec_lt_emax prec emax}.
Notation float := (binary_float prec emax).
Notation B2R := (@B2R prec emax).
Notation fin x := (is_finite x = true).
Notation U := (bpow radix2 (- prec)).
Hypothesis P24 : (24 <= prec <= 100)%Z.
Hypothesis E10 : (prec + 20 <= emax <= 2000)%Z.
Hypothesis Fh : fin (@fhalf prec emax _ _).
Hypothesis Vh : Rabs (B2R fhalf - PI / 2) <= 3 / 4 * U.

Lemma ffold_U : forall x : float, fin x -> Rabs (B2R x) <= PI + 1 / 10 ->
  fin (ffold fhalf x) /\ Rabs (B2R (ffold fhalf x) - rfold (B2R fhalf) (B2R x)) <= 2 * U.
Proof using P24 E10 Hp He Fh Vh.
  intros x F H. pose proof pi_bounds as PB. pose proof (@U_pos prec ltac:(lia)) as UP. set (h := fhalf) in *. clearbody h.
  apply Rabs_le_inv in H. assert (VH : Rabs (B2R h - PI / 2) <= / 1000) by lra. apply Rabs_le_inv in VH. unfold ffold.
  rewrite rfold_cases by lra. assert (Foh : fin (Bopp h)) by (rewrite is_finite_Bopp; auto).
  assert (E0 : forall y : float, Rabs (B2R y - B2R y) <= 0 * U) by (intros; rewrite Rminus_diag_eq, Rabs_R0 by auto; lra).
  destruct (ltb_cmp x (Bopp h) F Foh) as [[-> C1]|[-> C1]]; rewrite B2R_Bopp in C1; (destruct (Rlt_dec (B2R x) (- B2R h)); [|]); try lra.
  - destruct (addU P24 E10 x h (B2R x) (B2R h) 0 0 (17/10) 2 1 1 F Fh) as [Fd Vd]; auto; try lia; try lra; [apply Rabs_le; lra|].
    destruct (subU P24 E10 (Bopp h) (Bplus mode_NE x h) (- B2R h) (B2R x + B2R h) 0 1 (17/10) 2 2 1 Foh Fd) as [Fr Vr]; auto; try lia; try lra.
    + rewrite B2R_Bopp, Rminus_diag_eq, Rabs_R0 by auto. lra.
    + apply Rabs_le. lra.
  - destruct (ltb_cmp h x Fh F) as [[-> C2]|[-> C2]]; (destruct (Rlt_dec (B2R h) (B2R x)); [|]); try lra.
    + destruct (subU P24 E10 x h (B2R x) (B2R h) 0 0 (17/10) 2 1 1 F Fh) as [Fd Vd]; auto; try lia; try lra; [apply Rabs_le; lra|].
      destruct (subU P24 E10 h (Bminus mode_NE x h) (B2R h) (B2R x - B2R h) 0 1 (17/10) 2 2 1 Fh Fd) as [Fr Vr]; auto; try lia; try lra.
      apply Rabs_le. lra.
    + split; auto. rewrite Rminus_diag_eq, Rabs_R0 by auto. lra.
Qed.

Lemma sin_float_P9 : forall x : float, fin x -> Rabs (B2R x) <= PI + / 1000000 -> exists r,
  sin float_ops float_signed float_pi float_powi x = Ok r /\ fin r /\ Rabs (rfold (PI / 2) (B2R x)) <= 15711 / 10000 /\
  Rabs (B2R r - P9 (rfold (PI / 2) (B2R x))) <= 95 / 10 * U.
Proof using P24 E10 Hp He Fh Vh.
  intros x F H. pose proof pi_bounds as PB. pose proof (@U_pos prec ltac:(lia)) as UP.
  destruct (ffold_U x F ltac:(lra)) as [F1 A1]. pose proof (rfold_lip (B2R fhalf) (PI / 2) (B2R x) (B2R x)) as R. rewrite (Rminus_diag_eq (B2R x)), Rabs_R0 in R by auto.
  assert (B2 : Rabs (rfold (PI / 2) (B2R x)) <= PI / 2 + / 1000000).
  { apply Rabs_le_inv in H. rewrite rfold_cases by lra. destruct (Rlt_dec _ _); [|destruct (Rlt_dec _ _)]; apply Rabs_le; lra. }
  set (g := rfold (PI / 2) (B2R x)) in *. 
  assert (D : Rabs (B2R (ffold fhalf x) - g) <= 35 / 10 * U).
  { replace (B2R (ffold fhalf x) - g) with ((B2R (ffold fhalf x) - rfold (B2R fhalf) (B2R x)) + (rfold (B2R fhalf) (B2R x) - g)) by ring.
    eapply Rle_trans; [apply Rabs_triang|]. lra. }
  assert (B1 : Rabs (B2R (ffold fhalf x)) <= 15711 / 10000).
  { replace (B2R (ffold fhalf x)) with (g + (B2R (ffold fhalf x) - g)) by ring. eapply Rle_trans; [apply Rabs_triang|]. lra. }
  destruct (fpoly_U P24 E10 _ F1 B1) as [F2 A2]. exists (fpoly (ffold fhalf x)). split; [apply sin_float_eq|]. split; auto. split; [lra|].
  assert (B3 : Rabs g <= 15711 / 10000) by lra. pose proof (P9_lip _ _ B1 B3) as L.
  replace (_ - _) with ((B2R (fpoly (ffold fhalf x)) - P9 (B2R (ffold fhalf x))) + (P9 (B2R (ffold fhalf x)) - P9 g)) by ring.
  eapply Rle_trans; [apply Rabs_triang|]. lra.
Qed.
End Float.

(** ** agreement *)
Lemma cross_sin : forall m f, supported f = true -> fsigned f = true -> (ffrac f <= fwidth f - 20)%Z ->
  (forall x (y : f32), Rabs (fval f x) <= PI -> is_finite y = true -> Rabs (B2R y) <= PI -> exists r (s : f32),
    sin (fixed_ops m f) (fixed_signed m f) (fixed_pi m f) (fixed_powi m f) x = Ok r /\
    sin float_ops float_signed float_pi float_powi y = Ok s /\ is_finite s = true /\
    Rabs (fval f r - B2R s) <= Rabs (fval f x - B2R y) + 405 / 100 * ulp f + 10 * bpow radix2 (-24)) /\
  (forall x (y : f64), Rabs (fval f x) <= PI -> is_finite y = true -> Rabs (B2R y) <= PI -> exists r (s : f64),
    sin (fixed_ops m f) (fixed_signed m f) (fixed_pi m f) (fixed_powi m f) x = Ok r /\
    sin float_ops float_signed float_pi float_powi y = Ok s /\ is_finite s = true /\
    Rabs (fval f r - B2R s) <= Rabs (fval f x - B2R y) + 405 / 100 * ulp f + 10 * bpow radix2 (-53)).
Proof.
  intros m f Hf Sg I. pose proof (supported_fwf f Hf) as W. pose proof (supported_inv f Hf) as HI.
  assert (F44 : (ffrac f <= 44)%Z) by lia. pose proof pi_bounds as PB. assert (UP : 0 < ulp f) by apply bpow_gt_0.
  split; intros x y Hx Fy Hy.
  - destruct (sin_fixed_P9 m f W Sg I F44 x) as (r & Er & Br & Ar); [apply below_pi; auto; lia|].
    destruct (@sin_float_P9 24 128 _ _ ltac:(lia) ltac:(lia) (proj2 f32_half_val)) with (x := y) as (s & Es & Fs & Bs & As); auto; try lra.
    { rewrite (proj1 f32_half_val). change (bpow radix2 (-23)) with (/ 8388608). change (bpow radix2 (- (24))) with (/ 16777216). apply Rabs_le. lra. }
    exists r, s. repeat (split; auto). change (bpow radix2 (- (24))) with (bpow radix2 (-24)) in As. pose proof (bpow_gt_0 radix2 (-24)).
    pose proof (P9_lip _ _ Br Bs) as L. pose proof (rfold_lip (PI / 2) (PI / 2) (fval f x) (B2R y)) as R. rewrite (Rminus_diag_eq (PI / 2)), Rabs_R0 in R by auto.
    replace (_ - _) with ((fval f r - P9 (rfold (PI / 2) (fval f x))) + (P9 (rfold (PI / 2) (fval f x)) - P9 (rfold (PI / 2) (B2R y))) - (B2R s - P9 (rfold (PI / 2) (B2R y)))) by ring.
    eapply Rle_trans; [apply Rabs_triang|]. rewrite Rabs_Ropp. eapply Rle_trans; [apply Rplus_le_compat_r; apply Rabs_triang|]. lra.
  - destruct (sin_fixed_P9 m f W Sg I F44 x) as (r & Er & Br & Ar); [apply below_pi; auto; lia|].
    destruct (@sin_float_P9 53 1024 _ _ ltac:(lia) ltac:(lia) (proj2 f64_half_val)) with (x := y) as (s & Es & Fs & Bs & As); auto; try lra.
    { rewrite (proj1 f64_half_val). change (bpow radix2 (-52)) with (/ 4503599627370496). change (bpow radix2 (- (53))) with (/ 9007199254740992). apply Rabs_le. lra. }
    exists r, s. repeat (split; auto). change (bpow radix2 (- (53))) with (bpow radix2 (-53)) in As. pose proof (bpow_gt_0 radix2 (-53)).
    pose proof (P9_lip _ _ Br Bs) as L. pose proof (rfold_lip (PI / 2) (PI / 2) (fval f x) (B2R y)) as R. rewrite (Rminus_diag_eq (PI / 2)), Rabs_R0 in R by auto.
    replace (_ - _) with ((fval f r - P9 (rfold (PI / 2) (fval f x))) + (P9 (rfold (PI / 2) (fval f x)) - P9 (rfold (PI / 2) (B2R y))) - (B2R s - P9 (rfold (PI / 2) (B2R y)))) by ring.
    eapply Rle_trans; [apply Rabs_triang|]. rewrite Rabs_Ropp. eapply Rle_trans; [apply Rplus_le_compat_r; apply Rabs_triang|]. lra.
Qed.
