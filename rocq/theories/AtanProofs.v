(** * Combined statements about the two-argument arctangent. *)

From Coq Require Import ZArith Reals Lia Lra Psatz List Bool.
From Flocq Require Import Core.Core IEEE754.BinarySingleNaN.
From Verif Require Import Base FloatBase Literals Traits Trig IntImpl FixedPrim FixedImpl FloatImpl Spec SpecAngle
  Lemmas ScalarProofs ScalarProofs2 WrapProofs WrapProofs2 FloatLemmas FloatProofs FloatKit SinReal SinFixed SinFloat TrigProofs AtanReal AtanFixed AtanFloat.
Open Scope Z_scope.

(** ** fixed point *)
Lemma fmin_val : forall f, fsigned f = true -> fmin f = - 2 ^ (fwidth f - 1).
Proof. intros f S. unfold fmin, imin. cbn [fity isigned iwidth]. rewrite S. reflexivity. Qed.
Lemma fmax_val : forall f, fsigned f = true -> fmax f = 2 ^ (fwidth f - 1) - 1.
Proof. intros f S. unfold fmax, imax. cbn [fity isigned iwidth]. rewrite S. reflexivity. Qed.

Lemma c23_fixed : forall m f, supported f = true -> fsigned f = true ->
  exists p h, mixed_pi (fixed_pi m f) = Ok p /\ 0 < p /\ 2 * h <= p <= 2 * h + 1 /\
  (forall a, fvalid f a -> m = Release \/ a <> fmin f ->
     (0 <= a -> fixed_atan2_poly m f 0 a = Ok 0) /\ (a < 0 -> fixed_atan2_poly m f 0 a = Ok p) /\
     (0 < a -> fixed_atan2_poly m f a 0 = Ok h) /\ (a < 0 -> fixed_atan2_poly m f a 0 = Ok (- h))) /\
  (m = Debug -> forall a, fvalid f a -> fixed_atan2_poly m f a (fmin f) = Panic POverflow /\ fixed_atan2_poly m f (fmin f) a = Panic POverflow).
Proof.
  intros m f Hf S. pose proof (supported_fwf f Hf) as W. pose proof (pi_bits_bounds f W) as PB. pose proof (fone_pos f (proj1 W)) as Q.
  exists (pi_bits f), (pi_bits f / 2). split; [apply fixed_pi_eq; auto|]. split; [lia|]. split; [apply half_pi_range|]. split.
  - intros a V HM. rewrite fmin_val in HM by auto. apply fvalid_iff in V. rewrite S in V.
    assert (HM' : m = Release \/ Z.abs a < 2 ^ (fwidth f - 1)) by (destruct HM; auto; right; lia).
    repeat split; intros A.
    + rewrite atan2_y0 by auto. destruct (Z.ltb_spec a 0); auto; lia.
    + rewrite atan2_y0 by auto. destruct (Z.ltb_spec a 0); auto; lia.
    + rewrite atan2_x0 by (auto; lia). destruct (Z.ltb_spec 0 a); auto; lia.
    + rewrite atan2_x0 by (auto; lia). destruct (Z.ltb_spec 0 a); auto; lia.
  - intros E a V. assert (VM : fvalid f (fmin f)) by (apply fvalid_iff; rewrite S, fmin_val by auto; pose proof (fone_le_max f W); lia).
    rewrite fmin_val in * by auto. split; apply atan2_min; auto.
Qed.

Lemma big_sq : forall f y x, 0 <= ffrac f ->
  (Rmax (Rabs (fval f x)) (Rabs (fval f y)) = fval f (Z.abs (big y x)))%R.
Proof.
  intros f y x F. rewrite !fval_abs by auto. unfold big. destruct (Z.ltb_spec (Z.abs y) (Z.abs x)).
  - rewrite Rmax_left; auto. apply fval_le; auto. lia.
  - rewrite Rmax_right; auto. apply fval_le; auto.
Qed.

Lemma c24_val : forall f, supported f = true -> forall g y x th,
  (forall t, t = IZR y / IZR x \/ t = IZR x / IZR y -> -1 <= t <= 1 -> Rabs (rat t - Ratan.atan t) <= g)%R ->
  let M := Rmax (Rabs (fval f x)) (Rabs (fval f y)) in
  (16 * ulp f <= M * M -> is_angle (fval f y) (fval f x) th ->
   Rabs (fval f (zatan2 (pi_bits f) (fone f) (c_bits f) y x) - th) <= g + / 1000000 + (3 + 5 / (M * M)) * ulp f)%R.
Proof.
  intros f Hf g y x th HG M H1 A. pose proof (supported_fwf f Hf) as W. pose proof (fone_pos f (proj1 W)) as Q.
  pose proof (fone_IZR_pos f (proj1 W)) as QR. apply angle_is in A. subst th.
  unfold M in *. clear M. rewrite big_sq in * by apply W. set (u := big y x) in *.
  assert (UL : (ulp f = / IZR (fone f))%R).
  { unfold ulp. rewrite bpow_opp, fone_bpow by apply W. reflexivity. }
  rewrite !fval_eq in * by apply W. rewrite UL in *. set (qr := IZR (fone f)) in *.
  assert (IQ : (0 < / qr)%R) by (apply Rinv_0_lt_compat; auto).
  assert (EU : (IZR (Z.abs u) / qr * (IZR (Z.abs u) / qr) = IZR u * IZR u * / qr * / qr)%R).
  { rewrite abs_IZR. replace (IZR u * IZR u)%R with (Rabs (IZR u) * Rabs (IZR u))%R; [field; lra|].
    rewrite <- Rabs_mult. apply Rabs_pos_eq. apply Rle_0_sqr. }
  rewrite EU in *.
  assert (N : 16 * fone f <= u * u).
  { apply le_IZR. rewrite !mult_IZR. fold qr. apply Rmult_le_reg_r with (/ qr * / qr)%R; [apply Rmult_lt_0_compat; auto|].
    replace (16 * qr * (/ qr * / qr))%R with (16 * / qr)%R by (field; lra). lra. }
  pose proof (zatan2_acc_g f W g y x N HG) as Z. rewrite !fval_eq in Z by apply W. fold u qr in Z.
  fold qr. set (r := IZR (zatan2 _ _ _ _ _)) in *. set (th := angle _ _) in *.
  replace (r / qr - th)%R with ((r - qr * th) * / qr)%R by (field; lra). rewrite Rabs_mult, (Rabs_pos_eq (/ qr)) by lra.
  eapply Rle_trans; [apply Rmult_le_compat_r; [lra|exact Z]|].
  assert (U0 : (0 < IZR u * IZR u)%R) by (rewrite <- mult_IZR; apply IZR_lt; lia).
  set (K := (IZR u * IZR u)%R) in *.
  replace (((g + 4 / 100000000) * qr + 9 / 4 + 415 / 100 * (qr * qr / K)) * / qr)%R with ((g + 4 / 100000000) + 9 / 4 * / qr + 415 / 100 * (qr / K))%R by (field; lra).
  replace ((3 + 5 / (K * / qr * / qr)) * / qr)%R with (3 * / qr + 5 * (qr / K))%R by (field; lra).
  assert (0 < qr / K)%R by (apply Rmult_lt_0_compat; [lra | apply Rinv_0_lt_compat; lra]). lra.
Qed.

Lemma c24_g : forall m f, supported f = true -> fsigned f = true -> forall g y x th,
  (forall t, t = IZR y / IZR x \/ t = IZR x / IZR y -> -1 <= t <= 1 -> Rabs (rat t - Ratan.atan t) <= g)%R ->
  let M := Rmax (Rabs (fval f x)) (Rabs (fval f y)) in
  (16 * ulp f <= M * M -> 3 / 2 * (M * M) <= fval f (fmax f) -> is_angle (fval f y) (fval f x) th ->
   exists r, fixed_atan2_poly m f y x = Ok r /\ Rabs (fval f r - th) <= g + / 1000000 + (3 + 5 / (M * M)) * ulp f)%R.
Proof.
  intros m f Hf S g y x th HG M H1 H2 A. pose proof (supported_fwf f Hf) as W. pose proof (fone_pos f (proj1 W)) as Q.
  pose proof (fone_IZR_pos f (proj1 W)) as QR. pose proof (c24_val f Hf g y x th HG H1 A) as V.
  eexists. split; [|exact V]. unfold M in *. clear M V. rewrite big_sq in * by apply W. set (u := big y x) in *.
  assert (UL : (ulp f = / IZR (fone f))%R).
  { unfold ulp. rewrite bpow_opp, fone_bpow by apply W. reflexivity. }
  rewrite !fval_eq in * by apply W. rewrite UL in *. rewrite fmax_val in H2 by auto. set (qr := IZR (fone f)) in *.
  assert (IQ : (0 < / qr)%R) by (apply Rinv_0_lt_compat; auto).
  assert (EU : (IZR (Z.abs u) / qr * (IZR (Z.abs u) / qr) = IZR u * IZR u * / qr * / qr)%R).
  { rewrite abs_IZR. replace (IZR u * IZR u)%R with (Rabs (IZR u) * Rabs (IZR u))%R; [field; lra|].
    rewrite <- Rabs_mult. apply Rabs_pos_eq. apply Rle_0_sqr. }
  rewrite EU in *.
  assert (N : 16 * fone f <= u * u).
  { apply le_IZR. rewrite !mult_IZR. fold qr. apply Rmult_le_reg_r with (/ qr * / qr)%R; [apply Rmult_lt_0_compat; auto|].
    replace (16 * qr * (/ qr * / qr))%R with (16 * / qr)%R by (field; lra). lra. }
  assert (N2 : 3 * (u * u) <= 2 * (2 ^ (fwidth f - 1) - 1) * fone f).
  { apply le_IZR. rewrite !mult_IZR. fold qr. apply Rmult_le_reg_r with (/ qr * / qr)%R; [apply Rmult_lt_0_compat; auto|].
    set (b := IZR (2 ^ (fwidth f - 1) - 1)) in *. replace (2 * b * qr * (/ qr * / qr))%R with (2 * (b / qr))%R by (field; lra). lra. }
  assert (N3 : 3 * (u * u / fone f) <= 2 * (2 ^ (fwidth f - 1) - 1)).
  { pose proof (Z.mul_div_le (u * u) (fone f) Q). nia. }
  assert (N4 : 1 <= u * u / fone f) by (apply Z.div_le_lower_bound; lia).
  apply atan2_all; auto.
Qed.

Lemma c24 : forall m f, supported f = true -> fsigned f = true -> forall y x th,
  let M := Rmax (Rabs (fval f x)) (Rabs (fval f y)) in
  (16 * ulp f <= M * M -> 3 / 2 * (M * M) <= fval f (fmax f) -> is_angle (fval f y) (fval f x) th ->
   exists r, fixed_atan2_poly m f y x = Ok r /\ Rabs (fval f r - th) <= 492 / 100000 + (3 + 5 / (M * M)) * ulp f)%R.
Proof.
  intros m f Hf S y x th M H1 H2 A. destruct (c24_g m f Hf S (491036 / 100000000) y x th ltac:(intros t _ T; apply gap_bound; auto) H1 H2 A) as (r & E & B).
  exists r. split; auto. fold M in B. lra.
Qed.

(** the bits of a magnitude at most one *)
Lemma fval_one : forall f a, 0 <= ffrac f -> (Rabs (fval f a) <= 1)%R <-> Z.abs a <= fone f.
Proof.
  intros f a F. pose proof (fone_IZR_pos f F) as Q. rewrite fval_abs by auto.
  assert (E : (1 = fval f (fone f))%R) by (rewrite fval_eq by auto; field; lra). rewrite E at 1. apply fval_le; auto.
Qed.

Lemma c25_iff : forall m f, supported f = true -> fsigned f = true -> forall y x,
  (Rabs (fval f x) <= 1)%R -> (Rabs (fval f y) <= 1)%R ->
  let M := Rmax (Rabs (fval f x)) (Rabs (fval f y)) in
  (x <> 0 /\ y <> 0 /\ (M * M < ulp f)%R -> fixed_atan2_poly m f y x = Panic PDivZero) /\
  (x = 0 \/ y = 0 \/ (ulp f <= M * M)%R -> exists r, fixed_atan2_poly m f y x = Ok r).
Proof.
  intros m f Hf S y x HX HY M. pose proof (supported_fwf f Hf) as W. pose proof (fone_pos f (proj1 W)) as Q.
  pose proof (fone_IZR_pos f (proj1 W)) as QR. rewrite fval_one in HX, HY by apply W.
  pose proof (fone_le_max f W) as FM. unfold M. clear M. rewrite big_sq by apply W.
  assert (B : Z.abs (big y x) <= fone f) by (unfold big; destruct (Z.abs y <? Z.abs x); auto).
  set (u := big y x) in *.
  assert (E : (fval f (Z.abs u) * fval f (Z.abs u) < ulp f)%R <-> u * u < fone f).
  { rewrite fval_eq by apply W. unfold ulp. rewrite bpow_opp, <- fone_bpow by apply W.
    set (qr := IZR (fone f)) in *. assert (IQ : (0 < / qr)%R) by (apply Rinv_0_lt_compat; auto).
    replace (IZR (Z.abs u) / qr * (IZR (Z.abs u) / qr))%R with (IZR (u * u) * (/ qr * / qr))%R by (rewrite <- Z.abs_square, mult_IZR; field; lra).
    replace (/ qr)%R with (qr * (/ qr * / qr))%R at 3 by (field; lra). assert (0 < / qr * / qr)%R by (apply Rmult_lt_0_compat; auto).
    split; intros L.
    - apply lt_IZR. fold qr. apply Rmult_lt_reg_r with (/ qr * / qr)%R; auto.
    - apply Rmult_lt_compat_r; auto. apply IZR_lt; auto. }
  assert (N : u * u / fone f <= fone f).
  { apply Z.div_le_upper_bound; auto. rewrite <- Z.abs_square. apply Z.mul_le_mono_nonneg; lia. }
  assert (N3 : 3 * (u * u / fone f) <= 2 * (2 ^ (fwidth f - 1) - 1)) by (clear - N FM Q; lia).
  assert (X : Z.abs x < 2 ^ (fwidth f - 1)) by lia. assert (Y : Z.abs y < 2 ^ (fwidth f - 1)) by lia.
  split.
  - intros (X0 & Y0 & L). rewrite E in L. rewrite atan2_inner by auto. fold u. rewrite Z.div_small by nia. reflexivity.
  - intros H. destruct (Z.eq_dec x 0) as [X0|X0]; [|destruct (Z.eq_dec y 0) as [Y0|Y0]].
    + subst x. destruct (Z.eq_dec y 0) as [Y0|Y0]; [subst y; rewrite atan2_y0 by auto | rewrite atan2_x0 by auto]; eauto.
    + subst y. rewrite atan2_y0 by auto. eauto.
    + destruct H as [H|[H|H]]; try contradiction. apply Rle_not_lt in H. rewrite E in H.
      eexists. apply atan2_all; auto. fold u. apply Z.div_le_lower_bound; lia.
Qed.
Lemma c25 : forall m f, supported f = true -> fsigned f = true -> 1 <= ffrac f ->
  exists y x, fvalid f y /\ fvalid f x /\ (Rabs (fval f x) <= 1)%R /\ (Rabs (fval f y) <= 1)%R /\ fixed_atan2_poly m f y x = Panic PDivZero.
Proof.
  intros m f Hf S F. pose proof (supported_fwf f Hf) as W. pose proof (fone_pos f (proj1 W)) as Q. pose proof (fone_le_max f W) as FM.
  assert (F2 : 2 <= fone f) by (unfold fone; change 2 with (2 ^ 1) at 1; apply Z.pow_le_mono_r; lia).
  exists 1, 1. assert (V : fvalid f 1) by (apply fvalid_iff; rewrite S; lia). repeat split; try (apply V).
  - apply fval_one; [apply W | simpl; lia].
  - apply fval_one; [apply W | simpl; lia].
  - assert (U : big 1 1 * big 1 1 / fone f = 0) by (change (big 1 1 * big 1 1) with 1; apply Z.div_small; lia).
    rewrite atan2_inner; rewrite ?U; auto; try discriminate; change (Z.abs 1) with 1; lia.
Qed.

(** the diagonal *)
Lemma angle_diag : forall a, (0 < a)%R -> is_angle a a (PI / 4).
Proof.
  intros a A. replace (PI / 4)%R with (angle a a); [apply angle_spec; left; lra|].
  unfold angle. destruct (Rlt_dec 0 a); [|lra]. replace (a / a)%R with 1%R by (field; lra). apply atan_1.
Qed.
Lemma c26_fixed : forall m f, supported f = true -> fsigned f = true -> 8 <= ffrac f ->
  exists r, fixed_atan2_poly m f (fone f) (fone f) = Ok r /\ fval f (fone f) = 1%R /\ is_angle 1 1 (PI / 4) /\
    (28 / 1000 * (PI / 180) < fval f r - PI / 4)%R.
Proof.
  intros m f Hf S F. pose proof (supported_fwf f Hf) as W. pose proof (fone_pos f (proj1 W)) as Q. pose proof (fone_le_max f W) as FM.
  pose proof (fone_IZR_pos f (proj1 W)) as QR.
  assert (U : big (fone f) (fone f) = fone f) by (unfold big; rewrite Z.ltb_irrefl; auto).
  assert (D : fone f * fone f / fone f = fone f) by (apply Z.div_mul; lia).
  eexists. split; [apply atan2_all; rewrite ?U, ?D; auto; lia|]. split; [rewrite fval_eq by apply W; field; lra|].
  split; [apply angle_diag; lra|].
  rewrite fval_eq by apply W. unfold zatan2. destruct (Z.eqb_spec (fone f) 0); [lia|]. rewrite Z.ltb_irrefl.
  destruct (Z.ltb_spec 0 (fone f)); [|lia]. unfold zp. rewrite D, Z.div_mul by lia.
  assert (C : 32 * c_bits f = 9 * fone f).
  { assert (CB : c_bits f = 9 * 2 ^ (ffrac f - 5)).
    { pose proof (c_real f W) as CR. apply Rabs_le_inv in CR. set (k := 2 ^ (ffrac f - 5)) in *.
      assert (EQ : fone f = 32 * k) by (unfold fone, k; replace (ffrac f) with (5 + (ffrac f - 5)) at 1 by lia; rewrite Z.pow_add_r by lia; reflexivity).
      rewrite EQ, mult_IZR in CR.
      assert (32 * c_bits f <= 32 * (9 * k) + 16) by (apply le_IZR; rewrite plus_IZR, !mult_IZR; lra).
      assert (32 * (9 * k) - 16 <= 32 * c_bits f) by (apply le_IZR; rewrite minus_IZR, !mult_IZR; lra). lia. }
    rewrite CB. unfold fone. replace (2 ^ ffrac f) with (2 ^ (5 + (ffrac f - 5))) by (f_equal; lia). rewrite Z.pow_add_r by lia. change (2 ^ 5) with 32. lia. }
  assert (Q8 : 256 <= fone f) by (unfold fone; change 256 with (2 ^ 8); apply Z.pow_le_mono_r; lia).
  pose proof (quot_nonneg (fone f * fone f) (fone f + c_bits f) ltac:(nia) ltac:(lia)) as QT. rewrite mult_IZR, plus_IZR in QT.
  apply IZR_le in Q8. apply (f_equal IZR) in C. rewrite !mult_IZR in C.
  pose proof (half_real f W) as HR. apply Rabs_le_inv in HR. rewrite minus_IZR. set (z := IZR (Z.quot _ _)) in *. set (h := IZR (pi_bits f / 2)) in *.
  set (q := IZR (fone f)) in *. replace (IZR (c_bits f)) with (9 / 32 * q)%R in QT by lra.
  replace (q * q / (q + 9 / 32 * q))%R with (32 / 41 * q)%R in QT by (field; lra).
  pose proof pi_bounds as PB. apply Rmult_lt_reg_r with q; auto.
  replace (((h - z) / q - PI / 4) * q)%R with (h - z - PI / 4 * q)%R by (field; lra).
  assert (28 / 1000 * (PI / 180) * q <= 489 / 1000000 * q)%R by (apply Rmult_le_compat_r; lra).
  assert (7853981 / 10000000 * q <= PI / 4 * q)%R by (apply Rmult_le_compat_r; lra).
  replace (PI / 2 * q)%R with (2 * (PI / 4 * q))%R in HR by field. lra.
Qed.

(** ** floats *)
Definition atan_claims {prec emax : Z} {Hp : Prec_gt_0 prec} {He : Prec_lt_emax prec emax} : Prop :=
  forall y x : binary_float prec emax, is_finite y = true -> is_finite x = true -> forall th,
  (bpow radix2 (3 - emax / 2) <= Rmax (Rabs (B2R x)) (Rabs (B2R y)) <= bpow radix2 (emax / 2 - 3))%R ->
  is_angle (B2R y) (B2R x) th ->
  exists r, float_atan2_poly y x = Ok r /\ is_finite r = true /\ (Rabs (B2R r - th) <= 492 / 100000)%R.

Lemma acc_of : forall {prec emax : Z} {Hp : Prec_gt_0 prec} {He : Prec_lt_emax prec emax},
  (forall y x : binary_float prec emax, is_finite y = true -> is_finite x = true ->
  (bpow radix2 (3 - emax / 2) <= Rmax (Rabs (B2R x)) (Rabs (B2R y)) <= bpow radix2 (emax / 2 - 3))%R ->
  is_finite (fatan2 y x) = true /\ (Rabs (B2R (fatan2 y x) - angle (B2R y) (B2R x)) <= 492 / 100000)%R) -> @atan_claims prec emax Hp He.
Proof.
  intros prec emax Hp He H y x Fy Fx th M A. apply angle_is in A. subst th. exists (fatan2 y x). split; [apply atan2_float_eq|]. apply H; auto.
Qed.
Lemma atan_f32 : @atan_claims 24 128 _ _.
Proof.
  pose proof pi_bounds as PB. destruct f32_half_val as [Vh Fh]. destruct f32_pi_val as [Vp Fp].
  assert (Vh' : (B2R (@fhalf 24 128 _ _) = IZR 13176795 * / IZR 8388608)%R) by exact Vh.
  assert (Vp' : (B2R f32_pi = IZR 13176795 * / IZR 4194304)%R) by exact Vp.
  apply acc_of. apply fatan2_acc; auto; try lia.
  - rewrite Vh'. apply Rabs_le. lra.
  - change (Rabs (B2R f32_pi - PI) <= 1 / 10000000)%R. rewrite Vp'. apply Rabs_le. lra.
  - unfold fhalf. apply Bdiv_opp_l.
Qed.
Lemma atan_f64 : @atan_claims 53 1024 _ _.
Proof.
  pose proof pi_bounds as PB. destruct f64_half_val as [Vh Fh]. destruct f64_pi_val as [Vp Fp].
  assert (Vh' : (B2R (@fhalf 53 1024 _ _) = IZR 7074237752028440 * / IZR 4503599627370496)%R) by exact Vh.
  assert (Vp' : (B2R f64_pi = IZR 7074237752028440 * / IZR 2251799813685248)%R) by exact Vp.
  apply acc_of. apply fatan2_acc; auto; try lia.
  - rewrite Vh'. apply Rabs_le. lra.
  - change (Rabs (B2R f64_pi - PI) <= 1 / 10000000)%R. rewrite Vp'. apply Rabs_le. lra.
  - unfold fhalf. apply Bdiv_opp_l.
Qed.

Section Any.
Context {prec emax : Z} {Hp : Prec_gt_0 prec} {He : Prec_lt_emax prec emax}.
Notation float := (binary_float prec emax).

Lemma c23_float : forall p : float, mixed_pi float_pi = Ok p -> forall a : float, is_nan a = false ->
  (forall s, float_atan2_poly (B754_zero s) a = Ok (if Bsign a then p else B754_zero false)) /\
  (forall s, (forall s', a <> B754_zero s') ->
     float_atan2_poly a (B754_zero s) = Ok (if Bsign a then Bopp (Bdiv mode_NE p (float_of_Z prec emax 2)) else Bdiv mode_NE p (float_of_Z prec emax 2))).
Proof.
  intros p Ep a N. injection Ep as <-. split; intros s; rewrite atan2_float_eq; unfold fatan2.
  - assert (E : o_eq float_ops (B754_zero s : float) fzero = true) by reflexivity. rewrite E. reflexivity.
  - intros NZ. assert (E : o_eq float_ops a fzero = false).
    { destruct a as [s'|[]| |[] ? ? ?]; try reflexivity; try discriminate. exfalso. eapply NZ; eauto. }
    assert (E' : o_eq float_ops (B754_zero s : float) fzero = true) by reflexivity. rewrite E, E'.
    unfold fhalf. destruct (Bsign a); [rewrite Bdiv_opp_l|]; reflexivity.
Qed.

Lemma c27 : forall y x : float, is_nan y = false -> (forall s, y <> B754_zero s) ->
  exists r r', float_atan2_poly y x = Ok r /\ float_atan2_poly (Bopp y) x = Ok r' /\ same_float r' (Bopp r).
Proof.
  intros y x N NZ. rewrite !atan2_float_eq. do 2 eexists. split; [reflexivity|]. split; [reflexivity|].
  apply fatan2_odd.
  - intros ->. discriminate.
  - destruct y as [s'|[]| |[] ? ? ?]; try reflexivity; try discriminate. exfalso. eapply NZ; eauto.
Qed.

(** products of tiny numbers vanish *)
Lemma tiny_mult : forall (u v : float) k, 2 * k <= 2 - emax - prec -> is_finite u = true -> is_finite v = true ->
  (Rabs (B2R u) < bpow radix2 k)%R -> (Rabs (B2R v) < bpow radix2 k)%R -> exists s, Bmult mode_NE u v = B754_zero s.
Proof.
  intros u v k K Fu Fv Bu Bv. pose proof (prec_gt_0 prec) as PP. pose proof (prec_lt_emax prec emax) as PE. 
  assert (B : (Rabs (B2R u * B2R v) < bpow radix2 (2 * k))%R).
  { rewrite Rabs_mult. replace (2 * k) with (k + k) by lia. rewrite bpow_plus. apply Rmult_le_0_lt_compat; auto using Rabs_pos. }
  assert (Z : round radix2 (SpecFloat.fexp prec emax) ZnearestE (B2R u * B2R v) = 0%R).
  { destruct (Req_dec (B2R u * B2R v) 0) as [->|N]; [apply round_0, valid_rnd_N|].
    apply round_N_small with (ex := mag radix2 (B2R u * B2R v)).
    - split; [apply bpow_mag_le; auto | apply bpow_mag_gt].
    - rewrite fexp_val. pose proof (mag_le_bpow radix2 _ (2 * k) N B). lia. }
  destruct (mult_r (prec := prec) (emax := emax) u v Fu Fv 1 ltac:(lia)) as [F V].
  - left. eapply Rlt_le_trans; [exact B|]. apply bpow_le. lia.
  - rewrite Z in V. destruct (Bmult mode_NE u v) as [s|s| |s m e H]; try discriminate; eauto.
    exfalso. cbn [B2R] in V. apply eq_0_F2R in V. destruct s; discriminate.
Qed.
Hypothesis P24 : 24 <= prec <= 100.
Hypothesis E10 : prec + 20 <= emax <= 2000.
Lemma tiny_nan : forall (y x : float) k, 2 * k <= 2 - emax - prec -> is_finite y = true -> is_finite x = true ->
  B2R y <> 0%R -> B2R x <> 0%R -> (Rabs (B2R x) < bpow radix2 k)%R -> (Rabs (B2R y) < bpow radix2 k)%R ->
  float_atan2_poly y x = Ok B754_nan.
Proof using P24 E10 Hp He.
  intros y x k K Fy Fx Ny Nx Bx By. rewrite atan2_float_eq. f_equal. unfold fatan2.
  destruct (eq_zero y Fy) as [[_ ?]|[-> _]]; [contradiction|]. destruct (eq_zero x Fx) as [[_ ?]|[-> _]]; [contradiction|].
  destruct (tiny_mult x y k K Fx Fy Bx By) as [s1 M1]. destruct (tiny_mult x x k K Fx Fx Bx Bx) as [s2 M2].
  destruct (tiny_mult y y k K Fy Fy By By) as [s3 M3].
  destruct (cf_val (prec := prec) (emax := emax) P24 E10) as [Fc Vc].
  assert (C : forall s, exists s', Bmult mode_NE (float_of_float prec emax lit_atan) (B754_zero s) = B754_zero s').
  { intros s. destruct (float_of_float prec emax lit_atan); try discriminate; simpl; eauto. }
  assert (zeros_plus : forall s s', exists t, Bplus mode_NE (B754_zero s : float) (B754_zero s') = B754_zero t) by (intros [] []; simpl; eauto).
  assert (N1 : fp1 y x = B754_nan).
  { unfold fp1. rewrite M1, M2, M3. destruct (C s3) as [s' ->]. destruct (zeros_plus s2 s') as [t ->]. reflexivity. }
  assert (N2 : fp2 y x = B754_nan).
  { unfold fp2. rewrite M1, M2, M3. destruct (C s2) as [s' ->]. destruct (zeros_plus s3 s') as [t ->]. reflexivity. }
  rewrite N1, N2.
  assert (Pn : forall a : float, Bplus mode_NE a B754_nan = B754_nan) by (intros [| | |]; reflexivity).
  assert (Mn : forall a : float, Bminus mode_NE a B754_nan = B754_nan) by (intros [| | |]; reflexivity).
  rewrite !Pn, !Mn. destruct (o_lt _ _ _); [destruct (Bsign x); reflexivity|]. destruct (Bsign x && _); reflexivity.
Qed.
End Any.

Lemma c28_f32 : forall y x : f32, is_finite y = true -> is_finite x = true -> B2R y <> 0%R -> B2R x <> 0%R ->
  (Rabs (B2R x) < bpow radix2 (-75))%R -> (Rabs (B2R y) < bpow radix2 (-75))%R -> float_atan2_poly y x = Ok B754_nan.
Proof. intros. apply (tiny_nan (prec := 24) (emax := 128)) with (k := -75); auto; lia. Qed.
Lemma c28_f64 : forall y x : f64, is_finite y = true -> is_finite x = true -> B2R y <> 0%R -> B2R x <> 0%R ->
  (Rabs (B2R x) < bpow radix2 (-538))%R -> (Rabs (B2R y) < bpow radix2 (-538))%R -> float_atan2_poly y x = Ok B754_nan.
Proof. intros. apply (tiny_nan (prec := 53) (emax := 1024)) with (k := -538); auto; lia. Qed.

Lemma value_ok : forall prec emax (x : binary_float prec emax) s m e, B2SF x = SpecFloat.S754_finite s m e ->
  is_finite x = true /\ B2R x = F2R (Float radix2 (cond_Zopp s (Z.pos m)) e).
Proof. intros prec emax x s m e E. destruct x as [s'|s'| |s' m' e' H]; try discriminate. cbn in E. injection E as -> -> ->. auto. Qed.
Lemma c26_f32 : exists r : f32, float_atan2_poly (float_of_Z 24 128 1) (float_of_Z 24 128 1) = Ok r /\
  B2R (float_of_Z 24 128 1) = 1%R /\ is_angle 1 1 (PI / 4) /\ (28 / 1000 * (PI / 180) < B2R r - PI / 4)%R.
Proof.
  exists (fatan2 (float_of_Z 24 128 1) (float_of_Z 24 128 1)). split; [apply atan2_float_eq|].
  split; [apply (small_int (prec := 24) (emax := 128)); lia|]. split; [apply angle_diag; lra|].
  destruct (value_ok 24 128 (fatan2 (float_of_Z 24 128 1) (float_of_Z 24 128 1)) false 13259178 (-24)) as [_ ->]; [vm_compute; reflexivity|].
  unfold F2R. cbn [Fnum Fexp cond_Zopp]. change (bpow radix2 (-24)) with (/ IZR 16777216)%R. pose proof pi_bounds. lra.
Qed.
Lemma c26_f64 : exists r : f64, float_atan2_poly (float_of_Z 53 1024 1) (float_of_Z 53 1024 1) = Ok r /\
  B2R (float_of_Z 53 1024 1) = 1%R /\ is_angle 1 1 (PI / 4) /\ (28 / 1000 * (PI / 180) < B2R r - PI / 4)%R.
Proof.
  exists (fatan2 (float_of_Z 53 1024 1) (float_of_Z 53 1024 1)). split; [apply atan2_float_eq|].
  split; [apply (small_int (prec := 53) (emax := 1024)); lia|]. split; [apply angle_diag; lra|].
  destruct (value_ok 53 1024 (fatan2 (float_of_Z 53 1024 1) (float_of_Z 53 1024 1)) false 7118466329624886 (-53)) as [_ ->]; [vm_compute; reflexivity|].
  unfold F2R. cbn [Fnum Fexp cond_Zopp]. change (bpow radix2 (-53)) with (/ IZR 9007199254740992)%R. pose proof pi_bounds. lra.
Qed.

(** ** the one-argument arctangent *)
Lemma angle_atan : forall a, is_angle a 1 (Ratan.atan a).
Proof.
  intros a. replace (Ratan.atan a) with (angle a 1); [apply angle_spec; left; lra|].
  unfold angle. destruct (Rlt_dec 0 1); [|lra]. f_equal. field.
Qed.
Lemma c56_fixed : forall m f, supported f = true -> fsigned f = true -> 4 <= ffrac f -> forall x,
  (3 / 2 * (fval f x * fval f x) <= fval f (fmax f))%R ->
  exists r, Trig.atan (fixed_ops m f) (fixed_signed m f) (fixed_powi m f) (fixed_real m f) (fixed_zero m f) (fixed_pi m f) (fixed_abs m f) (fixed_one m f) x = Ok r /\
   (Rabs (fval f r - Ratan.atan (fval f x)) <= 492 / 100000 + 8 * ulp f)%R.
Proof.
  intros m f Hf S F x H. pose proof (supported_fwf f Hf) as W. pose proof (fone_IZR_pos f (proj1 W)) as QR. pose proof (fone_le_max f W) as FM.
  assert (O : mixed_one (fixed_one m f) = Ok (fone f)).
  { unfold fixed_one, mixed_one, fx_of_int. rewrite Z.mul_1_l. apply fx_fin_ok. rewrite fvalid_iff, S. pose proof (fone_pos f (proj1 W)). lia. }
  assert (V1 : fval f (fone f) = 1%R) by (rewrite fval_eq by apply W; field; lra).
  assert (U : (0 < ulp f)%R) by (unfold ulp; apply bpow_gt_0).
  assert (U16 : (16 * ulp f <= 1)%R).
  { unfold ulp. apply Rle_trans with (16 * bpow radix2 (-4))%R; [apply Rmult_le_compat_l; [lra|apply bpow_le; lia]|]. change (bpow radix2 (-4)) with (/ 16)%R. lra. }
  assert (FM4 : (3 / 2 <= fval f (fmax f))%R).
  { rewrite fval_eq, fmax_val by (auto; apply W). assert (IZR 3 * IZR (fone f) <= IZR 2 * IZR (2 ^ (fwidth f - 1) - 1))%R by (rewrite <- !mult_IZR; apply IZR_le; pose proof (fone_pos f (proj1 W)); lia).
    apply Rmult_le_reg_r with (IZR (fone f)); auto. replace (IZR (2 ^ (fwidth f - 1) - 1) / IZR (fone f) * IZR (fone f))%R with (IZR (2 ^ (fwidth f - 1) - 1)) by (field; lra). lra. }
  set (M := Rmax (Rabs (fval f (fone f))) (Rabs (fval f x))).
  assert (A1 : Rabs (fval f (fone f)) = 1%R) by (rewrite V1; apply Rabs_R1).
  assert (M1 : (1 <= M)%R) by (unfold M; rewrite A1; apply Rmax_l).
  assert (MM : (1 <= M * M)%R) by nra.
  destruct (c24 m f Hf S x (fone f) (Ratan.atan (fval f x))) as (r & E & B).
  - fold M. lra.
  - fold M. unfold M, Rmax. destruct (Rle_dec _ _); [rewrite <- Rabs_mult, Rabs_pos_eq by apply Rle_0_sqr; auto | rewrite A1; lra].
  - rewrite V1. apply angle_atan.
  - exists r. split.
    + unfold Trig.atan. rewrite O. exact E.
    + eapply Rle_trans; [exact B|]. fold M. apply Rplus_le_compat_l. apply Rmult_le_compat_r; [lra|].
      assert (5 / (M * M) <= 5)%R; [|lra]. apply Rmult_le_reg_r with (M * M)%R; [lra|]. replace (5 / (M * M) * (M * M))%R with 5%R by (field; lra). nra.
Qed.
Definition atan1_claims {prec emax : Z} {Hp : Prec_gt_0 prec} {He : Prec_lt_emax prec emax} (top : R) : Prop :=
  forall x : binary_float prec emax, is_finite x = true -> (Rabs (B2R x) <= top)%R ->
  exists r, Trig.atan float_ops float_signed float_powi float_real float_zero float_pi float_abs float_one x = Ok r /\ is_finite r = true /\
    (Rabs (B2R r - Ratan.atan (B2R x)) <= 492 / 100000)%R.
Lemma atan1_of : forall {prec emax : Z} {Hp : Prec_gt_0 prec} {He : Prec_lt_emax prec emax}, 24 <= prec <= 100 -> prec + 20 <= emax <= 2000 ->
  @atan_claims prec emax Hp He -> @atan1_claims prec emax Hp He (bpow radix2 (emax / 2 - 3)).
Proof.
  intros prec emax Hp He P E C x Fx B.
  destruct (small_int (prec := prec) (emax := emax) (proj1 P) 1 ltac:(lia)) as [V1 F1].
  assert (H1 : (bpow radix2 (3 - emax / 2) <= 1 <= bpow radix2 (emax / 2 - 3))%R).
  { change 1%R with (bpow radix2 0). split; apply bpow_le; pose proof (Z.div_mod emax 2); pose proof (Z.mod_pos_bound emax 2); lia. }
  destruct (C x (float_of_Z prec emax 1) Fx F1 (Ratan.atan (B2R x))) as (r & Er & Fr & Br).
  - rewrite V1, Rabs_R1. split; [eapply Rle_trans; [apply H1|apply Rmax_l] | apply Rmax_lub; tauto].
  - rewrite V1. apply angle_atan.
  - exists r. split; [exact Er|]. auto.
Qed.
Lemma c56_f32 : @atan1_claims 24 128 _ _ (bpow radix2 61).
Proof. apply (atan1_of (prec := 24) (emax := 128)); try lia. apply atan_f32. Qed.
Lemma c56_f64 : @atan1_claims 53 1024 _ _ (bpow radix2 509).
Proof. apply (atan1_of (prec := 53) (emax := 1024)); try lia. apply atan_f64. Qed.

(** ** NaN *)
Lemma c57 : forall {prec emax : Z} {Hp : Prec_gt_0 prec} {He : Prec_lt_emax prec emax} (a : binary_float prec emax),
  (forall s, a <> B754_zero s) -> float_atan2_poly a B754_nan = Ok B754_nan /\ float_atan2_poly B754_nan a = Ok B754_nan.
Proof.
  intros prec emax Hp He a NZ. rewrite !atan2_float_eq.
  assert (E : o_eq float_ops a fzero = false) by (destruct a as [s'|[]| |[] ? ? ?]; try reflexivity; exfalso; eapply NZ; eauto).
  assert (Pn : forall a : binary_float prec emax, Bplus mode_NE a B754_nan = B754_nan) by (intros [| | |]; reflexivity).
  assert (Mn : forall a : binary_float prec emax, Bminus mode_NE a B754_nan = B754_nan) by (intros [| | |]; reflexivity).
  assert (Tn : forall a : binary_float prec emax, Bmult mode_NE a B754_nan = B754_nan) by (intros [| | |]; reflexivity).
  assert (Dn : forall a : binary_float prec emax, Bdiv mode_NE a B754_nan = B754_nan) by (intros [| | |]; reflexivity).
  assert (N1 : fp1 a B754_nan = B754_nan) by reflexivity. assert (N2 : fp2 a B754_nan = B754_nan) by reflexivity.
  assert (N3 : fp1 B754_nan a = B754_nan) by (unfold fp1; rewrite Tn; reflexivity). assert (N4 : fp2 B754_nan a = B754_nan) by (unfold fp2; rewrite Tn; reflexivity).
  assert (EN : o_eq float_ops (B754_nan : binary_float prec emax) fzero = false) by reflexivity.
  split; f_equal; unfold fatan2; rewrite ?E, ?EN, ?N1, ?N2, ?N3, ?N4, ?Pn, ?Mn.
  - destruct (o_lt _ _ _); [reflexivity|]. destruct (Bsign _ && _); reflexivity.
  - destruct (o_lt _ _ _); [destruct (Bsign a); reflexivity|]. destruct (Bsign _ && _); reflexivity.
Qed.
Lemma c57_lost : forall {prec emax : Z} {Hp : Prec_gt_0 prec} {He : Prec_lt_emax prec emax} s,
  float_atan2_poly (B754_zero s) (B754_nan : binary_float prec emax) = Ok (B754_zero false) /\
  forall p : binary_float prec emax, mixed_pi float_pi = Ok p ->
  float_atan2_poly (B754_nan : binary_float prec emax) (B754_zero s) = Ok (Bdiv mode_NE p (float_of_Z prec emax 2)).
Proof.
  intros prec emax Hp He s. rewrite !atan2_float_eq. split; [reflexivity|]. intros p Ep. injection Ep as <-. reflexivity.
Qed.

Lemma c28_defined :
  (forall y x : f32, is_finite y = true -> is_finite x = true ->
    (bpow radix2 (-61) <= Rmax (Rabs (B2R x)) (Rabs (B2R y)) <= bpow radix2 61)%R ->
    exists r, float_atan2_poly y x = Ok r /\ is_finite r = true) /\
  (forall y x : f64, is_finite y = true -> is_finite x = true ->
    (bpow radix2 (-509) <= Rmax (Rabs (B2R x)) (Rabs (B2R y)) <= bpow radix2 509)%R ->
    exists r, float_atan2_poly y x = Ok r /\ is_finite r = true).
Proof.
  assert (NZ : forall (u v : R) k, (bpow radix2 k <= Rmax (Rabs u) (Rabs v))%R -> u <> 0%R \/ v <> 0%R).
  { intros u v k H. pose proof (bpow_gt_0 radix2 k). destruct (Req_dec u 0) as [->|]; auto. destruct (Req_dec v 0) as [->|]; auto.
    rewrite Rabs_R0, Rmax_left in H by lra. lra. }
  split; intros y x Fy Fx B; destruct B as [B1 B2]; pose proof (angle_spec (B2R x) (B2R y) (NZ _ _ _ B1)) as A.
  - destruct (atan_f32 y x Fy Fx _ (conj B1 B2) A) as (r & E & F & _). eauto.
  - destruct (atan_f64 y x Fy Fx _ (conj B1 B2) A) as (r & E & F & _). eauto.
Qed.
Lemma c55_ex : (bpow radix2 (-61) <= Rmax (Rabs (-2)) (Rabs 3) <= bpow radix2 61)%R /\
  match float_atan2_poly (float_of_Z 24 128 3) (float_of_Z 24 128 (-2)) with
  | Ok r => B2SF r = SpecFloat.S754_finite false 9073911 (-22) | _ => False end.
Proof.
  split.
  - rewrite Rmax_right by (rewrite Rabs_left, Rabs_pos_eq; lra). rewrite Rabs_pos_eq by lra. split.
    + apply Rle_trans with (bpow radix2 0); [apply bpow_le; lia | simpl; lra].
    + apply Rle_trans with (bpow radix2 2); [simpl; lra | apply bpow_le; lia].
  - vm_compute. reflexivity.
Qed.
