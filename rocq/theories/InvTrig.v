(** * The polynomial arctangent undoes the polynomial sine and cosine. *)

From Coq Require Import ZArith Reals Lia Lra Psatz Bool List.
From Flocq Require Import Core.Core IEEE754.BinarySingleNaN.
From Verif Require Import Base FloatBase Literals Traits Trig IntImpl FixedPrim FixedImpl FloatImpl Spec SpecAngle
  Lemmas FloatLemmas FloatKit ScalarProofs ScalarProofs2 WrapProofs WrapProofs2 SinReal SinFixed SinFloat AtanReal AtanFixed AtanFloat TrigProofs AtanProofs TrigMore.
Open Scope Z_scope.

Section Real.
Open Scope R_scope.

Lemma le_tan : forall t, 0 <= t < PI / 2 -> t <= tan t.
Proof.
  intros t [H0 H1]. rewrite <- (atan_tan t) at 1 by lra.
  assert (T0 : 0 <= tan t). { destruct H0 as [H0|<-]; [left; apply tan_gt_0; lra|rewrite tan_0; lra]. }
  destruct T0 as [T0|T0]; [|rewrite <- T0, Ratan.atan_0; lra].
  destruct (MVT_cor2 Ratan.atan (fun x => / (1 + x ^ 2)) 0 (tan t) T0) as (c & E & C); [intros; apply derivable_pt_lim_atan|].
  rewrite Ratan.atan_0 in E. assert (/ (1 + c ^ 2) <= 1). { rewrite <- Rinv_1. apply Rinv_le; nra. } nra.
Qed.
(** an angle whose sine is small and whose cosine is not *)
Lemma small_angle : forall t a b, - PI <= t <= PI -> 0 < b -> b * Rabs (Rtrigo_def.sin t) <= a * Rtrigo_def.cos t -> 0 < Rtrigo_def.cos t -> Rabs t <= a / b.
Proof.
  intros t a b T B H C. assert (L : Rabs t < PI / 2).
  { pose proof PI_RGT_0 as P. destruct (Rle_lt_dec (PI / 2) (Rabs t)) as [L|L]; auto. exfalso.
    assert (Rtrigo_def.cos (Rabs t) <= 0) by (apply cos_le_0; [auto|apply Rle_trans with PI; [apply Rabs_le; lra|lra]]).
    unfold Rabs in *. destruct (Rcase_abs t); [rewrite cos_neg in *|]; lra. }
  assert (E : Rtrigo_def.cos t = Rtrigo_def.cos (Rabs t) /\ Rabs (Rtrigo_def.sin t) = Rtrigo_def.sin (Rabs t)).
  { pose proof PI_RGT_0. split; [unfold Rabs; destruct (Rcase_abs t); rewrite ?cos_neg; auto|].
    unfold Rabs at 2. destruct (Rcase_abs t) as [N|N].
    - rewrite sin_neg. apply Rabs_left1. rewrite <- (Ropp_involutive t), sin_neg. assert (0 <= Rtrigo_def.sin (- t)) by (apply sin_ge_0; lra). lra.
    - apply Rabs_pos_eq. apply sin_ge_0; lra. }
  destruct E as [E1 E2]. rewrite E1, E2 in H. rewrite E1 in C. pose proof (le_tan (Rabs t) ltac:(split; [apply Rabs_pos|auto])) as K. unfold tan in K.
  eapply Rle_trans; [exact K|]. apply Rmult_le_reg_r with (b * Rtrigo_def.cos (Rabs t)); [apply Rmult_lt_0_compat; auto|].
  replace (Rtrigo_def.sin (Rabs t) / Rtrigo_def.cos (Rabs t) * (b * Rtrigo_def.cos (Rabs t))) with (b * Rtrigo_def.sin (Rabs t)) by (field; lra).
  replace (a / b * (b * Rtrigo_def.cos (Rabs t))) with (a * Rtrigo_def.cos (Rabs t)) by (field; lra). exact H.
Qed.
Lemma cs_sum : forall x, Rabs (Rtrigo_def.cos x) + Rabs (Rtrigo_def.sin x) <= 1415 / 1000.
Proof.
  intros x. pose proof (sin2_cos2 x) as P. unfold Rsqr in P. set (s := Rtrigo_def.sin x) in *. set (c := Rtrigo_def.cos x) in *.
  assert (Q : (Rabs c + Rabs s) * (Rabs c + Rabs s) <= 2). { pose proof (Rle_0_sqr (Rabs c - Rabs s)) as K. unfold Rsqr in K.
    assert (Rabs c * Rabs c = c * c) by (unfold Rabs; destruct (Rcase_abs c); ring). assert (Rabs s * Rabs s = s * s) by (unfold Rabs; destruct (Rcase_abs s); ring). nra. }
  pose proof (Rabs_pos c). pose proof (Rabs_pos s). nra.
Qed.
(** The angle of a point near (cos x, sin x) is near x modulo a turn. *)
Lemma near_point : forall x s c d th, 0 <= d <= / 20 -> Rabs x <= PI -> Rabs (s - Rtrigo_def.sin x) <= d -> Rabs (c - Rtrigo_def.cos x) <= d -> is_angle s c th ->
  (exists k, (-1 <= k <= 1)%Z /\ Rabs (th - (x + IZR k * (2 * PI))) <= 153 / 100 * d /\ (Rabs x <= 3 -> k = 0%Z)) /\
  43 / 100 <= Rmax (Rabs c) (Rabs s) * Rmax (Rabs c) (Rabs s) <= 1103 / 1000.
Proof.
  intros x s c d th D X S C [T (rho & R0 & Ec & Es)]. pose proof PI_RGT_0 as P0. pose proof pi_bounds as PB. apply Rabs_le_inv in X.
  pose proof (cs_sum x) as CS. set (sx := Rtrigo_def.sin x) in *. set (cx := Rtrigo_def.cos x) in *.
  pose proof (sin2_cos2 x) as PY. unfold Rsqr in PY. fold sx cx in PY.
  assert (ES : rho * Rtrigo_def.sin (th - x) = (s - sx) * cx - (c - cx) * sx). { rewrite sin_minus. fold sx cx. rewrite Es, Ec. ring. }
  assert (EC : rho * Rtrigo_def.cos (th - x) = 1 + ((c - cx) * cx + (s - sx) * sx)). { rewrite cos_minus. fold sx cx. rewrite Es, Ec. nra. }
  assert (BS : rho * Rabs (Rtrigo_def.sin (th - x)) <= 1415 / 1000 * d).
  { rewrite <- (Rabs_pos_eq rho) at 1 by lra. rewrite <- Rabs_mult, ES. unfold Rminus at 1. eapply Rle_trans; [apply Rabs_triang|]. rewrite Rabs_Ropp, !Rabs_mult.
    pose proof (Rabs_pos cx). pose proof (Rabs_pos sx).
    assert (Rabs (s - sx) * Rabs cx <= d * Rabs cx) by (apply Rmult_le_compat_r; auto). assert (Rabs (c - cx) * Rabs sx <= d * Rabs sx) by (apply Rmult_le_compat_r; auto). nra. }
  assert (BC : 1 - 1415 / 1000 * d <= rho * Rtrigo_def.cos (th - x)).
  { rewrite EC. assert (K : Rabs ((c - cx) * cx + (s - sx) * sx) <= 1415 / 1000 * d).
    { eapply Rle_trans; [apply Rabs_triang|]. rewrite !Rabs_mult. pose proof (Rabs_pos cx). pose proof (Rabs_pos sx).
      assert (Rabs (s - sx) * Rabs sx <= d * Rabs sx) by (apply Rmult_le_compat_r; auto). assert (Rabs (c - cx) * Rabs cx <= d * Rabs cx) by (apply Rmult_le_compat_r; auto). nra. }
    apply Rabs_le_inv in K. lra. }
  split.
  - assert (K : exists k, (-1 <= k <= 1)%Z /\ - PI <= th - (x + IZR k * (2 * PI)) <= PI).
    { destruct (Rlt_le_dec PI (th - x)) as [H|H]; [exists 1%Z; split; [lia|lra]|]. destruct (Rlt_le_dec (th - x) (- PI)) as [H'|H']; [exists (-1)%Z; split; [lia|lra]|].
      exists 0%Z. split; [lia|lra]. }
    destruct K as (k & KZ & K). exists k. split; [exact KZ|]. set (t := th - (x + IZR k * (2 * PI))) in *.
    assert (TS : Rtrigo_def.sin (th - x) = Rtrigo_def.sin t /\ Rtrigo_def.cos (th - x) = Rtrigo_def.cos t).
    { assert (th - x = t \/ th - x = t + 2 * PI \/ t + 2 * PI - 2 * (2 * PI) = th - x) as [E|[E|E]].
      { unfold t. assert (k = 0 \/ k = 1 \/ k = -1)%Z as [Z0|[Z0|Z0]] by lia; rewrite Z0; [left|right;left|right;right]; ring. }
      - rewrite E. auto.
      - rewrite E, sin_plus, cos_plus, sin_2PI, cos_2PI. split; ring.
      - rewrite <- E. replace (t + 2 * PI - 2 * (2 * PI)) with (t - 2 * PI) by ring. rewrite sin_minus, cos_minus, sin_2PI, cos_2PI. split; ring. }
    destruct TS as [TS TC]. rewrite TS in BS. rewrite TC in BC. 
    assert (CT : 0 < Rtrigo_def.cos t). { apply Rmult_lt_reg_l with rho; [lra|]. rewrite Rmult_0_r. eapply Rlt_le_trans; [|exact BC]. lra. }
    assert (KT : Rabs t <= (1415 / 1000 * d) / (1 - 1415 / 1000 * d)).
    { apply small_angle; auto; [lra|]. apply Rmult_le_reg_l with rho; [lra|].
      replace (rho * ((1 - 1415 / 1000 * d) * Rabs (Rtrigo_def.sin t))) with ((1 - 1415 / 1000 * d) * (rho * Rabs (Rtrigo_def.sin t))) by ring.
      replace (rho * (1415 / 1000 * d * Rtrigo_def.cos t)) with (rho * Rtrigo_def.cos t * (1415 / 1000 * d)) by ring.
      apply Rmult_le_compat; try lra. apply Rmult_le_pos; [lra|apply Rabs_pos]. }
    assert (KB : Rabs t <= 153 / 100 * d).
    { eapply Rle_trans; [exact KT|]. apply Rmult_le_reg_r with (1 - 1415 / 1000 * d); [lra|]. unfold Rdiv at 1. rewrite Rmult_assoc, Rinv_l, Rmult_1_r by lra.
      assert (0 <= d * (/ 20 - d)) by (apply Rmult_le_pos; lra). nra. }
    split; [exact KB|]. intros X3. apply Rabs_le_inv in X3, KB. unfold t in KB.
    assert (k = 0 \/ k = 1 \/ k = -1)%Z as [Z0|[Z0|Z0]] by lia; auto; exfalso; rewrite Z0 in KB; lra.
  - assert (N : (1 - 1415 / 1000 * d) * (1 - 1415 / 1000 * d) <= rho * rho).
    { assert (1 - 1415 / 1000 * d <= rho). { eapply Rle_trans; [exact BC|]. rewrite <- (Rmult_1_r rho) at 2. apply Rmult_le_compat_l; [lra|apply COS_bound]. }
      apply Rmult_le_compat; lra. }
    assert (NN : c * c + s * s = rho * rho). { rewrite Ec, Es. pose proof (sin2_cos2 th) as Q. unfold Rsqr in Q. nra. }
    assert (MB : forall v w, Rabs (v - w) <= d -> Rabs w <= 1 -> Rabs v <= 21 / 20).
    { intros v w H H'. replace v with ((v - w) + w) by ring. eapply Rle_trans; [apply Rabs_triang|]. lra. }
    assert (B1 : Rabs c <= 21 / 20) by (apply (MB c cx); auto; apply Rabs_le; apply COS_bound).
    assert (B2 : Rabs s <= 21 / 20) by (apply (MB s sx); auto; apply Rabs_le; apply SIN_bound).
    assert (A1 : Rabs c * Rabs c = c * c) by (unfold Rabs; destruct (Rcase_abs c); ring). assert (A2 : Rabs s * Rabs s = s * s) by (unfold Rabs; destruct (Rcase_abs s); ring).
    assert (LO : 863 / 1000 <= rho * rho) by (assert (d * (1 - 20 * d) >= 0) by nra; nra).
    pose proof (Rabs_pos c). pose proof (Rabs_pos s). unfold Rmax. destruct (Rle_dec (Rabs c) (Rabs s)) as [L|L]; [rewrite A2|rewrite A1]; split; try nra.
Qed.
Lemma near_origin : forall s c x d, 0 <= d <= / 20 -> Rabs (s - Rtrigo_def.sin x) <= d -> Rabs (c - Rtrigo_def.cos x) <= d -> c <> 0 \/ s <> 0.
Proof.
  intros s c x d D S C. destruct (Req_dec c 0) as [E|E]; auto. destruct (Req_dec s 0) as [E'|E']; auto. exfalso. subst.
  pose proof (sin2_cos2 x) as P. unfold Rsqr in P. apply Rabs_le_inv in S, C. nra.
Qed.
End Real.

Lemma inv_fixed : forall m f, supported f = true -> fsigned f = true -> 8 <= ffrac f <= fwidth f - 20 -> forall x, (Rabs (fval f x) <= PI)%R ->
  exists s c r k, sin (fixed_ops m f) (fixed_signed m f) (fixed_pi m f) (fixed_powi m f) x = Ok s /\
  returns (fun fuel => cos (fixed_ops m f) (fixed_signed m f) (fixed_pi m f) (fixed_powi m f) fuel x) c /\
  fixed_atan2_poly m f s c = Ok r /\ -1 <= k <= 1 /\ ((Rabs (fval f x) <= 3)%R -> k = 0) /\
  (Rabs (fval f r - (fval f x + IZR k * (2 * PI))) <= 493 / 100000 + 26 * ulp f)%R.
Proof.
  intros m f Hf S [F8 I] x X. pose proof (supported_fwf f Hf) as W. pose proof (supported_inv f Hf) as HI. pose proof (pi_bits_bounds f W) as PB. pose proof (fone_pos f (proj1 W)) as Q.
  destruct (c19 m f Hf S I) as (p & Ep & XP & A). destruct (c21 m f Hf S I) as (p' & Ep' & B).
  assert (Pe : p = pi_bits f) by (rewrite fixed_pi_eq in Ep by auto; congruence). assert (Pe' : p' = p) by congruence. subst p'.
  pose proof (XP x X) as H. destruct (A x H) as (s & Es & As).
  assert (HZ : Z.abs x <= p) by (rewrite fval_abs, fval_le in H by apply W; exact H).
  assert (V : fvalid f x). { pose proof (room f W I). apply fvalid_iff. rewrite S. lia. }
  destruct (B x V) as (c & Ec & Ac).
  { pose proof (room f W I) as RM. rewrite !fval_eq by apply W. pose proof (fone_IZR_pos f (proj1 W)) as P. unfold Rdiv.
    assert (K : (IZR x + IZR p * / 2 <= IZR (fmax f))%R).
    { rewrite fmax_signed by auto. assert (L : 2 * x + p <= 2 * (2 ^ (fwidth f - 1) - 1)) by lia. apply IZR_le in L. rewrite plus_IZR, !mult_IZR in L. lra. }
    replace (IZR x * / IZR (fone f) + IZR p * / IZR (fone f) * / 2)%R with ((IZR x + IZR p * / 2) * / IZR (fone f))%R by ring.
    apply Rmult_le_compat_r; [apply Rlt_le, Rinv_0_lt_compat; auto|auto]. }
  assert (U : (0 < ulp f <= / 256)%R). { split; [apply bpow_gt_0|]. change (/ 256)%R with (bpow radix2 (-8)). apply bpow_le. lia. }
  pose proof pi_bounds as PI1. set (d := (5 / 1000000 + 67 / 10 * ulp f)%R).
  assert (D : (0 <= d <= / 20)%R) by (unfold d; lra).
  assert (S1 : (Rabs (fval f s - Rtrigo_def.sin (fval f x)) <= d)%R) by (unfold d; lra).
  assert (C1 : (Rabs (fval f c - Rtrigo_def.cos (fval f x)) <= d)%R).
  { eapply Rle_trans; [exact Ac|]. unfold d. assert (Rabs (fval f x) / 5 * ulp f <= 7 / 10 * ulp f)%R by (apply Rmult_le_compat_r; lra). lra. }
  pose proof (near_origin _ _ _ _ D S1 C1) as NZ. pose proof (angle_spec _ _ NZ) as TH.
  destruct (near_point _ _ _ _ _ D X S1 C1 TH) as [(k & KZ & KB & K0) [M1 M2]]. set (M := Rmax (Rabs (fval f c)) (Rabs (fval f s))) in *.
  destruct (c24 m f Hf S s c (angle (fval f s) (fval f c))) with (3 := TH) as (r & Er & Ar).
  - fold M. lra.
  - fold M. apply Rle_trans with 2%R; [lra|]. rewrite fval_eq, fmax_signed by (auto; apply W). pose proof (fone_IZR_pos f (proj1 W)) as P.
    apply Rmult_le_reg_r with (IZR (fone f)); auto. unfold Rdiv. rewrite Rmult_assoc, Rinv_l, Rmult_1_r by lra. rewrite <- mult_IZR. apply IZR_le.
    unfold fone. assert (2 ^ (fwidth f - 1) = 2 ^ (fwidth f - 1 - ffrac f) * 2 ^ ffrac f) by (rewrite <- Z.pow_add_r by lia; f_equal; lia).
    assert (2 ^ 3 <= 2 ^ (fwidth f - 1 - ffrac f)) by (apply Z.pow_le_mono_r; lia). unfold fone in Q. nia.
  - fold M in Ar. exists s, c, r, k. split; [exact Es|]. split; [exact Ec|]. split; [exact Er|]. split; [exact KZ|]. split; [exact K0|].
    assert (MM : (5 / (M * M) <= 1163 / 100)%R). { apply Rmult_le_reg_r with (M * M)%R; [lra|]. unfold Rdiv at 1. rewrite Rmult_assoc, Rinv_l, Rmult_1_r by lra. lra. }
    assert (MU : ((3 + 5 / (M * M)) * ulp f <= 1463 / 100 * ulp f)%R) by (apply Rmult_le_compat_r; lra).
    set (th := angle (fval f s) (fval f c)) in *. replace (fval f r - (fval f x + IZR k * (2 * PI)))%R with ((fval f r - th) + (th - (fval f x + IZR k * (2 * PI))))%R by ring.
    eapply Rle_trans; [apply Rabs_triang|]. unfold d in KB. lra.
Qed.

Lemma inv_f32 : forall x : f32, is_finite x = true -> (Rabs (B2R x) <= PI)%R ->
  exists (s c r : f32) k, sin float_ops float_signed float_pi float_powi x = Ok s /\
  (forall fuel, (2 <= fuel)%nat -> cos float_ops float_signed float_pi float_powi fuel x = Ok c) /\
  float_atan2_poly s c = Ok r /\ is_finite r = true /\ -1 <= k <= 1 /\ ((Rabs (B2R x) <= 3)%R -> k = 0) /\ (Rabs (B2R r - (B2R x + IZR k * (2 * PI))) <= 493 / 100000)%R.
Proof.
  intros x F X. destruct c22_f32 as (_ & p & Ep & XP & A). destruct c54_f32 as (p' & Ep' & B). rewrite Ep in Ep'. injection Ep' as Ep'. subst p'. pose proof (XP x F X) as H.
  destruct (A x F H) as (s & Es & Fs & As). destruct (B x F H) as (c & Fc & Ac & Ec).
  assert (D : (0 <= 5 / 1000000 <= / 20)%R) by lra.
  pose proof (near_origin _ _ _ _ D As Ac) as NZ. pose proof (angle_spec _ _ NZ) as TH.
  destruct (near_point _ _ _ _ _ D X As Ac TH) as [(k & KZ & KB & K0) [M1 M2]].
  set (M := Rmax (Rabs (B2R c)) (Rabs (B2R s))) in *. assert (M0 : (0 <= M)%R) by (unfold M; eapply Rle_trans; [apply Rabs_pos|apply Rmax_l]).
  destruct (atan_f32 s c Fs Fc (angle (B2R s) (B2R c))) with (2 := TH) as (r & Er & Fr & Ar).
  { fold M. split; [apply Rle_trans with (/ 2)%R; [change (/ 2)%R with (bpow radix2 (-1)); apply bpow_le; vm_compute; discriminate|nra]|apply Rle_trans with 2%R; [nra|change 2%R with (bpow radix2 1); apply bpow_le; vm_compute; discriminate]]. }
  exists s, c, r, k. repeat (split; auto; try lia). set (th := angle (B2R s) (B2R c)) in *.
  replace (B2R r - (B2R x + IZR k * (2 * PI)))%R with ((B2R r - th) + (th - (B2R x + IZR k * (2 * PI))))%R by ring. eapply Rle_trans; [apply Rabs_triang|]. lra.
Qed.
Lemma inv_f64 : forall x : f64, is_finite x = true -> (Rabs (B2R x) <= PI)%R ->
  exists (s c r : f64) k, sin float_ops float_signed float_pi float_powi x = Ok s /\
  (forall fuel, (2 <= fuel)%nat -> cos float_ops float_signed float_pi float_powi fuel x = Ok c) /\
  float_atan2_poly s c = Ok r /\ is_finite r = true /\ -1 <= k <= 1 /\ ((Rabs (B2R x) <= 3)%R -> k = 0) /\ (Rabs (B2R r - (B2R x + IZR k * (2 * PI))) <= 493 / 100000)%R.
Proof.
  intros x F X. destruct c22_f64 as (_ & p & Ep & XP & A). destruct c54_f64 as (p' & Ep' & B). rewrite Ep in Ep'. injection Ep' as Ep'. subst p'. pose proof (XP x F X) as H.
  destruct (A x F H) as (s & Es & Fs & As). destruct (B x F H) as (c & Fc & Ac & Ec).
  assert (D : (0 <= 5 / 1000000 <= / 20)%R) by lra.
  pose proof (near_origin _ _ _ _ D As Ac) as NZ. pose proof (angle_spec _ _ NZ) as TH.
  destruct (near_point _ _ _ _ _ D X As Ac TH) as [(k & KZ & KB & K0) [M1 M2]].
  set (M := Rmax (Rabs (B2R c)) (Rabs (B2R s))) in *. assert (M0 : (0 <= M)%R) by (unfold M; eapply Rle_trans; [apply Rabs_pos|apply Rmax_l]).
  destruct (atan_f64 s c Fs Fc (angle (B2R s) (B2R c))) with (2 := TH) as (r & Er & Fr & Ar).
  { fold M. split; [apply Rle_trans with (/ 2)%R; [change (/ 2)%R with (bpow radix2 (-1)); apply bpow_le; vm_compute; discriminate|nra]|apply Rle_trans with 2%R; [nra|change 2%R with (bpow radix2 1); apply bpow_le; vm_compute; discriminate]]. }
  exists s, c, r, k. repeat (split; auto; try lia). set (th := angle (B2R s) (B2R c)) in *.
  replace (B2R r - (B2R x + IZR k * (2 * PI)))%R with ((B2R r - th) + (th - (B2R x + IZR k * (2 * PI))))%R by ring. eapply Rle_trans; [apply Rabs_triang|]. lra.
Qed.
