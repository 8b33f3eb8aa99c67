(** * Proofs: how fast the polynomial arctangent follows the angle. *)

From Coq Require Import ZArith Reals Lia Lra Psatz Bool List.
From Flocq Require Import Core.Core IEEE754.BinarySingleNaN.
From Verif Require Import Base FloatBase Literals Traits Trig IntImpl FixedPrim FixedImpl FloatImpl Spec SpecAngle
  Lemmas ScalarProofs ScalarProofs2 WrapProofs WrapProofs2 FloatLemmas FloatProofs FloatKit SinReal SinFixed SinFloat TrigProofs
  AtanReal AtanFixed AtanProofs AtanFloat FloatU CrossSin CrossAtan OrderTrig.
Open Scope R_scope.

(** ** slope of the rational function against the arctangent *)
Lemma slope_deriv : forall k t, derivable_pt_lim (fun t => gap t + k * Ratan.atan t) t (gap' t + k * / (1 + t ^ 2)).
Proof.
  intros k t. apply derivable_pt_lim_plus; [apply gap_deriv|]. change (fun t0 => k * Ratan.atan t0) with (mult_real_fct k Ratan.atan). apply derivable_pt_lim_scal. apply derivable_pt_lim_atan.
Qed.
Lemma some_den : forall s, 0 <= s -> exists d, d = 1 + 9 / 32 * s /\ 1 <= d.
Proof. intros s S. eexists. split; [reflexivity|lra]. Qed.
Lemma slope_sign : forall t, -1 <= t <= 1 -> 0 <= gap' t + / 8 * / (1 + t ^ 2) /\ gap' t + - (16 / 1000) * / (1 + t ^ 2) <= 0.
Proof.
  intros t T. unfold gap'. set (s := t * t). assert (S : 0 <= s <= 1) by (unfold s; nra). replace (t ^ 2) with s by (unfold s; ring). destruct (some_den s) as (d & Dd & D); [lra|]. rewrite <- Dd. clearbody s.
  assert (E : forall k, s * (160 - 369 * s) / (1024 * (d * d) * (1 + s)) + k * / (1 + s) = (s * (160 - 369 * s) + k * 1024 * (d * d)) * (/ (1024 * (d * d) * (1 + s)))) by (intros k; field; repeat split; lra).
  rewrite !E. assert (P : 0 < / (1024 * (d * d) * (1 + s))) by (apply Rinv_0_lt_compat; nra). subst d. split.
  - apply Rmult_le_pos; [nra|lra].
  - rewrite <- Ropp_0, <- (Ropp_involutive (_ * _)). apply Ropp_le_contravar. rewrite Ropp_mult_distr_l. apply Rmult_le_pos; [|lra]. pose proof (Rle_0_sqr (s - 2036 / 10000)) as Q. unfold Rsqr in Q. lra.
Qed.
Lemma rat_slope : forall a b, -1 <= a -> a <= b -> b <= 1 -> 7 / 8 * (Ratan.atan b - Ratan.atan a) <= rat b - rat a <= 1016 / 1000 * (Ratan.atan b - Ratan.atan a).
Proof.
  intros a b A [L|<-] B; [|lra].
  destruct (MVT_cor2 _ _ a b L (fun c _ => slope_deriv (/ 8) c)) as (c & E & C). destruct (MVT_cor2 _ _ a b L (fun c _ => slope_deriv (- (16 / 1000)) c)) as (c' & E' & C').
  pose proof (proj1 (slope_sign c ltac:(lra))) as P. pose proof (proj2 (slope_sign c' ltac:(lra))) as N. unfold gap in E, E'. nra.
Qed.

(** ** sectors, with the larger coordinate *)
Lemma sector2 : forall x y, x <> 0 \/ y <> 0 -> exists s t, -1 <= t <= 1 /\ (Z.even s = true -> -1 < t < 1) /\ (Z.even s = true <-> Rabs y < Rabs x) /\
  angle y x = IZR s * (PI / 2) + Ratan.atan t /\ octant rat y x = IZR s * (PI / 2) + rat t.
Proof.
  intros x y H. rewrite angle_octant by auto. destruct (Rlt_or_le (Rabs y) (Rabs x)) as [L|L].
  - assert (X : x <> 0) by (intros ->; rewrite Rabs_R0 in L; pose proof (Rabs_pos y); lra).
    assert (T : -1 < y / x < 1).
    { apply Rabs_lt_inv. unfold Rdiv. rewrite Rabs_mult, Rabs_inv. apply Rmult_lt_reg_r with (Rabs x); [apply Rabs_pos_lt; auto|].
      rewrite Rmult_assoc, Rinv_l, Rmult_1_r, Rmult_1_l by (apply Rabs_no_R0; auto). exact L. }
    exists (if Rlt_dec 0 x then 0 else if Rle_dec 0 y then 2 else -2)%Z, (y / x). split; [lra|]. split; [auto|]. split; [split; auto; intros _; destruct (Rlt_dec 0 x), (Rle_dec 0 y); reflexivity|]. rewrite !octant_x by auto.
    destruct (Rlt_dec 0 x); [split; lra|]. destruct (Rle_dec 0 y); split; lra.
  - assert (Y : y <> 0). { destruct H; auto. intros ->. rewrite Rabs_R0 in L. apply Rabs_no_R0 in H. pose proof (Rabs_pos x). lra. }
    assert (T : -1 <= x / y <= 1).
    { apply Rabs_le_inv. unfold Rdiv. rewrite Rabs_mult, Rabs_inv. apply Rmult_le_reg_r with (Rabs y); [apply Rabs_pos_lt; auto|].
      rewrite Rmult_assoc, Rinv_l, Rmult_1_r, Rmult_1_l by (apply Rabs_no_R0; auto). exact L. }
    exists (if Rlt_dec 0 y then 1 else -1)%Z, (- (x / y)). split; [lra|]. split; [destruct (Rlt_dec 0 y); discriminate|].
    split; [split; [destruct (Rlt_dec 0 y); discriminate | lra]|]. rewrite !octant_y by auto. rewrite atan_opp, rat_odd.
    destruct (Rlt_dec 0 y); split; lra.
Qed.

Definition follows (y1 x1 y2 x2 a b d : R) : Prop :=
  7 / 8 * (b - a) <= d /\ (b - a < PI / 2 -> d <= 1016 / 1000 * (b - a) + 983 / 100000 /\ (Rabs y1 < Rabs x1 <-> Rabs y2 < Rabs x2 -> d <= 1016 / 1000 * (b - a))).
Lemma octant_follows : forall x1 y1 x2 y2, x1 <> 0 \/ y1 <> 0 -> x2 <> 0 \/ y2 <> 0 -> angle y1 x1 <= angle y2 x2 ->
  follows y1 x1 y2 x2 (angle y1 x1) (angle y2 x2) (octant rat y2 x2 - octant rat y1 x1).
Proof.
  intros x1 y1 x2 y2 N1 N2 H. destruct (sector2 x1 y1 N1) as (s1 & t1 & T1 & V1 & W1 & A1 & O1). destruct (sector2 x2 y2 N2) as (s2 & t2 & T2 & V2 & W2 & A2 & O2).
  unfold follows. rewrite <- W1, <- W2. rewrite A1, A2 in *. rewrite O1, O2. pose proof pi_bounds as PB. pose proof (atan_range t1 T1) as B1. pose proof (atan_range t2 T2) as B2.
  pose proof (rat_slope t1 1 ltac:(lra) ltac:(lra) ltac:(lra)) as C1. pose proof (rat_slope (-1) t2 ltac:(lra) ltac:(lra) ltac:(lra)) as C2.
  assert (E : rat 1 = 32 / 41) by (unfold rat, ratk; field). assert (E' : rat (-1) = - (32 / 41)) by (unfold rat, ratk; field). rewrite atan_1, E in C1. assert (AM : Ratan.atan (-1) = - (PI / 4)) by (replace (-1) with (Ropp 1) by lra; rewrite atan_opp, atan_1; reflexivity). rewrite AM, E' in C2.
  clear W1 W2 A1 A2 O1 O2 N1 N2. destruct (Z.lt_trichotomy s1 s2) as [L|[->|L]].
  - assert (K : IZR s1 + 1 <= IZR s2) by (rewrite <- plus_IZR; apply IZR_le; lia). split; [nra|]. intros Q.
    assert (s2 = s1 + 1)%Z. { destruct (Z.eq_dec s2 (s1 + 1)); auto. exfalso. assert (K' : IZR s1 + 2 <= IZR s2) by (rewrite <- plus_IZR; apply IZR_le; lia). nra. }
    subst s2. rewrite plus_IZR in *. split; [lra|]. intros [Q1 Q2]. exfalso. rewrite Z.even_add in Q1, Q2. destruct (Z.even s1); cbn in Q1, Q2; [specialize (Q1 eq_refl) | specialize (Q2 eq_refl)]; discriminate.
  - assert (Ratan.atan t1 <= Ratan.atan t2) by lra. assert (t1 <= t2). { destruct (Rle_lt_dec t1 t2) as [|Q]; auto. apply atan_increasing in Q. lra. }
    pose proof (rat_slope t1 t2 ltac:(lra) ltac:(lra) ltac:(lra)). split; [lra|]. intros _. split; [lra|]. intros _. lra.
  - exfalso. destruct (Z.eq_dec s1 (s2 + 1)) as [->|NE].
    + rewrite plus_IZR in H. assert (Q : Z.even (s2 + 1) = true \/ Z.even s2 = true).
      { rewrite Z.even_add. destruct (Z.even s2); auto. }
      destruct Q as [Q|Q]; [pose proof (atan_range_strict t1 (V1 Q)) | pose proof (atan_range_strict t2 (V2 Q))]; lra.
    + assert (IZR s2 + 2 <= IZR s1) by (rewrite <- plus_IZR; apply IZR_le; lia). nra.
Qed.
Lemma octant_follows_angle : forall x1 y1 x2 y2 a b, is_angle y1 x1 a -> is_angle y2 x2 b -> a <= b -> follows y1 x1 y2 x2 a b (octant rat y2 x2 - octant rat y1 x1).
Proof.
  intros x1 y1 x2 y2 a b A B L. pose proof (octant_follows x1 y1 x2 y2 (angle_nonzero _ _ _ A) (angle_nonzero _ _ _ B)) as K. rewrite <- (angle_is _ _ _ A), <- (angle_is _ _ _ B) in K. exact (K L).
Qed.

(** ** the two kinds of types *)
Lemma follow_fixed : forall m f, supported f = true -> fsigned f = true -> forall y1 x1 y2 x2 a b,
  let M1 := Rmax (Rabs (fval f x1)) (Rabs (fval f y1)) in let M2 := Rmax (Rabs (fval f x2)) (Rabs (fval f y2)) in
  16 * ulp f <= M1 * M1 -> 3 / 2 * (M1 * M1) <= fval f (fmax f) -> 16 * ulp f <= M2 * M2 -> 3 / 2 * (M2 * M2) <= fval f (fmax f) ->
  is_angle (fval f y1) (fval f x1) a -> is_angle (fval f y2) (fval f x2) b -> a <= b ->
  exists r s, fixed_atan2_poly m f y1 x1 = Ok r /\ fixed_atan2_poly m f y2 x2 = Ok s /\
  let d := fval f s - fval f r in let e := (6 + 5 / (M1 * M1) + 5 / (M2 * M2)) * ulp f + 2 / 1000000000000000 in
  7 / 8 * (b - a) - e <= d /\ (b - a < PI / 2 -> d <= 1016 / 1000 * (b - a) + 983 / 100000 + e /\
    ((Z.abs y1 < Z.abs x1 <-> Z.abs y2 < Z.abs x2)%Z -> d <= 1016 / 1000 * (b - a) + e)).
Proof.
  intros m f Hf S y1 x1 y2 x2 a b M1 M2 L1 U1 L2 U2 A B AB. cbv zeta.
  destruct (atan_fixed_rat m f Hf S y1 x1 L1 U1) as (r & Er & Ar). destruct (atan_fixed_rat m f Hf S y2 x2 L2 U2) as (s & Es & As). fold M1 in Ar. fold M2 in As.
  exists r, s. split; auto. split; auto. destruct (octant_follows_angle _ _ _ _ _ _ A B AB) as [F1 F2].
  set (e1 := (3 + 5 / (M1 * M1)) * ulp f) in *. set (e2 := (3 + 5 / (M2 * M2)) * ulp f) in *.
  assert (E : (6 + 5 / (M1 * M1) + 5 / (M2 * M2)) * ulp f = e1 + e2) by (unfold e1, e2; lra). rewrite E. clearbody e1 e2.
  assert (V : forall y x, (Rabs (fval f y) < Rabs (fval f x) <-> (Z.abs y < Z.abs x)%Z)).
  { intros y x. unfold fval. rewrite !Rabs_mult, <- !abs_IZR. pose proof (bpow_gt_0 radix2 (- ffrac f)) as P. rewrite (Rabs_pos_eq (bpow _ _)) by lra. split; intros H.
    - apply Rmult_lt_reg_r in H; auto. apply lt_IZR; auto. - apply Rmult_lt_compat_r; auto. apply IZR_lt; auto. }
  apply Rabs_le_inv in Ar, As. split; [lra|]. intros Q. destruct (F2 Q) as [F3 F4]. rewrite !V in F4. split; [lra|]. intros T. specialize (F4 T). lra.
Qed.

Notation follow_flt prec emax e u := (forall (y1 x1 y2 x2 : binary_float prec emax) a b, let M1 := Rmax (Rabs (B2R x1)) (Rabs (B2R y1)) in let M2 := Rmax (Rabs (B2R x2)) (Rabs (B2R y2)) in
   is_finite y1 = true -> is_finite x1 = true -> is_finite y2 = true -> is_finite x2 = true ->
   bpow radix2 (- e) <= M1 <= bpow radix2 e -> bpow radix2 (- e) <= M2 <= bpow radix2 e ->
   is_angle (B2R y1) (B2R x1) a -> is_angle (B2R y2) (B2R x2) b -> a <= b ->
   exists r s, float_atan2_poly y1 x1 = Ok r /\ float_atan2_poly y2 x2 = Ok s /\ is_finite r = true /\ is_finite s = true /\
   let d := B2R s - B2R r in 7 / 8 * (b - a) - 36 * u <= d /\ (b - a < PI / 2 -> d <= 1016 / 1000 * (b - a) + 983 / 100000 + 36 * u /\
    (Rabs (B2R y1) < Rabs (B2R x1) <-> Rabs (B2R y2) < Rabs (B2R x2) -> d <= 1016 / 1000 * (b - a) + 36 * u))).
Lemma follow_f32 : follow_flt 24%Z 128%Z 61%Z (bpow radix2 (-24)).
Proof.
  pose proof pi_bounds as PB. intros y1 x1 y2 x2 a b M1 M2 F1 F2 F3 F4 R1 R2 A B AB; destruct (octant_follows_angle _ _ _ _ _ _ A B AB) as [O1 O2].
    destruct f32_half_val as [Vh Fh]. destruct f32_pi_val as [Vp Fp].
    assert (Vh' : (B2R (@fhalf 24 128 _ _) = IZR 13176795 * / IZR 8388608)%R) by exact Vh.
    assert (Vp' : (B2R f32_pi = IZR 13176795 * / IZR 4194304)%R) by exact Vp.
    assert (K : forall yf xf : f32, is_finite yf = true -> is_finite xf = true -> bpow radix2 (-61) <= Rmax (Rabs (B2R xf)) (Rabs (B2R yf)) <= bpow radix2 61 ->
      is_finite (fatan2 yf xf) = true /\ Rabs (B2R (fatan2 yf xf) - octant rat (B2R yf) (B2R xf)) <= 18 * bpow radix2 (-24)).
    { intros yf xf Fy Fx M. destruct (@fatan2_U 24 128 _ _ ltac:(lia) ltac:(lia)) with (y := yf) (x := xf) as [Fs As]; auto.
      - rewrite Vh'. change (bpow radix2 (- (24))) with (/ 16777216)%R. apply Rabs_le. lra.
      - change (Rabs (B2R f32_pi - PI) <= 2 * bpow radix2 (- (24)))%R. rewrite Vp'. change (bpow radix2 (- (24))) with (/ 16777216)%R. apply Rabs_le. lra.
      - unfold fhalf. apply Bdiv_opp_l. }
    destruct (K y1 x1 F1 F2 R1) as [G1 E1]. destruct (K y2 x2 F3 F4 R2) as [G2 E2].
    exists (fatan2 y1 x1), (fatan2 y2 x2). split; [apply atan2_float_eq|]. split; [apply atan2_float_eq|]. split; [exact G1|]. split; [exact G2|]. apply Rabs_le_inv in E1, E2.
    cbv zeta. split; [lra|]. intros Q. destruct (O2 Q) as [O3 O4]. split; [lra|]. intros T. specialize (O4 T). lra.
Qed.
Lemma follow_f64 : follow_flt 53%Z 1024%Z 509%Z (bpow radix2 (-53)).
Proof.
  pose proof pi_bounds as PB. intros y1 x1 y2 x2 a b M1 M2 F1 F2 F3 F4 R1 R2 A B AB; destruct (octant_follows_angle _ _ _ _ _ _ A B AB) as [O1 O2].
    destruct f64_half_val as [Vh Fh]. destruct f64_pi_val as [Vp Fp].
    assert (Vh' : (B2R (@fhalf 53 1024 _ _) = IZR 7074237752028440 * / IZR 4503599627370496)%R) by exact Vh.
    assert (Vp' : (B2R f64_pi = IZR 7074237752028440 * / IZR 2251799813685248)%R) by exact Vp.
    assert (K : forall yf xf : f64, is_finite yf = true -> is_finite xf = true -> bpow radix2 (-509) <= Rmax (Rabs (B2R xf)) (Rabs (B2R yf)) <= bpow radix2 509 ->
      is_finite (fatan2 yf xf) = true /\ Rabs (B2R (fatan2 yf xf) - octant rat (B2R yf) (B2R xf)) <= 18 * bpow radix2 (-53)).
    { intros yf xf Fy Fx M. destruct (@fatan2_U 53 1024 _ _ ltac:(lia) ltac:(lia)) with (y := yf) (x := xf) as [Fs As]; auto.
      - rewrite Vh'. change (bpow radix2 (- (53))) with (/ 9007199254740992)%R. apply Rabs_le. lra.
      - change (Rabs (B2R f64_pi - PI) <= 2 * bpow radix2 (- (53)))%R. rewrite Vp'. change (bpow radix2 (- (53))) with (/ 9007199254740992)%R. apply Rabs_le. lra.
      - unfold fhalf. apply Bdiv_opp_l. }
    destruct (K y1 x1 F1 F2 R1) as [G1 E1]. destruct (K y2 x2 F3 F4 R2) as [G2 E2].
    exists (fatan2 y1 x1), (fatan2 y2 x2). split; [apply atan2_float_eq|]. split; [apply atan2_float_eq|]. split; [exact G1|]. split; [exact G2|]. apply Rabs_le_inv in E1, E2.
    cbv zeta. split; [lra|]. intros Q. destruct (O2 Q) as [O3 O4]. split; [lra|]. intros T. specialize (O4 T). lra.
Qed.

(** the jump over the diagonal, in every format *)
Lemma jump_fixed : forall m f, supported f = true -> fsigned f = true -> (4 <= ffrac f)%Z ->
  exists r s, fixed_atan2_poly m f (fone f - 1) (fone f) = Ok r /\ fixed_atan2_poly m f (fone f) (fone f) = Ok s /\ 98 / 10000 - 16 * ulp f <= fval f s - fval f r.
Proof.
  intros m f Hf S F4. pose proof (supported_fwf f Hf) as W. pose proof (fone_pos f (proj1 W)) as Q. pose proof (fone_IZR_pos f (proj1 W)) as QR.
  assert (V1 : fval f (fone f) = 1) by (rewrite fval_eq by apply W; field; lra).
  assert (UL : ulp f = / IZR (fone f)) by (unfold ulp; rewrite bpow_opp, fone_bpow by apply W; reflexivity).
  assert (V2 : fval f (fone f - 1) = 1 - ulp f) by (rewrite fval_eq, UL, minus_IZR by apply W; field; lra).
  assert (Q16 : (16 <= fone f)%Z) by (unfold fone; change 16%Z with (2 ^ 4)%Z; apply Z.pow_le_mono_r; lia).
  assert (UP : 0 < ulp f <= / 16) by (rewrite UL; split; [apply Rinv_0_lt_compat; auto | apply Rinv_le_contravar; [lra | apply IZR_le in Q16; lra]]).
  assert (MX : 3 / 2 <= fval f (fmax f)).
  { pose proof (fone_le_max f W) as LM. rewrite <- (Z.sub_add 1 (2 ^ (fwidth f - 1))), <- (fmax_val f S) in LM. rewrite fval_eq by apply W. apply Rmult_le_reg_r with (IZR (fone f)); auto. unfold Rdiv at 2. rewrite Rmult_assoc, Rinv_l, Rmult_1_r by lra. assert (K : (3 * fone f <= 2 * fmax f)%Z) by lia. apply IZR_le in K. rewrite !mult_IZR in K. lra. }
  assert (M1 : Rmax (Rabs (fval f (fone f))) (Rabs (fval f (fone f - 1))) = 1) by (rewrite V1, V2, Rabs_R1, Rabs_pos_eq, Rmax_left by lra; reflexivity).
  assert (M2 : Rmax (Rabs (fval f (fone f))) (Rabs (fval f (fone f))) = 1) by (rewrite V1, Rabs_R1, Rmax_left by lra; reflexivity).
  destruct (atan_fixed_rat m f Hf S (fone f - 1) (fone f)) as (r & Er & Ar); [rewrite M1; lra | rewrite M1; lra |].
  destruct (atan_fixed_rat m f Hf S (fone f) (fone f)) as (s & Es & As); [rewrite M2; lra | rewrite M2; lra |].
  exists r, s. split; auto. split; auto. rewrite M1 in Ar. rewrite M2 in As. rewrite V1 in *. rewrite V2 in Ar. rewrite octant_y in As by (rewrite ?Rabs_R1; lra). rewrite octant_x in Ar by (rewrite Rabs_R1, Rabs_pos_eq by lra; lra).
  destruct (Rlt_dec 0 1); [|lra]. assert (E : rat (1 / 1) = 32 / 41) by (unfold rat, ratk; field). rewrite E in As.
  pose proof (rat_mono ((1 - ulp f) / 1) 1 ltac:(lra) ltac:(lra) ltac:(lra)) as R. replace (rat 1) with (32 / 41) in R by (unfold rat, ratk; field). pose proof pi_bounds as PB.
  apply Rabs_le_inv in Ar, As. replace (5 / (1 * 1)) with 5 in * by field. lra.
Qed.
