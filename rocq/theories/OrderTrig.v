(** * The polynomial sine and arctangent keep order up to rounding. *)

From Coq Require Import ZArith Reals Lia Lra Psatz Bool List.
From Flocq Require Import Core.Core IEEE754.BinarySingleNaN.
From Verif Require Import Base FloatBase Literals Traits Trig IntImpl FixedPrim FixedImpl FloatImpl Spec SpecAngle
  Lemmas ScalarProofs ScalarProofs2 WrapProofs WrapProofs2 FloatLemmas FloatProofs FloatKit SinReal SinFixed SinFloat TrigProofs
  AtanReal AtanFixed AtanFloat FloatU CrossSin CrossAtan.
Open Scope Z_scope.

(** ** sine *)
Section S.
Open Scope R_scope.
Lemma fact_2 : INR (fact 2) = 2.  Proof. simpl. ring. Qed.
Lemma fact_4 : INR (fact 4) = 24.  Proof. simpl. ring. Qed.
Lemma fact_6 : INR (fact 6) = 720.
Proof. change (fact 6) with (6 * (5 * fact 4))%nat. rewrite !mult_INR, fact_4. simpl. ring. Qed.
Lemma fact_8 : INR (fact 8) = 40320.
Proof. change (fact 8) with (8 * (7 * fact 6))%nat. rewrite !mult_INR, fact_6. simpl. ring. Qed.
Lemma P9'_pos : forall x, - (PI / 2) <= x <= PI / 2 -> 0 <= P9' x.
Proof.
  intros x H. pose proof (cos_bound x 1 ltac:(lra) ltac:(lra)) as [_ B]. pose proof (cos_ge_0 x ltac:(lra) ltac:(lra)) as C.
  eapply Rle_trans; [exact C|]. eapply Rle_trans; [exact B|]. change (2 * (1 + 1))%nat with 4%nat. unfold cos_approx, cos_term. cbn [sum_f_R0 Nat.mul Nat.add].
  rewrite fact_2, fact_4, fact_6, fact_8. unfold P9'. change (INR (fact 0)) with 1. apply Req_le. cbn [pow]. field.
Qed.
Lemma P9_incr : forall a b, - (PI / 2) <= a -> a <= b -> b <= PI / 2 -> P9 a <= P9 b.
Proof.
  intros a b A L B. destruct (Req_dec a b) as [->|N]; [lra|]. destruct (MVT_cor2 P9 P9' a b ltac:(lra)) as (c & E & C); [intros; apply P9_deriv|].
  pose proof (P9'_pos c ltac:(lra)). nra.
Qed.
Lemma rfold_mid : forall x, - (PI / 2) <= x <= PI / 2 -> rfold (PI / 2) x = x.
Proof. intros x H. rewrite rfold_cases by lra. destruct (Rlt_dec _ _); [lra|]. destruct (Rlt_dec _ _); lra. Qed.
Lemma rfold_high : forall x, PI / 2 <= x <= PI -> rfold (PI / 2) x = PI - x.
Proof. intros x H. rewrite rfold_cases by lra. destruct (Rlt_dec _ _); [lra|]. destruct (Rlt_dec _ _); lra. Qed.
Lemma rfold_low : forall x, - PI <= x <= - (PI / 2) -> rfold (PI / 2) x = - PI - x.
Proof. intros x H. rewrite rfold_cases by lra. destruct (Rlt_dec _ _); [lra|]. destruct (Rlt_dec _ _); lra. Qed.

(** between the turning points the folded polynomial rises, elsewhere it falls *)
Lemma fold_order : forall a b, - PI <= a -> a <= b -> b <= PI ->
  (- (PI / 2) <= a -> b <= PI / 2 -> P9 (rfold (PI / 2) a) <= P9 (rfold (PI / 2) b)) /\
  (PI / 2 <= a \/ b <= - (PI / 2) -> P9 (rfold (PI / 2) b) <= P9 (rfold (PI / 2) a)).
Proof.
  intros a b A L B. pose proof PI_RGT_0. split.
  - intros A' B'. rewrite !rfold_mid by lra. apply P9_incr; lra.
  - intros [A'|B']; [rewrite !rfold_high by lra | rewrite !rfold_low by lra]; apply P9_incr; lra.
Qed.

Lemma sin_order_fixed : forall m f, supported f = true -> fsigned f = true -> (ffrac f <= fwidth f - 20)%Z -> forall x y,
  - PI <= fval f x -> fval f x <= fval f y -> fval f y <= PI -> exists r s,
  sin (fixed_ops m f) (fixed_signed m f) (fixed_pi m f) (fixed_powi m f) x = Ok r /\
  sin (fixed_ops m f) (fixed_signed m f) (fixed_pi m f) (fixed_powi m f) y = Ok s /\
  (- (PI / 2) <= fval f x -> fval f y <= PI / 2 -> fval f r <= fval f s + 81 / 10 * ulp f) /\
  (PI / 2 <= fval f x \/ fval f y <= - (PI / 2) -> fval f s <= fval f r + 81 / 10 * ulp f).
Proof.
  intros m f Hf Sg I x y X L Y. pose proof (supported_fwf f Hf) as W. pose proof (supported_inv f Hf) as HI.
  assert (F44 : (ffrac f <= 44)%Z) by lia. assert (UP : 0 < ulp f) by apply bpow_gt_0.
  destruct (sin_fixed_P9 m f W Sg I F44 x) as (r & Er & _ & Ar); [apply below_pi; auto; try lia; apply Rabs_le; lra|].
  destruct (sin_fixed_P9 m f W Sg I F44 y) as (s & Es & _ & As); [apply below_pi; auto; try lia; apply Rabs_le; lra|].
  exists r, s. split; [exact Er|]. split; [exact Es|]. destruct (fold_order (fval f x) (fval f y) X L Y) as [O1 O2].
  apply Rabs_le_inv in Ar, As. split; intros H; [intros H'; specialize (O1 H H') | specialize (O2 H)]; lra.
Qed.
Lemma sin_order_float : 
  (forall x y : f32, is_finite x = true -> is_finite y = true -> - PI <= B2R x -> B2R x <= B2R y -> B2R y <= PI -> exists r s,
   sin float_ops float_signed float_pi float_powi x = Ok r /\ sin float_ops float_signed float_pi float_powi y = Ok s /\ is_finite r = true /\ is_finite s = true /\
   (- (PI / 2) <= B2R x -> B2R y <= PI / 2 -> B2R r <= B2R s + 19 * bpow radix2 (-24)) /\
   (PI / 2 <= B2R x \/ B2R y <= - (PI / 2) -> B2R s <= B2R r + 19 * bpow radix2 (-24))) /\
  (forall x y : f64, is_finite x = true -> is_finite y = true -> - PI <= B2R x -> B2R x <= B2R y -> B2R y <= PI -> exists r s,
   sin float_ops float_signed float_pi float_powi x = Ok r /\ sin float_ops float_signed float_pi float_powi y = Ok s /\ is_finite r = true /\ is_finite s = true /\
   (- (PI / 2) <= B2R x -> B2R y <= PI / 2 -> B2R r <= B2R s + 19 * bpow radix2 (-53)) /\
   (PI / 2 <= B2R x \/ B2R y <= - (PI / 2) -> B2R s <= B2R r + 19 * bpow radix2 (-53))).
Proof.
  pose proof pi_bounds as PB. split; intros x y Fx Fy X L Y; destruct (fold_order (B2R x) (B2R y) X L Y) as [O1 O2].
  - assert (K : forall z : f32, is_finite z = true -> - PI <= B2R z <= PI -> exists s : f32, sin float_ops float_signed float_pi float_powi z = Ok s /\ is_finite s = true /\
      Rabs (B2R s - P9 (rfold (PI / 2) (B2R z))) <= 95 / 10 * bpow radix2 (-24)).
    { intros z Fz Hz. destruct (@sin_float_P9 24 128 _ _ ltac:(lia) ltac:(lia) (proj2 f32_half_val)) with (x := z) as (s & Es & Fs & Bs & As); auto.
      - rewrite (proj1 f32_half_val). change (bpow radix2 (-23)) with (/ 8388608). change (bpow radix2 (- (24))) with (/ 16777216). apply Rabs_le. lra.
      - apply Rabs_le. lra.
      - exists s. auto. }
    destruct (K x Fx ltac:(lra)) as (r & Er & Fr & Ar). destruct (K y Fy ltac:(lra)) as (s & Es & Fs & As). exists r, s. repeat (split; auto);
    apply Rabs_le_inv in Ar, As; [intros H1 H2; specialize (O1 H1 H2) | intros H1; specialize (O2 H1)]; lra.
  - assert (K : forall z : f64, is_finite z = true -> - PI <= B2R z <= PI -> exists s : f64, sin float_ops float_signed float_pi float_powi z = Ok s /\ is_finite s = true /\
      Rabs (B2R s - P9 (rfold (PI / 2) (B2R z))) <= 95 / 10 * bpow radix2 (-53)).
    { intros z Fz Hz. destruct (@sin_float_P9 53 1024 _ _ ltac:(lia) ltac:(lia) (proj2 f64_half_val)) with (x := z) as (s & Es & Fs & Bs & As); auto.
      - rewrite (proj1 f64_half_val). change (bpow radix2 (-52)) with (/ 4503599627370496). change (bpow radix2 (- (53))) with (/ 9007199254740992). apply Rabs_le. lra.
      - apply Rabs_le. lra.
      - exists s. auto. }
    destruct (K x Fx ltac:(lra)) as (r & Er & Fr & Ar). destruct (K y Fy ltac:(lra)) as (s & Es & Fs & As). exists r, s. repeat (split; auto);
    apply Rabs_le_inv in Ar, As; [intros H1 H2; specialize (O1 H1 H2) | intros H1; specialize (O2 H1)]; lra.
Qed.

(** ** arctangent *)
Lemma rat_mono : forall a b, -1 <= a -> a <= b -> b <= 1 -> rat a <= rat b.
Proof.
  intros a b A L B. unfold rat, ratk. assert (DA : 0 < 1 + 9 / 32 * (a * a)) by nra. assert (DB : 0 < 1 + 9 / 32 * (b * b)) by nra.
  apply Rmult_le_reg_r with ((1 + 9 / 32 * (a * a)) * (1 + 9 / 32 * (b * b))); [apply Rmult_lt_0_compat; auto|].
  replace (a / (1 + 9 / 32 * (a * a)) * ((1 + 9 / 32 * (a * a)) * (1 + 9 / 32 * (b * b)))) with (a * (1 + 9 / 32 * (b * b))) by (field; lra).
  replace (b / (1 + 9 / 32 * (b * b)) * ((1 + 9 / 32 * (a * a)) * (1 + 9 / 32 * (b * b)))) with (b * (1 + 9 / 32 * (a * a))) by (field; lra).
  assert (a * b <= 1) by nra. nra.
Qed.
Lemma rat_odd : forall a, rat (- a) = - rat a.
Proof. intros a. unfold rat, ratk. replace (- a * - a) with (a * a) by ring. unfold Rdiv. ring. Qed.
Lemma rat_range : forall t, -1 <= t <= 1 -> - (PI / 4) <= rat t <= PI / 4.
Proof.
  intros t T. pose proof pi_bounds as PB. pose proof (rat_mono t 1 ltac:(lra) ltac:(lra) ltac:(lra)) as U. pose proof (rat_mono (-1) t ltac:(lra) ltac:(lra) ltac:(lra)) as L.
  assert (E : rat 1 = 32 / 41) by (unfold rat, ratk; field). assert (E' : rat (-1) = - (32 / 41)) by (unfold rat, ratk; field). lra.
Qed.

(** every point lies in one of five sectors *)
Lemma sector : forall x y, x <> 0 \/ y <> 0 -> exists s t, -1 <= t <= 1 /\ (Z.even s = true -> -1 < t < 1) /\
  angle y x = IZR s * (PI / 2) + Ratan.atan t /\ octant rat y x = IZR s * (PI / 2) + rat t.
Proof.
  intros x y H. rewrite angle_octant by auto. destruct (Rlt_or_le (Rabs y) (Rabs x)) as [L|L].
  - assert (X : x <> 0) by (intros ->; rewrite Rabs_R0 in L; pose proof (Rabs_pos y); lra).
    assert (T : -1 < y / x < 1).
    { apply Rabs_lt_inv. unfold Rdiv. rewrite Rabs_mult, Rabs_inv. apply Rmult_lt_reg_r with (Rabs x); [apply Rabs_pos_lt; auto|].
      rewrite Rmult_assoc, Rinv_l, Rmult_1_r, Rmult_1_l by (apply Rabs_no_R0; auto). exact L. }
    exists (if Rlt_dec 0 x then 0 else if Rle_dec 0 y then 2 else -2)%Z, (y / x). split; [lra|]. split; [auto|]. rewrite !octant_x by auto.
    destruct (Rlt_dec 0 x); [split; lra|]. destruct (Rle_dec 0 y); split; lra.
  - assert (Y : y <> 0). { destruct H; auto. intros ->. rewrite Rabs_R0 in L. apply Rabs_no_R0 in H. pose proof (Rabs_pos x). lra. }
    assert (T : -1 <= x / y <= 1).
    { apply Rabs_le_inv. unfold Rdiv. rewrite Rabs_mult, Rabs_inv. apply Rmult_le_reg_r with (Rabs y); [apply Rabs_pos_lt; auto|].
      rewrite Rmult_assoc, Rinv_l, Rmult_1_r, Rmult_1_l by (apply Rabs_no_R0; auto). exact L. }
    exists (if Rlt_dec 0 y then 1 else -1)%Z, (- (x / y)). split; [lra|]. split; [destruct (Rlt_dec 0 y); discriminate|]. rewrite !octant_y by auto. rewrite atan_opp, rat_odd.
    destruct (Rlt_dec 0 y); split; lra.
Qed.
Lemma atan_range : forall t, -1 <= t <= 1 -> - (PI / 4) <= Ratan.atan t <= PI / 4.
Proof.
  intros t T. rewrite <- atan_1. rewrite <- atan_opp. 
  assert (M : forall a b, a <= b -> Ratan.atan a <= Ratan.atan b) by (intros a b [Q|<-]; [left; apply atan_increasing; auto|lra]). split; apply M; lra.
Qed.
Lemma atan_range_strict : forall t, -1 < t < 1 -> - (PI / 4) < Ratan.atan t < PI / 4.
Proof. intros t T. rewrite <- atan_1. rewrite <- atan_opp. split; apply atan_increasing; lra. Qed.

Lemma octant_order : forall x1 y1 x2 y2, x1 <> 0 \/ y1 <> 0 -> x2 <> 0 \/ y2 <> 0 -> angle y1 x1 <= angle y2 x2 -> octant rat y1 x1 <= octant rat y2 x2.
Proof.
  intros x1 y1 x2 y2 N1 N2 H. destruct (sector x1 y1 N1) as (s1 & t1 & T1 & V1 & A1 & O1). destruct (sector x2 y2 N2) as (s2 & t2 & T2 & V2 & A2 & O2).
  rewrite A1, A2 in H. rewrite O1, O2. pose proof PI_RGT_0 as P0. pose proof (atan_range t1 T1) as B1. pose proof (atan_range t2 T2) as B2.
  pose proof (rat_range t1 T1) as C1. pose proof (rat_range t2 T2) as C2.
  destruct (Z.lt_trichotomy s1 s2) as [L|[->|L]].
  - assert (IZR s1 + 1 <= IZR s2) by (rewrite <- plus_IZR; apply IZR_le; lia). nra.
  - assert (Ratan.atan t1 <= Ratan.atan t2) by lra. assert (t1 <= t2). { destruct (Rle_lt_dec t1 t2) as [|Q]; auto. apply atan_increasing in Q. lra. }
    pose proof (rat_mono t1 t2 ltac:(lra) ltac:(lra) ltac:(lra)). lra.
  - exfalso. destruct (Z.eq_dec s1 (s2 + 1)) as [->|NE].
    + rewrite plus_IZR in H. assert (Q : Z.even (s2 + 1) = true \/ Z.even s2 = true).
      { rewrite Z.even_add. destruct (Z.even s2); auto. }
      destruct Q as [Q|Q]; [pose proof (atan_range_strict t1 (V1 Q)) | pose proof (atan_range_strict t2 (V2 Q))]; lra.
    + assert (IZR s2 + 2 <= IZR s1) by (rewrite <- plus_IZR; apply IZR_le; lia). nra.
Qed.
Lemma angle_nonzero : forall x y th, is_angle y x th -> x <> 0 \/ y <> 0.
Proof.
  intros x y th [_ [r [R [X Y]]]]. destruct (Req_dec x 0) as [E|E]; auto. destruct (Req_dec y 0) as [E'|E']; auto.
  exfalso. pose proof (sin2_cos2 th) as S. unfold Rsqr in S.
  assert (Rtrigo_def.cos th = 0) by (apply Rmult_eq_reg_l with r; lra). assert (Rtrigo_def.sin th = 0) by (apply Rmult_eq_reg_l with r; lra). nra.
Qed.
Lemma octant_angle_order : forall x1 y1 x2 y2 a b, is_angle y1 x1 a -> is_angle y2 x2 b -> a <= b -> octant rat y1 x1 <= octant rat y2 x2.
Proof.
  intros x1 y1 x2 y2 a b A B L. apply octant_order; [eapply angle_nonzero; eauto | eapply angle_nonzero; eauto |].
  rewrite <- (angle_is _ _ _ A), <- (angle_is _ _ _ B). exact L.
Qed.

Lemma atan_order_fixed : forall m f, supported f = true -> fsigned f = true -> forall y1 x1 y2 x2 a b,
  let M1 := Rmax (Rabs (fval f x1)) (Rabs (fval f y1)) in let M2 := Rmax (Rabs (fval f x2)) (Rabs (fval f y2)) in
  16 * ulp f <= M1 * M1 -> 3 / 2 * (M1 * M1) <= fval f (fmax f) -> 16 * ulp f <= M2 * M2 -> 3 / 2 * (M2 * M2) <= fval f (fmax f) ->
  is_angle (fval f y1) (fval f x1) a -> is_angle (fval f y2) (fval f x2) b -> a <= b ->
  exists r s, fixed_atan2_poly m f y1 x1 = Ok r /\ fixed_atan2_poly m f y2 x2 = Ok s /\
  fval f r <= fval f s + (6 + 5 / (M1 * M1) + 5 / (M2 * M2)) * ulp f + 2 / 1000000000000000.
Proof.
  intros m f Hf S y1 x1 y2 x2 a b M1 M2 L1 U1 L2 U2 A B AB.
  destruct (atan_fixed_rat m f Hf S y1 x1 L1 U1) as (r & Er & Ar). destruct (atan_fixed_rat m f Hf S y2 x2 L2 U2) as (s & Es & As). fold M1 in Ar. fold M2 in As.
  exists r, s. split; auto. split; auto. pose proof (octant_angle_order _ _ _ _ _ _ A B AB). apply Rabs_le_inv in Ar, As. lra.
Qed.
End S.
Open Scope R_scope.
Lemma atan_order_float : 
  (forall (y1 x1 y2 x2 : f32) a b, let M1 := Rmax (Rabs (B2R x1)) (Rabs (B2R y1)) in let M2 := Rmax (Rabs (B2R x2)) (Rabs (B2R y2)) in
   is_finite y1 = true -> is_finite x1 = true -> is_finite y2 = true -> is_finite x2 = true ->
   bpow radix2 (-61) <= M1 <= bpow radix2 61 -> bpow radix2 (-61) <= M2 <= bpow radix2 61 ->
   is_angle (B2R y1) (B2R x1) a -> is_angle (B2R y2) (B2R x2) b -> a <= b ->
   exists r s, float_atan2_poly y1 x1 = Ok r /\ float_atan2_poly y2 x2 = Ok s /\ is_finite r = true /\ is_finite s = true /\ B2R r <= B2R s + 36 * bpow radix2 (-24)) /\
  (forall (y1 x1 y2 x2 : f64) a b, let M1 := Rmax (Rabs (B2R x1)) (Rabs (B2R y1)) in let M2 := Rmax (Rabs (B2R x2)) (Rabs (B2R y2)) in
   is_finite y1 = true -> is_finite x1 = true -> is_finite y2 = true -> is_finite x2 = true ->
   bpow radix2 (-509) <= M1 <= bpow radix2 509 -> bpow radix2 (-509) <= M2 <= bpow radix2 509 ->
   is_angle (B2R y1) (B2R x1) a -> is_angle (B2R y2) (B2R x2) b -> a <= b ->
   exists r s, float_atan2_poly y1 x1 = Ok r /\ float_atan2_poly y2 x2 = Ok s /\ is_finite r = true /\ is_finite s = true /\ B2R r <= B2R s + 36 * bpow radix2 (-53)).
Proof.
  pose proof pi_bounds as PB. split; intros y1 x1 y2 x2 a b M1 M2 F1 F2 F3 F4 R1 R2 A B AB; pose proof (octant_angle_order _ _ _ _ _ _ A B AB) as O.
  - destruct f32_half_val as [Vh Fh]. destruct f32_pi_val as [Vp Fp].
    assert (Vh' : (B2R (@fhalf 24 128 _ _) = IZR 13176795 * / IZR 8388608)%R) by exact Vh.
    assert (Vp' : (B2R f32_pi = IZR 13176795 * / IZR 4194304)%R) by exact Vp.
    assert (K : forall yf xf : f32, is_finite yf = true -> is_finite xf = true -> bpow radix2 (-61) <= Rmax (Rabs (B2R xf)) (Rabs (B2R yf)) <= bpow radix2 61 ->
      is_finite (fatan2 yf xf) = true /\ Rabs (B2R (fatan2 yf xf) - octant rat (B2R yf) (B2R xf)) <= 18 * bpow radix2 (-24)).
    { intros yf xf Fy Fx M. destruct (@fatan2_U 24 128 _ _ ltac:(lia) ltac:(lia)) with (y := yf) (x := xf) as [Fs As]; auto.
      - rewrite Vh'. change (bpow radix2 (- (24))) with (/ 16777216)%R. apply Rabs_le. lra.
      - change (Rabs (B2R f32_pi - PI) <= 2 * bpow radix2 (- (24)))%R. rewrite Vp'. change (bpow radix2 (- (24))) with (/ 16777216)%R. apply Rabs_le. lra.
      - unfold fhalf. apply Bdiv_opp_l. }
    destruct (K y1 x1 F1 F2 R1) as [G1 E1]. destruct (K y2 x2 F3 F4 R2) as [G2 E2].
    exists (fatan2 y1 x1), (fatan2 y2 x2). split; [apply atan2_float_eq|]. split; [apply atan2_float_eq|]. split; [exact G1|]. split; [exact G2|]. apply Rabs_le_inv in E1, E2. lra.
  - destruct f64_half_val as [Vh Fh]. destruct f64_pi_val as [Vp Fp].
    assert (Vh' : (B2R (@fhalf 53 1024 _ _) = IZR 7074237752028440 * / IZR 4503599627370496)%R) by exact Vh.
    assert (Vp' : (B2R f64_pi = IZR 7074237752028440 * / IZR 2251799813685248)%R) by exact Vp.
    assert (K : forall yf xf : f64, is_finite yf = true -> is_finite xf = true -> bpow radix2 (-509) <= Rmax (Rabs (B2R xf)) (Rabs (B2R yf)) <= bpow radix2 509 ->
      is_finite (fatan2 yf xf) = true /\ Rabs (B2R (fatan2 yf xf) - octant rat (B2R yf) (B2R xf)) <= 18 * bpow radix2 (-53)).
    { intros yf xf Fy Fx M. destruct (@fatan2_U 53 1024 _ _ ltac:(lia) ltac:(lia)) with (y := yf) (x := xf) as [Fs As]; auto.
      - rewrite Vh'. change (bpow radix2 (- (53))) with (/ 9007199254740992)%R. apply Rabs_le. lra.
      - change (Rabs (B2R f64_pi - PI) <= 2 * bpow radix2 (- (53)))%R. rewrite Vp'. change (bpow radix2 (- (53))) with (/ 9007199254740992)%R. apply Rabs_le. lra.
      - unfold fhalf. apply Bdiv_opp_l. }
    destruct (K y1 x1 F1 F2 R1) as [G1 E1]. destruct (K y2 x2 F3 F4 R2) as [G2 E2].
    exists (fatan2 y1 x1), (fatan2 y2 x2). split; [apply atan2_float_eq|]. split; [apply atan2_float_eq|]. split; [exact G1|]. split; [exact G2|]. apply Rabs_le_inv in E1, E2. lra.
Qed.
