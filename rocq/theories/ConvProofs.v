(** * Conversions between the number types. *)

From Coq Require Import ZArith Reals Lia Lra Psatz List Bool.
From Flocq Require Import Core.Core IEEE754.BinarySingleNaN.
From Verif Require Import Base FloatBase Literals Traits Trig IntImpl FixedPrim FixedImpl FloatImpl Spec
  Lemmas ScalarProofs ScalarProofs2 WrapProofs FloatLemmas SinReal SinFixed.
Open Scope Z_scope.

(** ** integer to integer *)
Lemma wrap_conv : forall t z, In t int_types -> exists r, Ok (wrap t z) = Ok r /\ in_range t r /\ congr t r z /\ (in_range t z -> r = z).
Proof.
  intros t z I. pose proof (int_types_width t I) as W. exists (wrap t z). split; auto. split; [apply wrap_range; lia|].
  split; [apply wrap_congr; lia|]. intros. apply wrap_id; auto; lia.
Qed.
Lemma wrap_wider : forall t t2 z, In t int_types -> In t2 int_types -> iwidth t2 <= iwidth t -> in_range t2 z -> wrap t2 (wrap t z) = z.
Proof.
  intros t t2 z I I2 L R. pose proof (int_types_width t I) as W. pose proof (int_types_width t2 I2) as W2.
  destruct (wrap_congr t ltac:(lia) z) as [k Hk]. apply wrap_unique with (k := - (k * 2 ^ (iwidth t - iwidth t2))); auto; [lia|].
  rewrite Hk. rewrite Z.mul_opp_l, <- Z.mul_assoc, <- Z.pow_add_r by lia. replace (iwidth t - iwidth t2 + iwidth t2) with (iwidth t) by lia. lia.
Qed.
Lemma c41 : forall t t2, In t int_types -> In t2 int_types -> forall z,
  (exists r, mixed_from_num (int_conv_int t t2) z = Ok r /\ in_range t r /\ congr t r z /\ (in_range t z -> r = z)) /\
  (exists r, mixed_to_num (int_conv_int t t2) z = Ok r /\ in_range t2 r /\ congr t2 r z /\ (in_range t2 z -> r = z)) /\
  (iwidth t2 <= iwidth t -> in_range t2 z -> exists r, mixed_from_num (int_conv_int t t2) z = Ok r /\ mixed_to_num (int_conv_int t t2) r = Ok z).
Proof.
  intros t t2 I I2 z. split; [apply wrap_conv; auto|]. split; [apply wrap_conv; auto|]. intros L R. eexists. split; [reflexivity|].
  simpl. f_equal. apply wrap_wider; auto.
Qed.

(** ** float to fixed *)
Lemma rne_div_nearest : forall n d, 0 < d -> rne_div n d = ZnearestE (IZR n / IZR d).
Proof.
  intros n d D. assert (DR : (0 < IZR d)%R) by (apply IZR_lt; auto). unfold rne_div, Znearest. rewrite Zfloor_div by lia.
  pose proof (Z.div_mod n d ltac:(lia)) as E. pose proof (Z.mod_pos_bound n d D) as MB. set (q := n / d) in *. set (r := n mod d) in *.
  assert (C : (IZR n / IZR d - IZR q = IZR r / IZR d)%R) by (rewrite E, plus_IZR, mult_IZR; field; lra).
  rewrite C.
  assert (CC : r <> 0 -> Zceil (IZR n / IZR d) = q + 1).
  { intros R0. rewrite Zceil_floor_neq.
    - rewrite Zfloor_div by lia. reflexivity.
    - rewrite Zfloor_div by lia. fold q. intros H. assert (Z0 : (IZR r / IZR d = 0)%R) by lra.
      apply R0, eq_IZR. apply Rmult_eq_reg_r with (/ IZR d)%R; [rewrite Rmult_0_l; exact Z0 | apply Rinv_neq_0_compat; lra]. }
  assert (X : (IZR r / IZR d = / 2 * (IZR (2 * r) / IZR d))%R) by (rewrite mult_IZR; field; lra).
  destruct (Z.compare_spec (2 * r) d) as [H|H|H].
  - rewrite Rcompare_Eq by (rewrite X, H; field; lra). rewrite CC by lia. destruct (Z.even q); reflexivity.
  - rewrite Rcompare_Lt; auto. rewrite X. apply IZR_lt in H. apply Rmult_lt_reg_r with (IZR d); auto.
    replace (/ 2 * (IZR (2 * r) / IZR d) * IZR d)%R with (/ 2 * IZR (2 * r))%R by (field; lra). lra.
  - rewrite Rcompare_Gt; [rewrite CC by lia; auto|]. rewrite X. apply IZR_lt in H. apply Rmult_lt_reg_r with (IZR d); auto.
    replace (/ 2 * (IZR (2 * r) / IZR d) * IZR d)%R with (/ 2 * IZR (2 * r))%R by (field; lra). lra.
Qed.
Lemma nearest_IZR : forall z, ZnearestE (IZR z) = z.
Proof. intros z. apply Zrnd_IZR. apply valid_rnd_N. Qed.
Lemma nearest_opp : forall v, ZnearestE (- v) = - ZnearestE v.
Proof.
  intros v. rewrite Znearest_opp. f_equal. unfold Znearest. destruct (Rcompare _ _); auto.
  rewrite negb_involutive, Z.even_opp. rewrite Z.add_1_r, Z.even_succ, <- Z.negb_even. reflexivity.
Qed.
Lemma rne_scale_nearest : forall n k, rne_scale n k = ZnearestE (IZR n * bpow radix2 k).
Proof.
  intros n k. unfold rne_scale. destruct (Z.leb_spec 0 k) as [K|K].
  - rewrite <- IZR_Zpower by auto. rewrite <- mult_IZR, nearest_IZR. reflexivity.
  - rewrite rne_div_nearest by (apply Z.pow_pos_nonneg; lia). f_equal. unfold Rdiv. f_equal.
    change 2 with (radix_val radix2). rewrite IZR_Zpower by lia. rewrite bpow_opp, Rinv_inv. reflexivity.
Qed.
Lemma fx_bits_nearest : forall f p e (x : binary_float p e), 0 <= ffrac f -> fx_bits f x = ZnearestE (B2R x * bpow radix2 (ffrac f)).
Proof.
  intros f p e x F. destruct x as [s|s| |s mx ex Hb]; simpl; try (rewrite Rmult_0_l; symmetry; apply (nearest_IZR 0)).
  rewrite rne_scale_nearest. unfold F2R. cbn [Fnum Fexp]. rewrite Rmult_assoc, <- bpow_plus. destruct s; cbn [cond_Zopp]; auto.
  change (Z.neg mx) with (- Z.pos mx). rewrite opp_IZR, <- nearest_opp. f_equal. ring.
Qed.
Lemma of_float_spec : forall m f p e (x : binary_float p e), supported f = true ->
  (is_finite x = false -> fx_of_float m f x = Panic PNotFinite) /\
  (is_finite x = true -> let n := ZnearestE (B2R x * bpow radix2 (ffrac f)) in
    (fvalid f n -> fx_of_float m f x = Ok n /\ (Rabs (fval f n - B2R x) <= ulp f / 2)%R) /\
    (~ fvalid f n -> fx_of_float m f x = match m with Debug => Panic POverflow | Release => Ok (wrap (fity f) n) end)).
Proof.
  intros m f p e x Hf. pose proof (supported_fwf f Hf) as W. split.
  - destruct x; try discriminate; reflexivity.
  - intros F n. rewrite fx_of_float_bits by (auto; apply fwf_width; auto).
    pose proof (fx_bits_real f p e x (proj1 W)) as B. rewrite fx_bits_nearest in * by apply W. fold n in B |- *. split.
    + intros V. split; [apply fx_fin_ok; auto|]. rewrite ulp_eq, fval_eq by apply W. pose proof (fone_IZR_pos f (proj1 W)) as Q. set (q := IZR (fone f)) in *.
      replace (IZR n / q - B2R x)%R with ((IZR n - B2R x * q) * / q)%R by (field; apply Rgt_not_eq; exact Q).
      assert (0 < / q)%R by (apply Rinv_0_lt_compat; auto). rewrite Rabs_mult, (Rabs_pos_eq (/ q)) by lra.
      replace (/ q / 2)%R with (/ 2 * / q)%R by (unfold Rdiv; ring). apply Rmult_le_compat_r; lra.
    + intros V. unfold fx_fin, fin. apply in_rangeb_false in V. rewrite V. reflexivity.
Qed.

(** ** scaled integers to floats *)
Section Scaled.
Context {prec emax : Z} {Hp : Prec_gt_0 prec} {He : Prec_lt_emax prec emax}.
Notation float := (binary_float prec emax).
Lemma scaled_exact : forall z e s, Z.abs z <= 2 ^ prec -> 3 - emax - prec <= e -> prec + 1 + e <= emax ->
  let x := binary_normalize prec emax Hp He mode_NE z e s in
  B2R x = (IZR z * bpow radix2 e)%R /\ is_finite x = true /\ Bsign x = (if z =? 0 then s else z <? 0).
Proof.
  intros z e s Z1 E1 E2 x. pose proof (prec_gt_0 prec) as PP. pose proof (prec_lt_emax prec emax) as PE.
  pose proof (binary_normalize_correct prec emax _ _ mode_NE z e s) as H. cbv zeta in H. fold x in H.
  change (round_mode mode_NE) with ZnearestE in H. change (F2R (Float radix2 z e)) with (IZR z * bpow radix2 e)%R in H.
  assert (G : generic_format radix2 (SpecFloat.fexp prec emax) (IZR z * bpow radix2 e)).
  { change (SpecFloat.fexp prec emax) with (FLT_exp (SpecFloat.emin prec emax) prec). apply generic_format_FLT.
    destruct (Z.eq_dec (Z.abs z) (2 ^ prec)) as [Z2|Z2].
    - exists (Float radix2 (Z.sgn z) (prec + e)); simpl.
      + unfold F2R. cbn [Fnum Fexp]. rewrite bpow_plus, <- Rmult_assoc. f_equal. rewrite <- IZR_Zpower, <- mult_IZR by lia. f_equal.
        change (radix_val radix2) with 2. rewrite <- Z2. rewrite Z.mul_comm. symmetry. apply Z.abs_sgn.
      + assert (Z.abs (Z.sgn z) <= 1) by lia. assert (1 < 2 ^ prec) by (apply Z.pow_gt_1; lia). change (radix_val radix2) with 2. lia.
      + unfold SpecFloat.emin. lia.
    - exists (Float radix2 z e).
      + reflexivity.
      + change (Z.abs z < 2 ^ prec). lia.
      + cbn [Fexp]. unfold SpecFloat.emin. lia. }
  rewrite round_generic in H by (auto; apply valid_rnd_N).
  rewrite Rlt_bool_true in H.
  - destruct H as (H1 & H2 & H3). repeat split; auto. rewrite H3.
    assert (C : Rcompare (IZR z * bpow radix2 e) 0 = (z ?= 0)).
    { rewrite <- (Rmult_0_l (bpow radix2 e)). rewrite Rcompare_mult_r by apply bpow_gt_0. apply Rcompare_IZR. }
    rewrite C. destruct (Z.compare_spec z 0) as [->|L|L]; auto.
    + destruct (Z.eqb_spec z 0); [lia|]. symmetry. apply Z.ltb_lt; auto.
    + destruct (Z.eqb_spec z 0); [lia|]. symmetry. apply Z.ltb_ge; lia.
  - rewrite Rabs_mult, <- abs_IZR, (Rabs_pos_eq (bpow radix2 e)) by apply bpow_ge_0.
    apply Rle_lt_trans with (bpow radix2 (prec + e)); [|apply bpow_lt; lia]. rewrite bpow_plus. apply Rmult_le_compat_r; [apply bpow_ge_0|].
    rewrite <- IZR_Zpower by lia. apply IZR_le. exact Z1.
Qed.
End Scaled.

Lemma float_back : forall m f p e (x : binary_float p e) a, supported f = true -> fvalid f a -> is_finite x = true -> B2R x = fval f a ->
  fx_of_float m f x = Ok a.
Proof.
  intros m f p e x a Hf V F E. destruct (of_float_spec m f p e x Hf) as [_ H]. destruct (H F) as [H1 _].
  assert (N : ZnearestE (B2R x * bpow radix2 (ffrac f)) = a).
  { rewrite E. unfold fval. rewrite Rmult_assoc, <- bpow_plus, Z.add_opp_diag_l. simpl. rewrite Rmult_1_r. apply nearest_IZR. }
  rewrite N in H1. apply H1; auto.
Qed.

(** fixed to float and back *)
Lemma c42_roundtrip : forall m f a, supported f = true -> fvalid f a ->
  (Z.abs a <= 2 ^ 53 -> exists x : f64, mixed_to_num (fixed_conv_f64 m f) a = Ok x /\ is_finite x = true /\ B2R x = fval f a /\
     mixed_from_num (fixed_conv_f64 m f) x = Ok a) /\
  (Z.abs a <= 2 ^ 24 -> exists x : f32, mixed_to_num (fixed_conv_f32 m f) a = Ok x /\ is_finite x = true /\ B2R x = fval f a /\
     mixed_from_num (fixed_conv_f32 m f) x = Ok a).
Proof.
  intros m f a Hf V. destruct (supported_inv f Hf) as (W1 & W2). split; intros A.
  - exists (fx_to_f64 f a). split; [reflexivity|].
    destruct (scaled_exact (prec := 53) (emax := 1024) a (- ffrac f) false A ltac:(lia) ltac:(lia)) as (H1 & H2 & _).
    split; [exact H2|]. split; [exact H1|]. apply float_back; auto.
  - exists (fx_to_f32 f a). split; [reflexivity|].
    destruct (scaled_exact (prec := 24) (emax := 128) a (- ffrac f) false A ltac:(lia) ltac:(lia)) as (H1 & H2 & _).
    split; [exact H2|]. split; [exact H1|]. apply float_back; auto.
Qed.

(** float to float *)
Lemma mag_pos : forall p e (Hp : Prec_gt_0 p) m ex, SpecFloat.bounded p e m ex = true ->
  Z.pos m < 2 ^ p /\ 3 - e - p <= ex <= e - p.
Proof.
  intros p e Hp m ex B. apply andb_true_iff in B. destruct B as [B1 B2]. apply Zeq_bool_eq in B1. apply Zle_bool_imp_le in B2.
  pose proof (prec_gt_0 p) as P. unfold SpecFloat.fexp, SpecFloat.emin in B1. rewrite Digits.Zpos_digits2_pos in B1.
  set (d := Digits.Zdigits radix2 (Z.pos m)) in *. assert (D : d <= p) by lia. split; [|lia].
  pose proof (Digits.Zdigits_correct radix2 (Z.pos m)) as C. fold d in C. change (radix_val radix2) with 2 in C. simpl Z.abs in C.
  apply Z.lt_le_trans with (2 ^ d); [lia|]. apply Z.pow_le_mono_r; lia.
Qed.
Lemma c42_floats : forall x : f32, exists y : f64, mixed_from_num (float_conv_float 24 128) x = Ok y /\
  mixed_to_num (float_conv_float 24 128) y = Ok x /\ is_nan y = is_nan x /\ is_finite y = is_finite x /\ B2R y = B2R x /\ Bsign y = Bsign x.
Proof.
  intros x. exists (float_of_float 53 1024 x). split; [reflexivity|].
  destruct x as [s|s| |s mx ex Hb]; try (repeat split; reflexivity).
  destruct (mag_pos 24 128 _ mx ex Hb) as [M E].
  assert (A : Z.abs (cond_Zopp s (Z.pos mx)) <= 2 ^ 24) by (destruct s; simpl Z.abs; lia).
  assert (A2 : Z.abs (cond_Zopp s (Z.pos mx)) <= 2 ^ 53) by (eapply Z.le_trans; [exact A | vm_compute; congruence]).
  destruct (scaled_exact (prec := 53) (emax := 1024) _ ex s A2 ltac:(lia) ltac:(lia)) as (V & F & S).
  change (binary_normalize 53 1024 _ _ mode_NE (cond_Zopp s (Z.pos mx)) ex s) with (float_of_float 53 1024 (B754_finite s mx ex Hb)) in V, F, S.
  set (y := float_of_float 53 1024 (B754_finite s mx ex Hb)) in *.
  assert (S' : Bsign y = s) by (rewrite S; destruct s; reflexivity).
  assert (N0 : (IZR (cond_Zopp s (Z.pos mx)) * bpow radix2 ex <> 0)%R).
  { apply Rmult_integral_contrapositive_currified; [|apply Rgt_not_eq, bpow_gt_0]. apply IZR_neq. destruct s; discriminate. }
  assert (VB : B2R (B754_finite s mx ex Hb) = (IZR (cond_Zopp s (Z.pos mx)) * bpow radix2 ex)%R) by reflexivity.
  repeat split; auto; try (rewrite finite_not_nan by auto; reflexivity).
  (* back *)
  cbn [mixed_to_num float_conv_float]. f_equal. clearbody y. destruct y as [sy|sy| |sy my ey Hy]; try discriminate.
  - exfalso. apply N0. rewrite <- V. reflexivity.
  - cbn [float_of_float]. simpl in S'. subst sy.
    assert (VY : (IZR (cond_Zopp s (Z.pos my)) * bpow radix2 ey = IZR (cond_Zopp s (Z.pos mx)) * bpow radix2 ex)%R) by exact V.
    pose proof (binary_normalize_correct 24 128 _ _ mode_NE (cond_Zopp s (Z.pos my)) ey s) as H. cbv zeta in H.
    change (round_mode mode_NE) with ZnearestE in H. change (F2R (Float radix2 (cond_Zopp s (Z.pos my)) ey)) with (IZR (cond_Zopp s (Z.pos my)) * bpow radix2 ey)%R in H.
    rewrite VY in H. rewrite <- VB in H. rewrite round_B2R, Rlt_bool_true in H by apply abs_B2R_lt_emax.
    destruct H as (H1 & H2 & H3). apply B2R_Bsign_inj; auto. rewrite H3. rewrite VB.
    rewrite <- (Rmult_0_l (bpow radix2 ex)), Rcompare_mult_r by apply bpow_gt_0. rewrite Rcompare_IZR. destruct s; reflexivity.
Qed.

(** ** rounding of conversions to integers *)
Lemma Btrunc_val : forall p e {He : Prec_lt_emax p e} (x : binary_float p e), Btrunc x = Ztrunc (B2R x).
Proof.
  intros p e He x. apply eq_IZR. rewrite Btrunc_correct by auto. unfold round, F2R, scaled_mantissa. simpl. unfold FIX_exp, cexp. simpl.
  rewrite !Rmult_1_r. reflexivity.
Qed.
Lemma int_of_float_spec : forall p e {He : Prec_lt_emax p e} t (x : binary_float p e), In t int_types ->
  (is_nan x = true -> int_of_float t x = 0) /\
  (x = B754_infinity true -> int_of_float t x = imin t) /\ (x = B754_infinity false -> int_of_float t x = imax t) /\
  (is_finite x = true -> int_of_float t x = Z.max (imin t) (Z.min (imax t) (Ztrunc (B2R x)))).
Proof.
  intros p e He t x I. pose proof (int_types_width t I) as W.
  repeat split; try (intros ->; reflexivity); try (destruct x; simpl; auto; discriminate).
  intros F. rewrite <- Btrunc_val by auto. pose proof (zero_in_range t ltac:(lia)) as R. unfold in_range in R.
  destruct x as [s|s| |s mx ex Hb]; try discriminate.
  - change (Btrunc (B754_zero s : binary_float p e)) with 0. unfold int_of_float. lia.
  - unfold int_of_float. set (z := Btrunc _). destruct (Z.ltb_spec z (imin t)); [lia|]. destruct (Z.ltb_spec (imax t) z); lia.
Qed.
Lemma fx_to_int_spec : forall m f t a, supported f = true ->
  (in_range t (Zfloor (fval f a)) -> fx_to_int m f t a = Ok (Zfloor (fval f a))) /\
  (~ in_range t (Zfloor (fval f a)) -> fx_to_int m f t a = match m with Debug => Panic POverflow | Release => Ok (wrap t (Zfloor (fval f a))) end).
Proof.
  intros m f t a Hf. pose proof (supported_fwf f Hf) as W. pose proof (fone_pos f (proj1 W)).
  rewrite fval_eq, Zfloor_div by (try apply W; lia). unfold fx_to_int, fin. split; intros R.
  - apply in_rangeb_spec in R. rewrite R. auto.
  - apply in_rangeb_false in R. rewrite R. auto.
Qed.
Lemma c43_iff : forall m f t a p e {Hp : Prec_gt_0 p} {He : Prec_lt_emax p e} (x : binary_float p e), supported f = true -> In t int_types ->
  is_finite x = true -> B2R x = fval f a -> in_range t (Zfloor (fval f a)) ->
  mixed_to_num (fixed_conv_int m f t) a = Ok (Zfloor (fval f a)) /\
  mixed_to_num (float_conv_int t) x = Ok (Ztrunc (fval f a)) /\
  (Zfloor (fval f a) = Ztrunc (fval f a) <-> (0 <= fval f a)%R \/ IZR (Zfloor (fval f a)) = fval f a).
Proof.
  intros m f t a p e Hp He x Hf I F E R. split; [apply fx_to_int_spec; auto|].
  assert (T : 0 <= Zfloor (fval f a) -> (0 <= fval f a)%R) by (intros H; apply Rle_trans with (IZR (Zfloor (fval f a))); [apply IZR_le; auto | apply Zfloor_lb]).
  assert (K : Zfloor (fval f a) = Ztrunc (fval f a) <-> (0 <= fval f a)%R \/ IZR (Zfloor (fval f a)) = fval f a).
  { destruct (Rle_lt_dec 0 (fval f a)) as [P|P].
    - rewrite Ztrunc_floor by auto. tauto.
    - rewrite Ztrunc_ceil by lra. split.
      + intros H. right. apply Rle_antisym; [apply Zfloor_lb|]. rewrite H. apply Zceil_ub.
      + intros [H|H]; [lra|]. rewrite <- H at 2. rewrite Zceil_IZR. reflexivity. }
  split; [|exact K]. destruct (int_of_float_spec p e t x I) as (_ & _ & _ & H). cbn [mixed_to_num float_conv_int]. rewrite (H F), E. f_equal.
  pose proof (zero_in_range t ltac:(pose proof (int_types_width t I); lia)) as Z0. unfold in_range in *.
  destruct (Rle_lt_dec 0 (fval f a)) as [P|P].
  - rewrite Ztrunc_floor by auto. lia.
  - assert (Zfloor (fval f a) <= Ztrunc (fval f a) <= 0); [|lia]. rewrite Ztrunc_ceil by lra. split.
    + apply le_IZR. eapply Rle_trans; [apply Zfloor_lb | apply Zceil_ub].
    + apply Zceil_glb. simpl. lra.
Qed.
Lemma c43 : forall m f, supported f = true -> fsigned f = true -> 1 <= ffrac f ->
  exists a (x : f64), fvalid f a /\ is_finite x = true /\ B2R x = fval f a /\
    mixed_to_num (fixed_conv_int m f i32) a = Ok (-1) /\ mixed_to_num (float_conv_int i32) x = Ok 0.
Proof.
  intros m f Hf S F. pose proof (supported_fwf f Hf) as W. destruct (supported_inv f Hf) as (W1 & W2).
  assert (V : fvalid f (-1)) by (apply fvalid_iff; rewrite S; pose proof (fone_le_max f W); pose proof (fone_pos f (proj1 W)); lia).
  destruct (proj1 (c42_roundtrip m f (-1) Hf V)) as (x & _ & Fx & Bx & _); [vm_compute; congruence|].
  exists (-1), x. repeat split; auto; try apply V.
  - simpl. unfold fx_to_int. assert (2 <= fone f) by (unfold fone; change 2 with (2 ^ 1) at 1; apply Z.pow_le_mono_r; lia).
    replace (-1 / fone f) with (-1); [reflexivity|]. apply (Z.div_unique (-1) (fone f) (-1) (fone f - 1)); lia.
  - destruct (int_of_float_spec 53 1024 i32 x) as (_ & _ & _ & H); [simpl; tauto|]. cbn [mixed_to_num float_conv_int]. rewrite (H Fx), Bx. f_equal.
    unfold fval. replace (Ztrunc _) with 0; [reflexivity|]. symmetry. rewrite Ztrunc_ceil.
    + apply Zceil_imp. simpl. pose proof (bpow_gt_0 radix2 (- ffrac f)). assert (bpow radix2 (- ffrac f) < 1)%R by (change 1%R with (bpow radix2 0); apply bpow_lt; lia). lra.
    + pose proof (bpow_gt_0 radix2 (- ffrac f)). lra.
Qed.

(** integers into fixed types and floats, and back *)
Lemma c58_fixed : forall m f t z, supported f = true -> In t int_types ->
  (fvalid f (z * 2 ^ ffrac f) -> mixed_from_num (fixed_conv_int m f t) z = Ok (z * 2 ^ ffrac f) /\ fval f (z * 2 ^ ffrac f) = IZR z /\
    (in_range t z -> mixed_to_num (fixed_conv_int m f t) (z * 2 ^ ffrac f) = Ok z)) /\
  (~ fvalid f (z * 2 ^ ffrac f) -> mixed_from_num (fixed_conv_int m f t) z =
    match m with Debug => Panic POverflow | Release => Ok (wrap (fity f) (z * 2 ^ ffrac f)) end).
Proof.
  intros m f t z Hf I. pose proof (supported_fwf f Hf) as W. pose proof (fone_pos f (proj1 W)) as Q. change (2 ^ ffrac f) with (fone f). split; intros V.
  - split; [apply fx_fin_ok; auto|]. split.
    + rewrite fval_eq, mult_IZR by apply W. apply IZR_lt in Q. field. lra.
    + intros R. simpl. unfold fx_to_int. rewrite Z.div_mul by lia. apply fin_ok; auto.
  - simpl. unfold fx_of_int, fx_fin, fin. apply in_rangeb_false in V. rewrite V. reflexivity.
Qed.
Lemma c58_float : forall p e {Hp : Prec_gt_0 p} {He : Prec_lt_emax p e} t z, In t int_types -> in_range t z -> Z.abs z <= 2 ^ p ->
  exists x : binary_float p e, mixed_from_num (float_conv_int t) z = Ok x /\ is_finite x = true /\ B2R x = IZR z /\ mixed_to_num (float_conv_int t) x = Ok z.
Proof.
  intros p e Hp He t z I R A. exists (float_of_Z p e z). split; [reflexivity|].
  pose proof (prec_gt_0 p) as PP. pose proof (prec_lt_emax p e) as PE.
  destruct (scaled_exact (prec := p) (emax := e) z 0 false A ltac:(lia) ltac:(lia)) as (V & F & _).
  change (bpow radix2 0) with 1%R in V. rewrite Rmult_1_r in V. change (B2R (float_of_Z p e z) = IZR z) in V. split; [exact F|]. split; [exact V|].
  destruct (int_of_float_spec p e t (float_of_Z p e z) I) as (_ & _ & _ & H). cbn [mixed_to_num float_conv_int]. rewrite (H F), V, Ztrunc_IZR. f_equal.
  unfold in_range in R. lia.
Qed.

(** fixed to float: correctly rounded, never infinite *)
Lemma scaled_round : forall prec emax {Hp : Prec_gt_0 prec} {He : Prec_lt_emax prec emax} z e, Z.abs z <= 2 ^ 64 -> e <= 0 -> 66 <= emax ->
  let x := float_of_scaled prec emax z e in
  is_finite x = true /\ B2R x = round radix2 (FLT_exp (3 - emax - prec) prec) ZnearestE (IZR z * bpow radix2 e).
Proof.
  intros prec emax Hp He z e A E M x. pose proof (binary_normalize_correct prec emax _ _ mode_NE z e false) as H. cbv zeta in H.
  change (round_mode mode_NE) with ZnearestE in H. change (F2R (Float radix2 z e)) with (IZR z * bpow radix2 e)%R in H.
  assert (P : prec <= emax) by (pose proof (prec_lt_emax prec emax); lia). pose proof (prec_gt_0 prec) as PP.
  rewrite Rlt_bool_true in H.
  - destruct H as (H1 & H2 & _). split; [exact H2|]. exact H1.
  - apply Rle_lt_trans with (bpow radix2 64); [|apply bpow_lt; lia].
    apply abs_round_le_generic; try typeclasses eauto.
    + apply generic_format_bpow. unfold SpecFloat.fexp, SpecFloat.emin. lia.
    + rewrite Rabs_mult, <- abs_IZR, (Rabs_pos_eq (bpow radix2 e)) by apply bpow_ge_0.
      apply Rle_trans with (bpow radix2 64 * 1)%R; [|lra]. apply Rmult_le_compat; try apply bpow_ge_0; [apply IZR_le; lia | |].
      * change (bpow radix2 64) with (IZR (2 ^ 64)). apply IZR_le; auto.
      * change 1%R with (bpow radix2 0). apply bpow_le; auto.
Qed.
Lemma c42_to_float : forall m f a, supported f = true -> fvalid f a ->
  (exists x : f64, mixed_to_num (fixed_conv_f64 m f) a = Ok x /\ is_finite x = true /\ B2R x = round radix2 (FLT_exp (-1074) 53) ZnearestE (fval f a)) /\
  (exists x : f32, mixed_to_num (fixed_conv_f32 m f) a = Ok x /\ is_finite x = true /\ B2R x = round radix2 (FLT_exp (-149) 24) ZnearestE (fval f a)).
Proof.
  intros m f a Hf V. destruct (supported_inv f Hf) as (W1 & W2).
  assert (A : Z.abs a <= 2 ^ 64).
  { assert (WW : 2 ^ fwidth f <= 2 ^ 64) by (apply Z.pow_le_mono_r; lia). pose proof (half_le_full (fwidth f) ltac:(lia)) as HF.
    apply fvalid_iff in V. destruct (fsigned f); lia. }
  split; eexists; (split; [reflexivity|]); (apply scaled_round; [exact A | lia | lia]).
Qed.

(** ** constants *)
Lemma value_of : forall prec emax (x : binary_float prec emax) s m e, B2SF x = SpecFloat.S754_finite s m e ->
  is_finite x = true /\ B2R x = F2R (Float radix2 (cond_Zopp s (Z.pos m)) e).
Proof. intros prec emax x s m e E. destruct x as [s'|s'| |s' m' e' H]; try discriminate. cbn in E. injection E as -> -> ->. auto. Qed.
Lemma tau_val : (Rabs (B2R lit_tau - 2 * PI) <= / 1000000000000000)%R.
Proof.
  pose proof pi_bounds as PB. assert (V : (B2R lit_tau = IZR 7074237752028440 * / IZR 1125899906842624)%R) by reflexivity. rewrite V. apply Rabs_le. lra.
Qed.
Lemma c50_fixed : forall m f, supported f = true ->
  (exists p, mixed_pi (fixed_pi m f) = Ok p /\ fvalid f p /\ (Rabs (fval f p - PI) <= ulp f / 2 + / 1000000000000000)%R) /\
  (fsigned f = false \/ ffrac f <= fwidth f - 4 -> exists t, mixed_tau (fixed_pi m f) = Ok t /\ fvalid f t /\ (Rabs (fval f t - 2 * PI) <= ulp f / 2 + / 1000000000000000)%R) /\
  (fsigned f = true -> ffrac f = fwidth f - 3 ->
     match m with
     | Debug => mixed_tau (fixed_pi m f) = Panic POverflow
     | Release => exists t, mixed_tau (fixed_pi m f) = Ok t /\ (Rabs (fval f t - (2 * PI - 8)) <= ulp f / 2 + / 1000000000000000)%R
     end).
Proof.
  intros m f Hf. pose proof (supported_fwf f Hf) as W. destruct (supported_inv f Hf) as (W1 & W2).
  pose proof (fone_IZR_pos f (proj1 W)) as QR. pose proof (fone_pos f (proj1 W)) as Q. set (q := IZR (fone f)) in *. pose proof pi_bounds as PB.
  pose proof tau_val as TV. apply Rabs_le_inv in TV.
  assert (IQ : (0 < / q)%R) by (apply Rinv_0_lt_compat; auto).
  assert (ACC : forall b v d, (Rabs (IZR b - v * q) <= / 2 + d * q)%R -> (Rabs (fval f b - v) <= ulp f / 2 + d)%R).
  { intros b v d H. rewrite ulp_eq, fval_eq by apply W. fold q. replace (IZR b / q - v)%R with ((IZR b - v * q) * / q)%R by (field; lra).
    rewrite Rabs_mult, (Rabs_pos_eq (/ q)) by lra. replace (/ q / 2 + d)%R with ((/ 2 + d * q) * / q)%R by (field; lra). apply Rmult_le_compat_r; lra. }
  split; [|split].
  - exists (pi_bits f). pose proof (pi_bits_bounds f W) as B. split; [apply fixed_pi_eq; auto|]. split.
    + apply fvalid_iff. pose proof (fone_le_max f W). pose proof (half_le_full (fwidth f) ltac:(lia)). destruct (fsigned f); lia.
    + apply ACC. apply pi_real; auto.
  - intros K. pose proof (fx_bits_real f _ _ lit_tau (proj1 W)) as B. fold q in B. set (b := fx_bits f lit_tau) in *. apply Rabs_le_inv in B.
    assert (B7 : 6 * fone f <= b <= 7 * fone f).
    { split; [apply fx_bits_ge | apply fx_bits_le]; try apply W; rewrite mult_IZR; fold q; apply Rmult_le_compat_r; lra. }
    assert (V : fvalid f b).
    { apply fvalid_iff. pose proof (fone_le_max f W) as FM. pose proof (half_le_full (fwidth f) ltac:(lia)) as HF. destruct (fsigned f) eqn:S.
      - destruct K as [K|K]; [discriminate|]. assert (8 * fone f <= 2 ^ (fwidth f - 1)); [|lia].
        unfold fone. change 8 with (2 ^ 3). rewrite <- Z.pow_add_r by lia. apply Z.pow_le_mono_r; lia.
      - lia. }
    exists b. split; [|split; auto].
    + change (fx_of_float m f lit_tau = Ok b). rewrite fx_of_float_bits by (auto; apply fwf_width; auto). apply fx_fin_ok; auto.
    + apply ACC. apply Rabs_le. assert (D : (Rabs ((B2R lit_tau - 2 * PI) * q) <= / 1000000000000000 * q)%R).
      { rewrite Rabs_mult, (Rabs_pos_eq q) by lra. apply Rmult_le_compat_r; [lra|]. apply tau_val. }
      apply Rabs_le_inv in D. lra.
  - intros S F. pose proof (fx_bits_real f _ _ lit_tau (proj1 W)) as B. fold q in B. set (b := fx_bits f lit_tau) in *. apply Rabs_le_inv in B.
    assert (B7 : 6 * fone f <= b <= 7 * fone f).
    { split; [apply fx_bits_ge | apply fx_bits_le]; try apply W; rewrite mult_IZR; fold q; apply Rmult_le_compat_r; lra. }
    assert (E : 2 ^ (fwidth f - 1) = 4 * fone f).
    { unfold fone. change 4 with (2 ^ 2). rewrite <- Z.pow_add_r by lia. f_equal. lia. }
    assert (NV : ~ fvalid f b) by (rewrite fvalid_iff, S; lia).
    assert (FE : mixed_tau (fixed_pi m f) = fx_fin m f b) by (apply fx_of_float_bits; [reflexivity | apply fwf_width; auto]).
    rewrite FE. destruct m.
    + apply fin_debug_over. exact NV.
    + exists (b - 8 * fone f). split.
      * unfold fx_fin. rewrite Lemmas.fin_release by (apply fwf_width; auto). f_equal. pose proof (half_le_full (fwidth f) ltac:(lia)) as HF. apply wrap_unique with (k := -1).
        -- apply fwf_width; auto.
        -- change (fvalid f (b - 8 * fone f)). rewrite fvalid_iff, S. lia.
        -- cbn [fity iwidth]. lia.
      * apply ACC. rewrite minus_IZR, mult_IZR. fold q. apply Rabs_le. assert (D : (Rabs ((B2R lit_tau - 2 * PI) * q) <= / 1000000000000000 * q)%R).
        { rewrite Rabs_mult, (Rabs_pos_eq q) by lra. apply Rmult_le_compat_r; [lra|]. apply tau_val. }
        apply Rabs_le_inv in D. lra.
Qed.
Lemma c50_f32 : exists p t : f32, mixed_pi float_pi = Ok p /\ mixed_tau float_pi = Ok t /\ is_finite p = true /\ is_finite t = true /\
  (Rabs (B2R p - PI) < bpow radix2 (-23))%R /\ (Rabs (B2R t - 2 * PI) < bpow radix2 (-22))%R.
Proof.
  pose proof pi_bounds as PB. do 2 eexists. split; [reflexivity|]. split; [reflexivity|].
  assert (P : B2SF (float_of_float 24 128 lit_pi) = SpecFloat.S754_finite false 13176795 (-22)) by (vm_compute; reflexivity).
  assert (T : B2SF (float_of_float 24 128 lit_tau) = SpecFloat.S754_finite false 13176795 (-21)) by (vm_compute; reflexivity).
  destruct (value_of _ _ _ _ _ _ P) as [FP ->]. destruct (value_of _ _ _ _ _ _ T) as [FT ->]. split; [exact FP|]. split; [exact FT|].
  unfold F2R. cbn [Fnum Fexp cond_Zopp]. change (bpow radix2 (-22)) with (/ IZR 4194304)%R. change (bpow radix2 (-21)) with (/ IZR 2097152)%R. change (bpow radix2 (-23)) with (/ IZR 8388608)%R.
  split; apply Rabs_lt; lra.
Qed.
Lemma c50_f64 : exists p t : f64, mixed_pi float_pi = Ok p /\ mixed_tau float_pi = Ok t /\ is_finite p = true /\ is_finite t = true /\
  (Rabs (B2R p - PI) < bpow radix2 (-52))%R /\ (Rabs (B2R t - 2 * PI) < bpow radix2 (-51))%R.
Proof.
  pose proof pi_bounds as PB. do 2 eexists. split; [reflexivity|]. split; [reflexivity|].
  assert (P : B2SF (float_of_float 53 1024 lit_pi) = SpecFloat.S754_finite false 7074237752028440 (-51)) by (vm_compute; reflexivity).
  assert (T : B2SF (float_of_float 53 1024 lit_tau) = SpecFloat.S754_finite false 7074237752028440 (-50)) by (vm_compute; reflexivity).
  destruct (value_of _ _ _ _ _ _ P) as [FP ->]. destruct (value_of _ _ _ _ _ _ T) as [FT ->]. split; [exact FP|]. split; [exact FT|].
  unfold F2R. cbn [Fnum Fexp cond_Zopp]. change (bpow radix2 (-51)) with (/ IZR 2251799813685248)%R. change (bpow radix2 (-50)) with (/ IZR 1125899906842624)%R. change (bpow radix2 (-52)) with (/ IZR 4503599627370496)%R.
  split; apply Rabs_lt; lra.
Qed.

(** zero and one *)
Lemma c50_int_unit : forall m t, In t int_types -> exists z o, mixed_zero (int_zero t) = Ok z /\ mixed_one (int_one t) = Ok o /\
  forall a, in_range t a -> o_add (int_ops m t) a z = Ok a /\ o_add (int_ops m t) z a = Ok a /\ o_mul (int_ops m t) a o = Ok a /\ o_mul (int_ops m t) o a = Ok a.
Proof.
  intros m t I. pose proof (int_types_width t I) as W. exists 0, 1. cbn [mixed_zero int_zero mixed_one int_one o_add o_mul int_ops].
  rewrite (wrap_id t) by (try lia; apply zero_in_range; lia). rewrite (wrap_id t) by (try lia; apply one_in_range; lia).
  split; auto. split; auto. intros a R. rewrite Z.add_0_r, Z.add_0_l, Z.mul_1_r, Z.mul_1_l, fin_ok by auto. auto.
Qed.
Lemma c50_fixed_unit : forall m f, supported f = true -> exists z o, mixed_zero (fixed_zero m f) = Ok z /\ mixed_one (fixed_one m f) = Ok o /\
  forall a, fvalid f a -> o_add (fixed_ops m f) a z = Ok a /\ o_add (fixed_ops m f) z a = Ok a /\ o_mul (fixed_ops m f) a o = Ok a /\ o_mul (fixed_ops m f) o a = Ok a.
Proof.
  intros m f Hf. pose proof (supported_fwf f Hf) as W. pose proof (fone_pos f (proj1 W)) as Q. exists 0, (fone f). simpl.
  rewrite !fx_of_int_small by (auto; lia). rewrite Z.mul_1_l. repeat split; auto; unfold fx_add, fx_mul; rewrite ?Z.add_0_r, ?Z.add_0_l.
  - apply fx_fin_ok; auto.
  - apply fx_fin_ok; auto.
  - rewrite Z.div_mul by lia. apply fx_fin_ok; auto.
  - rewrite Z.mul_comm, Z.div_mul by lia. apply fx_fin_ok; auto.
Qed.
Lemma c50_float_unit : forall prec emax {Hp : Prec_gt_0 prec} {He : Prec_lt_emax prec emax}, 1 < prec ->
  exists z o : binary_float prec emax, mixed_zero float_zero = Ok z /\ mixed_one float_one = Ok o /\
  forall a, (exists r, o_add float_ops a z = Ok r /\ same_float r a) /\ (exists r, o_add float_ops z a = Ok r /\ same_float r a) /\
    o_mul float_ops a o = Ok a /\ o_mul float_ops o a = Ok a.
Proof.
  intros prec emax Hp He P. do 2 eexists. split; [reflexivity|]. split; [reflexivity|]. intros a.
  rewrite float_of_Z_one, float_of_Z_zero by auto.
  assert (S : same_float (Bplus mode_NE a (B754_zero false)) a) by (destruct a as [[]|[]| |s m e H]; simpl; try (left; reflexivity); right; eauto).
  split; [eexists; split; [reflexivity | exact S]|]. split; [eexists; split; [reflexivity | rewrite Bplus_comm; exact S]|].
  simpl. split; f_equal; [rewrite Bmult_comm|]; apply Bmult_Bone_l.
Qed.

(** ** combined forms *)
Lemma c42_of_float : forall m f, supported f = true ->
  (forall x : f64, is_finite x = false -> mixed_from_num (fixed_conv_f64 m f) x = Panic PNotFinite) /\
  (forall x : f32, is_finite x = false -> mixed_from_num (fixed_conv_f32 m f) x = Panic PNotFinite) /\
  (forall x : f64, is_finite x = true -> let n := ZnearestE (B2R x * bpow radix2 (ffrac f)) in
    (fvalid f n -> mixed_from_num (fixed_conv_f64 m f) x = Ok n /\ (Rabs (fval f n - B2R x) <= ulp f / 2)%R) /\
    (~ fvalid f n -> mixed_from_num (fixed_conv_f64 m f) x = match m with Debug => Panic POverflow | Release => Ok (wrap (fity f) n) end)) /\
  (forall x : f32, is_finite x = true -> let n := ZnearestE (B2R x * bpow radix2 (ffrac f)) in
    (fvalid f n -> mixed_from_num (fixed_conv_f32 m f) x = Ok n /\ (Rabs (fval f n - B2R x) <= ulp f / 2)%R) /\
    (~ fvalid f n -> mixed_from_num (fixed_conv_f32 m f) x = match m with Debug => Panic POverflow | Release => Ok (wrap (fity f) n) end)).
Proof. intros m f Hf. repeat apply conj; intros x; apply (of_float_spec m f _ _ x Hf). Qed.
Lemma c58_to_int : forall m f t a, supported f = true -> In t int_types ->
  (in_range t (Zfloor (fval f a)) -> mixed_to_num (fixed_conv_int m f t) a = Ok (Zfloor (fval f a))) /\
  (~ in_range t (Zfloor (fval f a)) -> mixed_to_num (fixed_conv_int m f t) a =
    match m with Debug => Panic POverflow | Release => Ok (wrap t (Zfloor (fval f a))) end).
Proof. intros. apply fx_to_int_spec; auto. Qed.
Lemma c58_of_float : forall p e {Hp : Prec_gt_0 p} {He : Prec_lt_emax p e} t (x : binary_float p e), In t int_types -> exists r,
  mixed_to_num (float_conv_int t) x = Ok r /\ in_range t r /\
  (is_nan x = true -> r = 0) /\ (x = B754_infinity true -> r = imin t) /\ (x = B754_infinity false -> r = imax t) /\
  (is_finite x = true -> r = Z.max (imin t) (Z.min (imax t) (Ztrunc (B2R x)))).
Proof.
  intros p e Hp He t x I. exists (int_of_float t x). split; [reflexivity|]. pose proof (int_of_float_spec p e t x I) as H. split; [|exact H].
  pose proof (zero_in_range t ltac:(pose proof (int_types_width t I); lia)) as Z0. unfold in_range in *. destruct H as (H1 & H2 & H3 & H4).
  destruct x as [s|[]| |s mx ex Hb]; try (rewrite H1 by auto; lia); try (rewrite H2 by auto; lia); try (rewrite H3 by auto; lia); rewrite H4 by auto; lia.
Qed.
