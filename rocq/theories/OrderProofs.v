(** * Conversions keep order. *)

From Coq Require Import ZArith Reals Lia Lra Psatz Bool List.
From Flocq Require Import Core.Core IEEE754.BinarySingleNaN.
From Verif Require Import Base FloatBase Literals Traits Trig IntImpl FixedPrim FixedImpl FloatImpl Complex Spec
  Lemmas ScalarProofs ScalarProofs2 WrapProofs ConvProofs PhaseAcc.
Import ListNotations.
Open Scope Z_scope.

Lemma nearest_mono : forall x y, (x <= y)%R -> ZnearestE x <= ZnearestE y.
Proof. intros x y H. apply (@Zrnd_le ZnearestE (valid_rnd_N _)). auto. Qed.

(** ** to fixed point *)
Lemma of_float_debug_inv : forall f p e (x : binary_float p e) a, supported f = true -> fx_of_float Debug f x = Ok a ->
  is_finite x = true /\ a = ZnearestE (B2R x * bpow radix2 (ffrac f)).
Proof.
  intros f p e x a Hf H. destruct (of_float_spec Debug f p e x Hf) as [N S]. destruct (is_finite x) eqn:F; [|rewrite N in H by auto; discriminate].
  split; auto. destruct (S eq_refl) as [S1 S2]. set (n := ZnearestE _) in *. destruct (in_rangeb (fity f) n) eqn:E.
  - destruct S1 as [S1 _]; [apply in_rangeb_spec; auto|]. congruence.
  - rewrite S2 in H; [discriminate|]. intros V. apply in_rangeb_spec in V. congruence.
Qed.
Lemma of_float_mono : forall f p e (x y : binary_float p e) a b, supported f = true -> fx_of_float Debug f x = Ok a -> fx_of_float Debug f y = Ok b ->
  Bleb x y = true -> a <= b.
Proof.
  intros f p e x y a b Hf Hx Hy L. destruct (of_float_debug_inv f p e x a Hf Hx) as [Fx ->]. destruct (of_float_debug_inv f p e y b Hf Hy) as [Fy ->].
  apply nearest_mono. apply Rmult_le_compat_r; [apply bpow_ge_0|].
  rewrite Bleb_correct in L by auto. destruct (Rle_bool_spec (B2R x) (B2R y)); [auto|discriminate].
Qed.

(** ** rounding to a float *)
Section Norm.
Context {prec emax : Z} {Hp : Prec_gt_0 prec} {He : Prec_lt_emax prec emax}.
Notation float := (binary_float prec emax).
Notation fexp := (SpecFloat.fexp prec emax).
Notation rnd := (round radix2 fexp ZnearestE).
Let Vexp : Valid_exp fexp := fexp_correct prec emax _.

(** the outcome of rounding the real number [v] *)
Definition rounds_to (v : R) (x : float) : Prop :=
  (is_finite x = true /\ B2R x = rnd v /\ (Rabs (rnd v) < bpow radix2 emax)%R) \/
  (x = B754_infinity (Rlt_bool v 0) /\ (bpow radix2 emax <= Rabs (rnd v))%R).
Lemma norm_rounds : forall z e s, rounds_to (F2R (Float radix2 z e)) (binary_normalize prec emax Hp He mode_NE z e s).
Proof.
  intros z e s. pose proof (binary_normalize_correct prec emax Hp He mode_NE z e s) as H. cbv zeta in H. change (round_mode mode_NE) with ZnearestE in H.
  set (v := F2R _) in *. set (x := binary_normalize _ _ _ _ _ _ _ _) in *. unfold rounds_to.
  destruct (Rlt_bool_spec (Rabs (rnd v)) (bpow radix2 emax)) as [L|L].
  - left. tauto.
  - right. split; auto. destruct x as [t|t| |t mm ee bb]; cbn in H; try discriminate. injection H as ->. reflexivity.
Qed.
Lemma rounds_le : forall v w x y, (v <= w)%R -> rounds_to v x -> rounds_to w y -> Bleb x y = true.
Proof using Vexp.
  intros v w x y H Hx Hy. assert (M : (rnd v <= rnd w)%R) by (apply round_le; auto; apply valid_rnd_N).
  assert (Z0 : rnd 0 = 0%R) by (apply round_0, valid_rnd_N).
  assert (SGN : forall u, (u < 0 -> rnd u <= 0)%R /\ (0 <= u -> 0 <= rnd u)%R).
  { intros u. split; intros Hu; rewrite <- Z0; apply round_le; auto; try apply valid_rnd_N; lra. }
  pose proof (bpow_gt_0 radix2 emax) as P.
  destruct Hx as [(Fx & Ex & Lx)|(Ex & Lx)], Hy as [(Fy & Ey & Ly)|(Ey & Ly)].
  - rewrite Bleb_correct by auto. apply Rle_bool_true. lra.
  - subst y. destruct (Rlt_bool_spec w 0) as [N|N].
    + exfalso. destruct (SGN w) as [S _]. specialize (S N). rewrite (Rabs_left1 (rnd w)) in Ly by auto.
      apply Rabs_lt_inv in Lx. lra.
    + destruct x as [t|t| |t mm ee bb]; try discriminate; destruct t; reflexivity.
  - subst x. destruct (Rlt_bool_spec v 0) as [N|N].
    + destruct y as [t|t| |t mm ee bb]; try discriminate; reflexivity.
    + exfalso. destruct (SGN v) as [_ S]. specialize (S N). rewrite (Rabs_pos_eq (rnd v)) in Lx by auto. apply Rabs_lt_inv in Ly. lra.
  - subst x y. destruct (Rlt_bool_spec v 0) as [N|N], (Rlt_bool_spec w 0) as [N'|N']; try reflexivity.
    exfalso. lra.
Qed.

Lemma of_int_mono : forall z w, z <= w -> Bleb (float_of_Z prec emax z) (float_of_Z prec emax w) = true.
Proof using Vexp.
  intros z w H. apply (rounds_le (IZR z) (IZR w)); [apply IZR_le; auto| |].
  - replace (IZR z) with (F2R (Float radix2 z 0)) by (unfold F2R; cbn; ring). apply norm_rounds.
  - replace (IZR w) with (F2R (Float radix2 w 0)) by (unfold F2R; cbn; ring). apply norm_rounds.
Qed.
Lemma of_scaled_mono : forall z w e, z <= w -> Bleb (float_of_scaled prec emax z e) (float_of_scaled prec emax w e) = true.
Proof using Vexp.
  intros z w e H. apply (rounds_le (F2R (Float radix2 z e)) (F2R (Float radix2 w e))); [apply F2R_le; auto| |]; apply norm_rounds.
Qed.

Lemma of_float_rounds : forall p e (x : binary_float p e), is_finite x = true -> rounds_to (B2R x) (float_of_float prec emax x).
Proof using Vexp.
  intros p e x F. destruct x as [s|s| |s mm ee bb]; try discriminate.
  - left. cbn [float_of_float is_finite B2R]. rewrite round_0 by apply valid_rnd_N. rewrite Rabs_R0. repeat split; auto. apply bpow_gt_0.
  - cbn [float_of_float B2R]. apply norm_rounds.
Qed.
Lemma float_float_mono : forall p e (x y : binary_float p e), Bleb x y = true ->
  Bleb (float_of_float prec emax x) (float_of_float prec emax y) = true.
Proof using Vexp.
  intros p e x y H. destruct (is_finite x) eqn:Fx, (is_finite y) eqn:Fy.
  - apply (rounds_le (B2R x) (B2R y)); try (apply of_float_rounds; auto).
    rewrite Bleb_correct in H by auto. destruct (Rle_bool_spec (B2R x) (B2R y)); [auto|discriminate].
  - pose proof (of_float_rounds p e x Fx) as R. destruct y as [s|s| |s mm ee bb]; try discriminate.
    + destruct s; [destruct x as [t|t| |t m2 e2 b2]; try discriminate; destruct t; discriminate|]. cbn [float_of_float].
      destruct R as [(F & _)|(E & _)]; [|rewrite E; destruct (Rlt_bool _ _); reflexivity]. 
      destruct (float_of_float prec emax x) as [t|t| |t m2 e2 b2]; try discriminate; try destruct t; reflexivity.
    + destruct x as [t|t| |t m2 e2 b2]; try discriminate; destruct t; discriminate.
  - pose proof (of_float_rounds p e y Fy) as R. destruct x as [s|s| |s mm ee bb]; try discriminate.
    + destruct s; [|destruct y as [t|t| |t m2 e2 b2]; try discriminate; destruct t; discriminate]. cbn [float_of_float].
      destruct R as [(F & _)|(E & _)]; [|rewrite E; destruct (Rlt_bool _ _); reflexivity]. 
      destruct (float_of_float prec emax y) as [t|t| |t m2 e2 b2]; try discriminate; try destruct t; reflexivity.
  - destruct x as [s|s| |s mm ee bb]; try discriminate; destruct y as [t|t| |t m2 e2 b2]; try discriminate; destruct s, t; try discriminate; reflexivity.
Qed.
End Norm.

(** ** floats to integers *)
Lemma trunc_mono : forall x y, (x <= y)%R -> Ztrunc x <= Ztrunc y.
Proof. intros. apply Ztrunc_le. auto. Qed.
Lemma to_int_mono : forall p e {He : Prec_lt_emax p e} t (x y : binary_float p e), In t int_types -> Bleb x y = true ->
  int_of_float t x <= int_of_float t y.
Proof.
  intros p e He t x y I H. pose proof (int_types_width t I) as W.
  assert (RG : imin t <= imax t) by (pose proof (zero_in_range t ltac:(lia)) as R; unfold in_range in R; lia).
  destruct (int_of_float_spec p e t x I) as (_ & X1 & X2 & X3). destruct (int_of_float_spec p e t y I) as (_ & Y1 & Y2 & Y3).
  destruct (is_finite x) eqn:Fx, (is_finite y) eqn:Fy.
  - rewrite X3, Y3 by auto. rewrite Bleb_correct in H by auto. destruct (Rle_bool_spec (B2R x) (B2R y)) as [L|]; [|discriminate].
    apply trunc_mono in L. lia.
  - rewrite X3 by auto. destruct y as [s|s| |s mm ee bb]; try discriminate.
    + destruct s; [destruct x as [t'|t'| |t' m2 e2 b2]; try discriminate; destruct t'; discriminate|]. rewrite Y2 by auto. lia.
    + destruct x as [t'|t'| |t' m2 e2 b2]; try discriminate; destruct t'; discriminate.
  - rewrite Y3 by auto. destruct x as [s|s| |s mm ee bb]; try discriminate.
    + destruct s; [|destruct y as [t'|t'| |t' m2 e2 b2]; try discriminate; destruct t'; discriminate]. rewrite X1 by auto. lia.
  - destruct x as [s|s| |s mm ee bb]; try discriminate; destruct y as [t'|t'| |t' m2 e2 b2]; try discriminate; destruct s, t'; try discriminate.
    all: cbn [int_of_float]; lia.
Qed.

(** ** fixed point and integers *)
Lemma fx_to_int_debug_inv : forall f t a r, supported f = true -> fx_to_int Debug f t a = Ok r -> r = Zfloor (fval f a).
Proof.
  intros f t a r Hf H. destruct (fx_to_int_spec Debug f t a Hf) as [S1 S2]. destruct (in_rangeb t (Zfloor (fval f a))) eqn:E.
  - rewrite S1 in H by (apply in_rangeb_spec; auto). congruence.
  - rewrite S2 in H; [discriminate|]. intros V. apply in_rangeb_spec in V. congruence.
Qed.
Lemma fx_to_int_mono : forall f t a b r s, supported f = true -> fx_to_int Debug f t a = Ok r -> fx_to_int Debug f t b = Ok s -> a <= b -> r <= s.
Proof.
  intros f t a b r s Hf Ha Hb L. apply fx_to_int_debug_inv in Ha, Hb; auto. subst. apply Zfloor_le.
  apply fval_le; auto. apply (supported_fwf f Hf).
Qed.
Lemma fx_of_int_mono : forall f z w a b, supported f = true -> fx_of_int Debug f z = Ok a -> fx_of_int Debug f w = Ok b -> z <= w -> a <= b.
Proof.
  intros f z w a b Hf Ha Hb L. unfold fx_of_int, fx_fin, fin in *. pose proof (fone_pos f (proj1 (supported_fwf f Hf))).
  destruct (in_rangeb _ _) in Ha; [|discriminate]. destruct (in_rangeb _ _) in Hb; [|discriminate]. injection Ha as <-. injection Hb as <-. nia.
Qed.

(** ** as stated *)
Lemma float_to_fixed_mono : forall f p e (x y : binary_float p e) a b, supported f = true -> fx_of_float Debug f x = Ok a -> fx_of_float Debug f y = Ok b ->
  Bleb x y = true -> (fval f a <= fval f b)%R.
Proof. intros. apply fval_le; [apply (supported_fwf f); auto|]. eapply of_float_mono; eauto. Qed.
Lemma fixed_to_float_mono : forall m f a b, supported f = true -> (fval f a <= fval f b)%R ->
  (exists x y, mixed_to_num (fixed_conv_f32 m f) a = Ok x /\ mixed_to_num (fixed_conv_f32 m f) b = Ok y /\ Bleb x y = true) /\
  (exists x y, mixed_to_num (fixed_conv_f64 m f) a = Ok x /\ mixed_to_num (fixed_conv_f64 m f) b = Ok y /\ Bleb x y = true).
Proof.
  intros m f a b Hf H. apply fval_le in H; [|apply (supported_fwf f); auto]. split.
  - exists (fx_to_f32 f a), (fx_to_f32 f b). repeat split; auto. apply of_scaled_mono; auto.
  - exists (fx_to_f64 f a), (fx_to_f64 f b). repeat split; auto. apply of_scaled_mono; auto.
Qed.
Lemma fixed_int_mono : forall f t, supported f = true ->
  (forall a b r s, mixed_to_num (fixed_conv_int Debug f t) a = Ok r -> mixed_to_num (fixed_conv_int Debug f t) b = Ok s ->
     (fval f a <= fval f b)%R -> r <= s) /\
  (forall z w a b, mixed_from_num (fixed_conv_int Debug f t) z = Ok a -> mixed_from_num (fixed_conv_int Debug f t) w = Ok b ->
     z <= w -> (fval f a <= fval f b)%R).
Proof.
  intros f t Hf. pose proof (proj1 (supported_fwf f Hf)) as F0. split.
  - intros a b r s Ha Hb H. apply fval_le in H; auto. exact (fx_to_int_mono f t a b r s Hf Ha Hb H).
  - intros z w a b Ha Hb H. apply fval_le; auto. exact (fx_of_int_mono f z w a b Hf Ha Hb H).
Qed.
Lemma float_int_mono : forall t, In t int_types ->
  (forall x y : f32, Bleb x y = true -> exists r s, mixed_to_num (float_conv_int t) x = Ok r /\ mixed_to_num (float_conv_int t) y = Ok s /\ r <= s) /\
  (forall x y : f64, Bleb x y = true -> exists r s, mixed_to_num (float_conv_int t) x = Ok r /\ mixed_to_num (float_conv_int t) y = Ok s /\ r <= s) /\
  (forall z w, z <= w -> exists x y : f32, mixed_from_num (float_conv_int t) z = Ok x /\ mixed_from_num (float_conv_int t) w = Ok y /\ Bleb x y = true) /\
  (forall z w, z <= w -> exists x y : f64, mixed_from_num (float_conv_int t) z = Ok x /\ mixed_from_num (float_conv_int t) w = Ok y /\ Bleb x y = true).
Proof.
  intros t I. split; [|split; [|split]].
  - intros x y H. exists (int_of_float t x), (int_of_float t y). repeat split; auto. apply (@to_int_mono 24 128 _); auto. 
  - intros x y H. exists (int_of_float t x), (int_of_float t y). repeat split; auto. apply (@to_int_mono 53 1024 _); auto. 
  - intros z w H. exists (float_of_Z 24 128 z), (float_of_Z 24 128 w). repeat split; auto. apply of_int_mono; auto.
  - intros z w H. exists (float_of_Z 53 1024 z), (float_of_Z 53 1024 w). repeat split; auto. apply of_int_mono; auto.
Qed.
Lemma float_float_mono2 :
  (forall x y : f64, Bleb x y = true -> exists u v : f32, mixed_from_num (float_conv_float 53 1024) x = Ok u /\ mixed_from_num (float_conv_float 53 1024) y = Ok v /\ Bleb u v = true) /\
  (forall x y : f32, Bleb x y = true -> exists u v : f64, mixed_from_num (float_conv_float 24 128) x = Ok u /\ mixed_from_num (float_conv_float 24 128) y = Ok v /\ Bleb u v = true).
Proof.
  split; intros x y H.
  - exists (float_of_float 24 128 x), (float_of_float 24 128 y). repeat split; auto. apply float_float_mono; auto.
  - exists (float_of_float 53 1024 x), (float_of_float 53 1024 y). repeat split; auto. apply float_float_mono; auto.
Qed.
Lemma int_int_not_mono : exists t t2 x y r s, In t int_types /\ In t2 int_types /\ in_range t x /\ in_range t y /\ x <= y /\
  mixed_to_num (int_conv_int t t2) x = Ok r /\ mixed_to_num (int_conv_int t t2) y = Ok s /\ s < r.
Proof.
  exists (mkIty true 32), (mkIty true 8), 127, 128, 127, (-128).
  repeat split; try (apply in_rangeb_spec; reflexivity); try lia; cbn; tauto.
Qed.
Lemma int_int_mono : forall t t2 x y, In t2 int_types -> in_range t2 x -> in_range t2 y -> x <= y ->
  exists r s, mixed_to_num (int_conv_int t t2) x = Ok r /\ mixed_to_num (int_conv_int t t2) y = Ok s /\ r <= s.
Proof.
  intros t t2 x y I Rx Ry H. pose proof (int_types_width t2 I). exists (wrap t2 x), (wrap t2 y). repeat split; auto. rewrite !wrap_id by (auto; lia). auto.
Qed.
