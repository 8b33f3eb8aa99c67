(** * Complex division, scalar division, polar numbers, ordering, conversions. *)

From Coq Require Import ZArith Lia List Bool.
From Flocq Require Import Core.Core IEEE754.BinarySingleNaN.
From Verif Require Import Base FloatBase Traits Trig IntImpl FixedPrim FixedImpl FloatImpl
  Complex Spec Lemmas ScalarProofs FloatLemmas ComplexProofs.
Import ListNotations.
Open Scope Z_scope.

(** ** C35 *)
Lemma div_ignores_im : forall T (O : MixedOps T) W z w d, 
  cartesian_div O W z (mkC (re w) d) = cartesian_div O W z w /\
  cartesian_div_assign O W z (mkC (re w) d) = cartesian_div_assign O W z w /\
  ops_div_cartesian O W z (mkC (re w) d) = ops_div_cartesian O W z w.
Proof. intros. repeat split; reflexivity. Qed.

Lemma div_agree : forall T (O : MixedOps T) W z w,
  cartesian_div_assign O W z w = cartesian_div O W z w /\
  ops_div_cartesian O W z w = cartesian_div O W z w.
Proof. intros. split; reflexivity. Qed.

Lemma div_ignores_im_all : forall T (O : MixedOps T) W z w d,
  cartesian_div O W z (mkC (re w) d) = cartesian_div O W z w /\
  cartesian_div_assign O W z (mkC (re w) d) = cartesian_div O W z w /\
  ops_div_cartesian O W z (mkC (re w) d) = cartesian_div O W z w.
Proof. intros. repeat split; reflexivity. Qed.

(** debug, integers: what a returning division computes *)
Lemma int_powi_2 : forall m t x, 2 <= iwidth t -> in_range t x ->
  mixed_powi (int_powi m t) x 2 = fin m t (x * x).
Proof. intros. rewrite int_mixed_powi_spec by (auto; lia). f_equal. ring. Qed.

Lemma int_div_inv : forall t a b r, int_div t a b = Ok r -> b <> 0 /\ r = Z.quot a b /\ in_range t r.
Proof.
  intros t a b r H. unfold int_div in H. destruct (Z.eqb_spec b 0); [discriminate|].
  destruct (in_rangeb t (Z.quot a b)) eqn:E; inversion H; subst.
  apply in_rangeb_spec in E. auto.
Qed.

Lemma int_cdiv_debug : forall t z w r, 2 <= iwidth t -> cvalid t z -> cvalid t w ->
  cartesian_div (int_ops Debug t) (int_powi Debug t) z w = Ok r ->
  re r = Z.quot (re z * re w + im z * re w) (re w * re w + re w * re w) /\
  im r = Z.quot (im z * re w - re z * re w) (re w * re w + re w * re w).
Proof.
  intros t z w r Hw [Vzr Vzi] [Vwr Vwi] H. assert (Hw1 : 1 <= iwidth t) by lia.
  unfold cartesian_div in H. cbn [o_mul o_add o_sub o_div int_ops] in H.
  rewrite !int_powi_2 in H by auto.
  repeat (binv H).
  inversion H; subst r; clear H. cbn [re im].
  repeat match goal with E : fin Debug _ _ = Ok _ |- _ => apply fin_debug_inv in E; destruct E as [-> _] end.
  repeat match goal with E : int_div _ _ _ = Ok _ |- _ => apply int_div_inv in E; destruct E as (_ & -> & _) end.
  split; reflexivity.
Qed.

Lemma int_cdiv_re0 : forall m t z w, 2 <= iwidth t -> cvalid t z -> re w = 0 ->
  cartesian_div (int_ops m t) (int_powi m t) z w = Panic PDivZero.
Proof.
  intros m t z w Hw V E. assert (Hw1 : 1 <= iwidth t) by lia.
  assert (Z0 : in_range t 0) by (apply zero_in_range; auto).
  unfold cartesian_div. rewrite E. cbn [o_mul o_add o_sub o_div int_ops].
  rewrite !int_powi_2 by auto. rewrite !Z.mul_0_r.
  rewrite !(fin_ok m t 0) by auto. cbn [bind]. rewrite !(fin_ok m t (0 + 0)) by auto. cbn [bind].
  reflexivity.
Qed.

Lemma fixed_powi_2 : forall m f x, fwf f -> fvalid f x -> mixed_powi (fixed_powi m f) x 2 = fx_mul m f x x.
Proof.
  intros m f x W V. cbn [mixed_powi fixed_powi]. rewrite to_N_usize_nonneg by lia.
  reflexivity.
Qed.

Lemma fixed_cdiv_re0 : forall m f z w, fwf f -> re w = 0 ->
  cartesian_div (fixed_ops m f) (fixed_powi m f) z w = Panic PDivZero.
Proof.
  intros m f z w W E. pose proof (fwf_width f W) as Hw1.
  assert (Z0 : in_range (fity f) 0) by (apply zero_in_range; auto).
  unfold cartesian_div. rewrite E. rewrite !fixed_powi_2 by auto. cbn [o_mul o_add o_sub o_div fixed_ops].
  unfold fx_mul, fx_add, fx_fin. rewrite !Z.mul_0_r, Z.div_0_l by (pose proof (fone_pos f (proj1 W)); lia).
  rewrite !(fin_ok m _ 0) by auto. cbn [bind]. rewrite !(fin_ok m _ (0 + 0)) by auto. cbn [bind].
  reflexivity.
Qed.

(** ** C36, C37 *)
Lemma div_scalar_zero : forall T1 T2 (O1 : MixedOps T1) (O : MixedOps T2) C Z1 R z s zero,
  mixed_zero Z1 = Ok zero -> o_eq O1 s zero = true ->
  cartesian_div_scalar O1 O C Z1 R z s = Ok (mkC (mixed_max_value R) (mixed_max_value R)).
Proof. intros. unfold cartesian_div_scalar. rewrite H. cbn [bind]. rewrite H0. reflexivity. Qed.

Lemma div_scalar_nonzero : forall T1 T2 (O1 : MixedOps T1) (O : MixedOps T2) C Z1 R z s zero,
  mixed_zero Z1 = Ok zero -> o_eq O1 s zero = false ->
  cartesian_div_scalar O1 O C Z1 R z s = cartesian_div_assign_scalar O1 O C Z1 R z s.
Proof.
  intros. unfold cartesian_div_scalar, cartesian_div_assign_scalar. rewrite H. cbn [bind]. rewrite H0. reflexivity.
Qed.

(** on words every scalar conversion of zero is zero, and then [/=] divides by it *)
Lemma word_div_zero : forall m t O, word_arith m t O -> forall a, o_div O a 0 = Panic PDivZero.
Proof. intros m t O H a. destruct H; reflexivity. Qed.

Lemma div_assign_word_zero : forall m t O, word_arith m t O ->
  forall T1 (O1 : MixedOps T1) C Z1 R z s zero,
  mixed_zero Z1 = Ok zero -> mixed_from_num C s = Ok 0 ->
  cartesian_div_assign_scalar O1 O C Z1 R z s = Panic PDivZero.
Proof.
  intros m t O HO T1 O1 C Z1 R z s zero Hz Hc. unfold cartesian_div_assign_scalar.
  rewrite Hz, Hc. cbn [bind]. destruct (o_eq O1 s zero); rewrite (word_div_zero _ _ _ HO); reflexivity.
Qed.

Lemma fx_div_divzero : forall m f a b, fx_div m f a b = Panic PDivZero -> b = 0.
Proof.
  intros m f a b H. unfold fx_div in H. destruct (Z.eqb_spec b 0); auto.
  unfold fx_fin, fin in H. destruct (in_rangeb (fity f) _); [discriminate|]. destruct m; discriminate.
Qed.
Lemma int_div_divzero : forall t a b, int_div t a b = Panic PDivZero -> b = 0.
Proof.
  intros t a b H. unfold int_div in H. destruct (Z.eqb_spec b 0); auto.
  destruct (in_rangeb t _); discriminate.
Qed.
Lemma word_div_divzero : forall m t O, word_arith m t O -> forall a b, o_div O a b = Panic PDivZero -> b = 0.
Proof. intros m t O H a b. destruct H; [apply int_div_divzero | apply fx_div_divzero]. Qed.

(** division by zero happens exactly when a non-zero scalar converts to zero *)
Lemma div_scalar_divzero_iff : forall m t O, word_arith m t O ->
  forall T1 (O1 : MixedOps T1) C Z1 R z s zero,
  mixed_zero Z1 = Ok zero -> mixed_from_num C s <> Panic PDivZero ->
  (cartesian_div_scalar O1 O C Z1 R z s = Panic PDivZero <->
   o_eq O1 s zero = false /\ mixed_from_num C s = Ok 0).
Proof.
  intros m t O HO T1 O1 C Z1 R z s zero Hz Hp. unfold cartesian_div_scalar. rewrite Hz. cbn [bind].
  destruct (o_eq O1 s zero). { split; [discriminate | intros [? _]; discriminate]. }
  split.
  - intros H. split; auto. destruct (mixed_from_num C s) as [v|p|] eqn:E; cbn [bind] in H.
    + destruct (o_div O (re z) v) as [a|p|] eqn:E1; cbn [bind] in H; [|inversion H; subst|discriminate].
      * destruct (o_div O (im z) v) as [b|p|] eqn:E2; cbn [bind] in H; [discriminate|inversion H; subst|discriminate].
        apply (word_div_divzero _ _ _ HO) in E2. subst; auto.
      * apply (word_div_divzero _ _ _ HO) in E1. subst; auto.
    + congruence.
    + discriminate.
  - intros [_ E]. rewrite E. cbn [bind]. rewrite (word_div_zero _ _ _ HO). reflexivity.
Qed.

(** integer scalars into integer components of at least that width never vanish *)
Lemma int_conv_nonzero : forall t t1 s, 1 <= iwidth t -> 1 <= iwidth t1 -> iwidth t1 <= iwidth t -> in_range t1 s -> s <> 0 ->
  wrap t s <> 0.
Proof.
  intros t t1 s Hw Hw1 Hle Hs Hn E. destruct (wrap_congr t Hw s) as [k Hk]. rewrite E in Hk.
  assert (P : 2 ^ iwidth t1 <= 2 ^ iwidth t) by (apply Z.pow_le_mono_r; lia).
  assert (0 < 2 ^ iwidth t1) by (apply Z.pow_pos_nonneg; lia).
  pose proof (half_le_full (iwidth t1) Hw1). unfold in_range, imin, imax in Hs.
  destruct (isigned t1).
  - assert (-(2 ^ iwidth t) < s < 2 ^ iwidth t) by lia. assert (k = 0) by nia. subst. lia.
  - assert (-(2 ^ iwidth t) < s < 2 ^ iwidth t) by lia. assert (k = 0) by nia. subst. lia.
Qed.

(** ** C38 *)
Section Polar.
Context {T : Type}.
Variable O : MixedOps T.
Variable zero : T.
Hypothesis HZ : o_of_i32 O 0 = Ok zero.

Lemma polar_mul_zero : forall p q, o_eq O (mag p) zero = true \/ o_eq O (mag q) zero = true ->
  polar_mul O p q = Ok (mkP zero zero).
Proof.
  intros p q H. unfold polar_mul, ops_mul_polar. rewrite HZ. cbn [bind].
  destruct (o_eq O (mag p) zero); cbn [bind]; auto.
  destruct H as [H|H]; [discriminate|]. rewrite H. reflexivity.
Qed.
Lemma polar_mul_nonzero : forall p q, o_eq O (mag p) zero = false -> o_eq O (mag q) zero = false ->
  polar_mul O p q = bind (o_mul O (mag p) (mag q)) (fun mg => bind (o_add O (ang p) (ang q)) (fun an => Ok (mkP mg an))).
Proof.
  intros p q H1 H2. unfold polar_mul, ops_mul_polar. rewrite HZ. cbn [bind]. rewrite H1. cbn [bind]. rewrite H2. reflexivity.
Qed.
Lemma polar_mul_comm : (forall a b, o_mul O a b = o_mul O b a) -> (forall a b, o_add O a b = o_add O b a) ->
  forall p q, polar_mul O p q = polar_mul O q p.
Proof.
  intros Cm Ca p q. destruct (o_eq O (mag p) zero) eqn:E1, (o_eq O (mag q) zero) eqn:E2;
    try (rewrite !polar_mul_zero by auto; reflexivity).
  rewrite !polar_mul_nonzero by auto. rewrite (Cm (mag p)), (Ca (ang p)). reflexivity.
Qed.
End Polar.

Lemma word_mul_comm : forall m t O, word_arith m t O -> forall a b, o_mul O a b = o_mul O b a.
Proof. intros m t O H a b. destruct H; subst; cbn; [|unfold fx_mul]; rewrite Z.mul_comm; reflexivity. Qed.
Lemma word_add_comm : forall m t O, word_arith m t O -> forall a b, o_add O a b = o_add O b a.
Proof. intros. rewrite !(word_add _ _ _ H), Z.add_comm. reflexivity. Qed.

(** 1 is neutral for non-zero magnitudes *)
Lemma polar_one_int : forall m t p o, 2 <= iwidth t -> in_range t (mag p) -> in_range t (ang p) -> mag p <> 0 ->
  polar_one (int_zero t) (int_one t) = Ok o ->
  polar_mul (int_ops m t) p o = Ok p /\ polar_mul (int_ops m t) o p = Ok p.
Proof.
  intros m t p o Hw Vm Va Nz Ho. assert (Hw1 : 1 <= iwidth t) by lia.
  pose proof (zero_in_range t Hw1) as Z0.
  assert (V1 : in_range t 1) by (apply one_in_range; auto).
  unfold polar_one in Ho. cbn in Ho. rewrite !wrap_id in Ho by auto. inversion Ho; subst o; clear Ho.
  rewrite (polar_mul_comm (int_ops m t) 0) with (p := p);
    [|cbn; rewrite wrap_id by auto; reflexivity | apply (word_mul_comm m t), word_int | apply (word_add_comm m t), word_int].
  rewrite (polar_mul_nonzero (int_ops m t) 0).
  - cbn [o_mul o_add int_ops mag ang]. rewrite Z.mul_1_l, Z.add_0_l, !fin_ok by auto. destruct p; auto.
  - cbn. rewrite wrap_id by auto. reflexivity.
  - reflexivity.
  - cbn. unfold o_eq; cbn. destruct (Z.compare_spec (mag p) 0); auto. contradiction.
Qed.
Lemma polar_one_fixed : forall m f p o, fwf f -> fvalid f (mag p) -> fvalid f (ang p) -> mag p <> 0 ->
  polar_one (fixed_zero m f) (fixed_one m f) = Ok o ->
  polar_mul (fixed_ops m f) p o = Ok p /\ polar_mul (fixed_ops m f) o p = Ok p.
Proof.
  intros m f p o W Vm Va Nz Ho. pose proof (fwf_width f W) as Hw1.
  pose proof (zero_in_range (fity f) Hw1) as Z0. pose proof (fone_pos f (proj1 W)) as P1.
  unfold polar_one in Ho. cbn [mixed_one mixed_zero fixed_one fixed_zero] in Ho.
  rewrite !fx_of_int_small in Ho by (auto; lia). cbn [bind] in Ho. rewrite Z.mul_1_l, Z.mul_0_l in Ho. inversion Ho; subst o; clear Ho.
  assert (HZ : o_of_i32 (fixed_ops m f) 0 = Ok 0).
  { cbn. rewrite fx_of_int_small by (auto; lia). reflexivity. }
  rewrite (polar_mul_comm (fixed_ops m f) 0 HZ) with (p := p);
    [| apply (word_mul_comm m (fity f)), word_fixed; auto | apply (word_add_comm m (fity f)), word_fixed; auto].
  rewrite (polar_mul_nonzero (fixed_ops m f) 0 HZ).
  - cbn [o_mul o_add fixed_ops mag ang]. unfold fx_mul, fx_add. rewrite (Z.mul_comm (fone f)), Z.div_mul, Z.add_0_l by lia.
    rewrite !fx_fin_ok by auto. destruct p; auto.
  - cbn. unfold o_eq; cbn. destruct (Z.compare_spec (fone f) 0); auto; lia.
  - cbn. unfold o_eq; cbn. destruct (Z.compare_spec (mag p) 0); auto. contradiction.
Qed.

(** ** C48 *)
Section Order.
Variables (m : mode) (t : ity) (O : MixedOps Z).
Hypothesis HO : word_arith m t O.

Lemma cartesian_cmp_spec : forall a b, cartesian_cmp O a b =
  Some (if re a <? re b then Lt else if re b <? re a then Gt else im a ?= im b).
Proof.
  intros. unfold cartesian_cmp. rewrite !(word_cmp _ _ _ HO).
  destruct (Z.compare_spec (re a) (re b)) as [E|E|E].
  - rewrite E, Z.ltb_irrefl. reflexivity.
  - apply Z.ltb_lt in E. rewrite E. reflexivity.
  - destruct (Z.ltb_spec (re a) (re b)); [lia|]. apply Z.ltb_lt in E. rewrite E. reflexivity.
Qed.
Lemma polar_cmp_spec : forall a b, polar_cmp O a b =
  Some (if mag a <? mag b then Lt else if mag b <? mag a then Gt else ang a ?= ang b).
Proof.
  intros. unfold polar_cmp. rewrite !(word_cmp _ _ _ HO).
  destruct (Z.compare_spec (mag a) (mag b)) as [E|E|E].
  - rewrite E, Z.ltb_irrefl. reflexivity.
  - apply Z.ltb_lt in E. rewrite E. reflexivity.
  - destruct (Z.ltb_spec (mag a) (mag b)); [lia|]. apply Z.ltb_lt in E. rewrite E. reflexivity.
Qed.

Definition lex (a b : Z * Z) : Prop := fst a < fst b \/ (fst a = fst b /\ snd a < snd b).

Lemma cartesian_order : 
  (forall a b, cartesian_cmp O a b = Some Lt <-> lex (re a, im a) (re b, im b)) /\
  (forall a b, cartesian_cmp O a b = Some Eq <-> a = b) /\
  (forall a b, cartesian_eq O a b = true <-> a = b) /\
  (forall a b, cartesian_cmp O a b = Some Gt <-> cartesian_cmp O b a = Some Lt) /\
  (forall a b c, cartesian_cmp O a b = Some Lt -> cartesian_cmp O b c = Some Lt -> cartesian_cmp O a c = Some Lt) /\
  (forall a b, cartesian_cmp O a b <> None).
Proof.
  assert (L : forall a b, cartesian_cmp O a b = Some Lt <-> lex (re a, im a) (re b, im b)).
  { intros. rewrite cartesian_cmp_spec. unfold lex. simpl.
    destruct (Z.ltb_spec (re a) (re b)); [split; auto|].
    destruct (Z.ltb_spec (re b) (re a)); [split; [discriminate | lia]|].
    rewrite <- (Z.compare_lt_iff (im a) (im b)).
    split; [intros X; inversion X; right; split; [lia|auto] |
            intros [X|[_ X]]; [lia | rewrite X; auto]]. }
  assert (E : forall a b, cartesian_cmp O a b = Some Eq <-> a = b).
  { intros [a1 a2] [b1 b2]. rewrite cartesian_cmp_spec. simpl.
    destruct (Z.ltb_spec a1 b1); [split; [discriminate | intros X; inversion X; lia]|].
    destruct (Z.ltb_spec b1 a1); [split; [discriminate | intros X; inversion X; lia]|].
    split.
    - intros X. inversion X as [X1]. apply Z.compare_eq in X1. f_equal; lia.
    - intros X. inversion X; subst. rewrite Z.compare_refl. auto. }
  split; [exact L|]. split; [exact E|]. split; [|split; [|split]].
  - intros [a1 a2] [b1 b2]. unfold cartesian_eq, o_eq. simpl. rewrite !(word_cmp _ _ _ HO).
    destruct (Z.compare_spec a1 b1), (Z.compare_spec a2 b2); simpl; split; intros X;
      try discriminate; try (inversion X; lia); subst; auto.
  - intros a b. rewrite L. unfold lex. simpl. rewrite cartesian_cmp_spec.
    destruct (Z.ltb_spec (re a) (re b)); [split; [discriminate|lia]|].
    destruct (Z.ltb_spec (re b) (re a)); [split; auto|].
    rewrite <- (Z.compare_gt_iff (im a) (im b)).
    split; [intros X; inversion X; right; split; [lia|auto] |
            intros [X|[_ X]]; [lia | rewrite X; auto]].
  - intros a b c. rewrite !L. unfold lex. simpl. lia.
  - intros a b. rewrite cartesian_cmp_spec. discriminate.
Qed.
Lemma polar_order :
  (forall a b, polar_cmp O a b = Some Lt <-> lex (mag a, ang a) (mag b, ang b)) /\
  (forall a b, polar_cmp O a b = Some Eq <-> a = b) /\
  (forall a b, polar_cmp O a b = Some Gt <-> polar_cmp O b a = Some Lt) /\
  (forall a b, polar_cmp O a b <> None).
Proof.
  destruct cartesian_order as (L & E & _ & G & _ & N).
  assert (X : forall a b, polar_cmp O a b = cartesian_cmp O (mkC (mag a) (ang a)) (mkC (mag b) (ang b))) by reflexivity.
  split; [|split; [|split]]; intros a b; rewrite ?X.
  - apply L.
  - rewrite E. split; intros H; [inversion H; destruct a, b; simpl in *; subst; auto | subst; auto].
  - apply G.
  - apply N.
Qed.
End Order.

(** ** C44 *)
Section ComplexConv.
Context {T1 T2 : Type}.
Variable C : MixedNumConversion T1 T2.
Variable Z1 : MixedZero T1.
Variable Z2 : MixedZero T2.

Lemma conv_cartesian_from : forall c r, mixed_from_num (cartesian_conv_cartesian C) c = Ok r <->
  mixed_from_num C (re c) = Ok (re r) /\ mixed_from_num C (im c) = Ok (im r).
Proof.
  intros c r. cbn. split.
  - intros H. binv H. binv H. inversion H; subst. auto.
  - intros [-> ->]. cbn. rewrite C_eta. reflexivity.
Qed.
Lemma conv_cartesian_to : forall c r, mixed_to_num (cartesian_conv_cartesian C) c = Ok r <->
  mixed_to_num C (re c) = Ok (re r) /\ mixed_to_num C (im c) = Ok (im r).
Proof.
  intros c r. cbn. split.
  - intros H. binv H. binv H. inversion H; subst. auto.
  - intros [-> ->]. cbn. rewrite C_eta. reflexivity.
Qed.
(** a conversion that is lossless one way round-trips componentwise *)
Lemma conv_cartesian_roundtrip : (forall a b, mixed_from_num C a = Ok b -> mixed_to_num C b = Ok a) ->
  forall c r, mixed_from_num (cartesian_conv_cartesian C) c = Ok r ->
  mixed_to_num (cartesian_conv_cartesian C) r = Ok c.
Proof.
  intros L c r H. apply conv_cartesian_from in H. destruct H as [H1 H2].
  apply conv_cartesian_to. split; auto.
Qed.
Lemma real_cartesian_roundtrip : (forall b a, mixed_to_num C b = Ok a -> mixed_from_num C a = Ok b) ->
  forall x c, mixed_to_num (real_conv_cartesian C Z1) x = Ok c ->
  mixed_zero Z1 = Ok (im c) /\ mixed_from_num (real_conv_cartesian C Z1) c = Ok x.
Proof.
  intros L x c H. cbn in H. binv H. binv H. inversion H; subst. cbn. auto.
Qed.
Lemma polar_real_roundtrip : (forall a b, mixed_from_num C a = Ok b -> mixed_to_num C b = Ok a) ->
  forall x p, mixed_from_num (polar_conv_real C Z2) x = Ok p -> mixed_to_num (polar_conv_real C Z2) p = Ok x.
Proof. intros L x p H. cbn in H. binv H. binv H. inversion H; subst. cbn. auto. Qed.
End ComplexConv.

(** ** C40 (algebraic part) *)
Section Mag.
Context {T : Type}.
Variables (O : MixedOps T) (Q : MixedSqrt T) (W : MixedPowi T).
Lemma mag_abs : forall z, cartesian_mag O Q W z = cartesian_abs O Q W z /\ cartesian_mag O Q W z = ops_abs O Q W z.
Proof. split; reflexivity. Qed.
Lemma mag_to_polar : forall A z p, cartesian_to_polar O Q W A z = Ok p -> cartesian_mag O Q W z = Ok (mag p).
Proof. intros A z p H. unfold cartesian_to_polar, ops_to_polar in H. binv H. binv H. inversion H; subst. exact E. Qed.
Lemma mag_even : forall S, (forall a b, o_neg S a = Ok b -> mixed_powi W b 2 = mixed_powi W a 2) ->
  forall z c, cartesian_conj S z = Ok c -> cartesian_mag O Q W c = cartesian_mag O Q W z.
Proof.
  intros S E z c H. unfold cartesian_conj in H. binv H. inversion H; subst. unfold cartesian_mag. cbn [re im].
  rewrite (E _ _ E0). reflexivity.
Qed.
End Mag.
