(** * Proofs about the float implementations: sign, powi, dB, complex algebra. *)

From Coq Require Import ZArith Reals Lia Lra Bool.
From Flocq Require Import Core.Core IEEE754.BinarySingleNaN.
From Verif Require Import Base FloatBase Literals Traits Trig FloatImpl Complex Spec Lemmas FloatLemmas.
Open Scope Z_scope.

Section FP.
Context {prec emax : Z} {Hp : Prec_gt_0 prec} {He : Prec_lt_emax prec emax}.
Notation float := (binary_float prec emax).
Notation fexp := (SpecFloat.fexp prec emax).
Notation rnd := (round radix2 fexp ZnearestE).

Lemma Bopp_involutive' : forall x : float, Bopp (Bopp x) = x.
Proof. intros [?|?| |? ? ? ?]; simpl; rewrite ?negb_involutive; auto. Qed.

Lemma Bdiv_opp_r : forall x y : float, Bdiv mode_NE x (Bopp y) = Bopp (Bdiv mode_NE x y).
Proof.
  intros x y. destruct (is_finite x) eqn:Fx; [destruct (is_finite_strict y) eqn:Fy|].
  - assert (Ny : B2R y <> 0%R).
    { destruct y as [?|?| |s m e Hb]; try discriminate. simpl.
      destruct s; [apply Rlt_not_eq, F2R_lt_0 | apply Rgt_not_eq, F2R_gt_0]; simpl; lia. }
    rewrite <- Bdiv_opp_l. apply Bdiv_ext; auto.
    + rewrite is_finite_Bopp. auto.
    + rewrite B2R_Bopp. lra.
    + rewrite !B2R_Bopp. field. auto.
    + rewrite !Bsign_opp; [| apply finite_not_nan; auto | destruct y; try discriminate; auto].
      destruct (Bsign x), (Bsign y); reflexivity.
  - destruct x as [?|?| |? ? ? ?], y as [?|?| |? ? ? ?]; try discriminate; simpl; auto; f_equal; now rewrite negb_xorb_r.
  - destruct x as [?|?| |? ? ? ?], y as [?|?| |? ? ? ?]; try discriminate; simpl; auto; f_equal; now rewrite negb_xorb_r.
Qed.

(** ** C13 *)
Lemma Bcompare_zero_lt : forall x : float, is_nan x = false ->
  o_lt float_ops x (B754_zero false) = true ->
  Bsign x = true /\ Babs x <> B754_zero false /\ Bopp (Babs x) = x.
Proof.
  intros x Nx H. unfold o_lt in H. cbn in H.
  destruct x as [s|s| |s m e B]; try discriminate; simpl in *.
  - destruct s; [|discriminate]. repeat split; auto; discriminate.
  - destruct s; [|discriminate]. repeat split; auto; discriminate.
Qed.
Lemma Bcompare_zero_ge : forall x : float, is_nan x = false ->
  o_lt float_ops x (B754_zero false) = false ->
  Babs x = x \/ x = B754_zero true.
Proof.
  intros x Nx H. unfold o_lt in H. cbn in H.
  destruct x as [[]|[]| |[] m e B]; try discriminate; simpl in *; auto.
Qed.

Hypothesis P1 : 1 < prec.

Lemma float_sign_spec : forall x : float, is_nan x = false ->
  mixed_sign float_real x = Ok (if o_lt float_ops x (B754_zero false) then Bopp Bone else Bone).
Proof.
  intros x Nx. cbn [mixed_sign float_real]. unfold sign. cbn [o_of_i32 float_ops bind].
  rewrite float_of_Z_zero. destruct (o_lt _ _ _); f_equal.
  - assert (L : 1 < 2 ^ prec) by (apply Z.pow_gt_1; lia).
    destruct (float_of_Z_exact (prec := prec) (emax := emax) (-1)) as (E & F & S); [simpl; lia|].
    apply B2R_Bsign_inj; auto.
    + rewrite is_finite_Bopp. apply is_finite_Bone.
    + rewrite E, B2R_Bopp, Bone_correct. reflexivity.
    + rewrite S, Bsign_opp, Bsign_Bone; auto. apply finite_not_nan, is_finite_Bone.

Qed.

(** sign * abs is x, bit for bit, except that it turns -0 into +0 *)
Lemma float_sign_mul_abs : forall (x : float) s a, is_nan x = false ->
  mixed_sign float_real x = Ok s -> mixed_abs float_abs x = Ok a ->
  o_mul float_ops s a = Ok (match x with B754_zero _ => B754_zero false | _ => x end).
Proof.
  intros x s a Nx Hs Ha. rewrite float_sign_spec in Hs by auto. inversion Hs; subst s; clear Hs.
  cbn in Ha. inversion Ha; subst a; clear Ha. cbn [o_mul float_ops]. f_equal.
  destruct (o_lt float_ops x (B754_zero false)) eqn:L.
  - destruct (Bcompare_zero_lt x Nx L) as (S & _ & E).
    rewrite Bmult_opp_l, Bmult_Bone_l, E. destruct x; auto; simpl in S; subst; discriminate.
  - rewrite Bmult_Bone_l. destruct (Bcompare_zero_ge x Nx L) as [E| ->]; [|reflexivity].
    rewrite E. destruct x; auto; simpl in E; congruence.
Qed.

Lemma B2R_finite_sign : forall x : float, is_nan x = false -> (o_lt float_ops x (B754_zero false) = true <->
  (is_finite x = true /\ (B2R x < 0)%R) \/ x = B754_infinity true).
Proof.
  intros x Nx. unfold o_lt. cbn. destruct x as [s|s| |s m e B]; try discriminate; simpl.
  - split; [discriminate|]. intros [[_ H]|H]; [lra|discriminate].
  - destruct s; split; auto; try discriminate. intros [[H _]|H]; discriminate.
  - destruct s; split; try discriminate; auto.
    + intros _. left. split; auto. apply F2R_lt_0. simpl. lia.
    + intros [[_ H]|H]; [|discriminate]. exfalso.
      assert (0 < F2R (Float radix2 (Zpos m) e))%R by (apply F2R_gt_0; simpl; lia).
      revert H. apply Rle_not_lt, Rlt_le. exact H0.
Qed.

(** ** C18 *)
Definition nonneg (x : float) := Bsign x = false.
Lemma Bsign_nan_false : forall x : float, is_nan x = true -> Bsign x = false.
Proof. intros x. destruct x; simpl; auto; discriminate. Qed.
Lemma Bmult_sign : forall x y : float, is_nan (Bmult mode_NE x y) = false ->
  Bsign (Bmult mode_NE x y) = xorb (Bsign x) (Bsign y).
Proof.
  intros x y N. destruct (is_finite x) eqn:Fx, (is_finite y) eqn:Fy.
  - pose proof (Bmult_correct prec emax _ _ mode_NE x y) as H. destruct (Rlt_bool _ _).
    + destruct H as (_ & _ & H). apply H. auto.
    + assert (Bmult mode_NE x y = B754_infinity (xorb (Bsign x) (Bsign y))) as -> by (apply B2SF_inj; rewrite H; reflexivity).
      reflexivity.
  - destruct x as [?|?| |? ? ? ?], y as [?|?| |? ? ? ?]; try discriminate; simpl; auto.
  - destruct x as [?|?| |? ? ? ?], y as [?|?| |? ? ? ?]; try discriminate; simpl; auto.
  - destruct x as [?|?| |? ? ? ?], y as [?|?| |? ? ? ?]; try discriminate; simpl; auto.
Qed.
Lemma Bmult_sign_eq : forall x y : float, Bsign x = Bsign y -> Bsign (Bmult mode_NE x y) = false.
Proof.
  intros x y E. destruct (is_nan (Bmult mode_NE x y)) eqn:N; [apply Bsign_nan_false; auto|].
  rewrite Bmult_sign by auto. rewrite E. apply xorb_nilpotent.
Qed.
Lemma pow_loop_nonneg : forall p (acc base : float), Bsign acc = false -> Bsign (num_pow_loop acc base p) = false.
Proof.
  induction p; intros acc base A; simpl; auto; apply IHp; destruct p; auto; apply Bmult_sign_eq; rewrite A; symmetry; apply Bmult_sign_eq; auto.
Qed.
Lemma pow_pos_nonneg : forall p (base : float), Bsign base = false -> Bsign (num_pow_pos base p) = false.
Proof.
  induction p; intros base B; auto.
  - unfold num_pow_pos. apply pow_loop_nonneg; auto.
  - simpl. apply IHp. apply Bmult_sign_eq; auto.
Qed.
Lemma num_pow_even_nonneg : forall (x : float) n, N.even n = true -> Bsign (num_pow x n) = false.
Proof.
  intros x [|[p|p|]] E; try discriminate; simpl.
  - apply Bsign_Bone.
  - apply pow_pos_nonneg. apply Bmult_sign_eq; auto.
Qed.

Lemma pow_loop_opp : forall p (acc base : float), num_pow_loop (Bopp acc) base p = Bopp (num_pow_loop acc base p).
Proof.
  induction p; intros acc base; simpl; auto.
  - destruct p; rewrite <- ?IHp, ?Bmult_opp_l; auto.
  - destruct p; rewrite <- ?IHp, ?Bmult_opp_l; auto.
Qed.
Lemma pow_loop_opp_base : forall p (acc base : float), num_pow_loop acc (Bopp base) p = num_pow_loop acc base p.
Proof.
  intros p acc base.
  assert (E : Bmult mode_NE (Bopp base) (Bopp base) = Bmult mode_NE base base)
    by (rewrite Bmult_opp_l, Bmult_opp_r, Bopp_involutive'; auto).
  destruct p; auto; simpl; rewrite E; auto.
Qed.
Lemma num_pow_opp : forall (x : float) n, num_pow (Bopp x) n = (if N.even n then num_pow x n else Bopp (num_pow x n)).
Proof.
  intros x [|[p|p|]]; auto.
  - unfold num_pow, num_pow_pos. rewrite pow_loop_opp, pow_loop_opp_base. reflexivity.
  - simpl. rewrite Bmult_opp_l, Bmult_opp_r, Bopp_involutive'. reflexivity.
Qed.

Lemma even_wrap_u32 : forall e, Z.even (wrap u32 e) = Z.even e.
Proof.
  intros. destruct (wrap_congr u32 ltac:(simpl; lia) e) as [k ->]. simpl iwidth.
  rewrite Z.even_add, Z.even_mul, Z.even_pow by lia. simpl. rewrite orb_true_r. destruct (Z.even e); auto.
Qed.
Lemma even_wrap_i32 : forall e, Z.even (wrap i32 e) = Z.even e.
Proof.
  intros. destruct (wrap_congr i32 ltac:(simpl; lia) e) as [k ->]. simpl iwidth.
  rewrite Z.even_add, Z.even_mul, Z.even_pow by lia. simpl. rewrite orb_true_r. destruct (Z.even e); auto.
Qed.
Lemma even_Z2N : forall z, 0 <= z -> N.even (Z.to_N z) = Z.even z.
Proof. intros [|p|p] H; auto; try lia. Qed.

Lemma powi_even_nonneg : forall (x : float) e r, Z.even e = true -> mixed_powi float_powi x e = Ok r -> Bsign r = false.
Proof.
  intros x e r E H. cbn in H. inversion H; subst; clear H. unfold floatcore_powi.
  assert (R : forall z, 0 <= wrap u32 z) by (intros; pose proof (wrap_range u32 ltac:(simpl; lia) z) as [? _]; auto).
  destruct (e <? 0); apply num_pow_even_nonneg; rewrite even_Z2N by auto; rewrite even_wrap_u32; auto.
  rewrite even_wrap_i32, Z.even_opp. auto.
Qed.
Lemma powi_opp : forall (x : float) e, mixed_powi float_powi (Bopp x) e =
  (r <- mixed_powi float_powi x e ;; Ok (if Z.even e then r else Bopp r)).
Proof.
  intros x e. cbn. f_equal. unfold floatcore_powi.
  assert (R : forall z, 0 <= wrap u32 z) by (intros; pose proof (wrap_range u32 ltac:(simpl; lia) z) as [? _]; auto).
  destruct (e <? 0).
  - rewrite Bdiv_opp_r, num_pow_opp, even_Z2N by auto. rewrite even_wrap_u32, even_wrap_i32, Z.even_opp. reflexivity.
  - rewrite num_pow_opp, even_Z2N by auto. rewrite even_wrap_u32. reflexivity.
Qed.
Lemma powi_small : forall x : float, mixed_powi float_powi x 0 = Ok Bone /\ mixed_powi float_powi x 1 = Ok x /\
  mixed_powi float_powi x 2 = Ok (Bmult mode_NE x x) /\
  mixed_powi float_powi x (-1) = Ok (Bdiv mode_NE Bone x).
Proof. intros. repeat split; reflexivity. Qed.

(** ** C33, C34, C49 *)
Lemma float_mul_comm : forall z w : Cartesian float, cartesian_mul float_ops z w = cartesian_mul float_ops w z.
Proof.
  intros z w. unfold cartesian_mul, ops_mul_cartesian. cbn [o_mul o_add o_sub float_ops bind].
  rewrite (Bmult_comm (re z) (re w)), (Bmult_comm (im z) (im w)).
  rewrite (Bplus_comm (Bmult mode_NE (re z) (im w))), (Bmult_comm (re z) (im w)), (Bmult_comm (im z) (re w)).
  reflexivity.
Qed.

Lemma float_conj_involutive : forall z : Cartesian float, 
  (c <- cartesian_conj float_signed z ;; cartesian_conj float_signed c) = Ok z.
Proof. intros [r i]. cbn. rewrite Bopp_involutive'. reflexivity. Qed.

Lemma Bplus_opp_same : forall x y : float,
  same_float (Bplus mode_NE (Bopp x) (Bopp y)) (Bopp (Bplus mode_NE x y)).
Proof.
  intros x y. destruct (is_finite x) eqn:Fx, (is_finite y) eqn:Fy;
    try (left; apply Bplus_opp; congruence).
  destruct (Req_dec (B2R x + B2R y) 0) as [E|E]; [|left; apply Bplus_opp; auto].
  right.
  assert (Zs : forall u v : float, is_finite u = true -> is_finite v = true -> (B2R u + B2R v = 0)%R ->
             exists s, Bplus mode_NE u v = B754_zero s).
  { intros u v Fu Fv Ez. pose proof (Bplus_correct prec emax _ _ mode_NE u v Fu Fv) as H.
    rewrite Ez, round_0, Rabs_R0, Rlt_bool_true in H by (apply bpow_gt_0 || apply valid_rnd_round_mode).
    destruct H as (H & F & _). destruct (Bplus mode_NE u v) as [s|s| |s m e B]; try discriminate; eauto.
    exfalso. simpl in H. destruct s; [assert (F2R (Float radix2 (cond_Zopp true (Zpos m)) e) < 0)%R by (apply F2R_lt_0; simpl; lia)|
      assert (0 < F2R (Float radix2 (cond_Zopp false (Zpos m)) e))%R by (apply F2R_gt_0; simpl; lia)]; lra. }
  destruct (Zs x y Fx Fy E) as [s ->].
  destruct (Zs (Bopp x) (Bopp y)) as [s' ->]; rewrite ?is_finite_Bopp, ?B2R_Bopp; auto; [lra|].
  simpl. eauto.
Qed.

(** conjugation distributes over the product; the imaginary parts may differ in the sign of a zero *)
Lemma float_conj_mul : forall z w : Cartesian float, exists p q,
  (s <- cartesian_mul float_ops z w ;; cartesian_conj float_signed s) = Ok p /\
  (a <- cartesian_conj float_signed z ;; b <- cartesian_conj float_signed w ;; cartesian_mul float_ops a b) = Ok q /\
  re p = re q /\ same_float (im q) (im p).
Proof.
  intros z w. do 2 eexists. split; [reflexivity|]. split; [reflexivity|]. cbn [re im cartesian_conj].
  split.
  - f_equal. rewrite Bmult_opp_l, Bmult_opp_r, Bopp_involutive'. reflexivity.
  - rewrite Bmult_opp_l, Bmult_opp_r. apply Bplus_opp_same.
Qed.
Lemma float_conj_add : forall z w : Cartesian float, exists p q,
  (s <- cartesian_add float_ops z w ;; cartesian_conj float_signed s) = Ok p /\
  (a <- cartesian_conj float_signed z ;; b <- cartesian_conj float_signed w ;; cartesian_add float_ops a b) = Ok q /\
  re p = re q /\ same_float (im q) (im p).
Proof.
  intros z w. do 2 eexists. split; [reflexivity|]. split; [reflexivity|]. cbn [re im cartesian_conj].
  split; auto. apply Bplus_opp_same.
Qed.
Lemma float_exp_conj : forall (Sn : MixedSin float) (E : MixedExp float),
  (forall y s c, mixed_sincos Sn y = Ok (s, c) -> mixed_sincos Sn (Bopp y) = Ok (Bopp s, c)) ->
  forall z r, cartesian_exp float_ops Sn E z = Ok r ->
  (c <- cartesian_conj float_signed z ;; cartesian_exp float_ops Sn E c) = cartesian_conj float_signed r.
Proof.
  intros Sn E H z r Hr. unfold cartesian_exp in *. binv Hr. binv Hr. destruct v as [s c]. cbn in Hr. inversion Hr; subst; clear Hr.
  cbn [cartesian_conj bind o_neg float_signed re im]. rewrite (H _ _ _ E0). cbn [bind]. rewrite E1. cbn [bind].
  cbn. rewrite Bmult_opp_l. reflexivity.
Qed.
Lemma exp_value : forall T (O : MixedOps T) Sn E z s c e r i,
  mixed_sincos Sn (im z) = Ok (s, c) -> mixed_exp E (re z) = Ok e ->
  o_mul O c e = Ok r -> o_mul O s e = Ok i -> cartesian_exp O Sn E z = Ok (mkC r i).
Proof.
  intros. unfold cartesian_exp. rewrite H. cbn. rewrite H0. cbn. rewrite H1. cbn. rewrite H2. reflexivity.
Qed.

(** ** C47 *)
Lemma round_double : forall r, (bpow radix2 (SpecFloat.emin prec emax + prec - 1) <= Rabs r)%R ->
  rnd (2 * r) = (2 * rnd r)%R.
Proof.
  intros r L. assert (N : r <> 0%R).
  { intros ->. rewrite Rabs_R0 in L. pose proof (bpow_gt_0 radix2 (SpecFloat.emin prec emax + prec - 1)). lra. }
  assert (M : SpecFloat.emin prec emax + prec <= Raux.mag radix2 r).
  { replace (SpecFloat.emin prec emax + prec) with (SpecFloat.emin prec emax + prec - 1 + 1) by lia.
    rewrite <- (mag_bpow radix2 (SpecFloat.emin prec emax + prec - 1)). apply mag_le_abs.
    - apply Rgt_not_eq, bpow_gt_0.
    - rewrite Rabs_pos_eq by apply bpow_ge_0. auto. }
  replace (2 * r)%R with (r * bpow radix2 1)%R by (change (bpow radix2 1) with 2%R; ring).
  replace (2 * rnd r)%R with (rnd r * bpow radix2 1)%R by (change (bpow radix2 1) with 2%R; ring).
  unfold round, scaled_mantissa, cexp. rewrite mag_mult_bpow by auto.
  unfold SpecFloat.fexp. rewrite !Z.max_l by lia.
  rewrite (Rmult_assoc r), <- bpow_plus.
  replace (1 + - (Raux.mag radix2 r + 1 - prec)) with (- (Raux.mag radix2 r - prec)) by lia.
  unfold F2R; cbn [Fnum Fexp].
  replace (Raux.mag radix2 r + 1 - prec) with (Raux.mag radix2 r - prec + 1) by lia.
  rewrite bpow_plus. ring.
Qed.

Lemma FIX_small_format : forall k, (Rabs (IZR k * bpow radix2 (SpecFloat.emin prec emax)) <= bpow radix2 (SpecFloat.emin prec emax + prec))%R ->
  generic_format radix2 fexp (IZR k * bpow radix2 (SpecFloat.emin prec emax)).
Proof.
  intros k L. change (SpecFloat.fexp prec emax) with (FLT_exp (SpecFloat.emin prec emax) prec).
  destruct (Rle_lt_or_eq_dec _ _ L) as [L'|L'].
  - apply generic_format_FLT. exists (Float radix2 k (SpecFloat.emin prec emax)); simpl.
    + reflexivity.
    + rewrite Rabs_mult, (Rabs_pos_eq (bpow _ _)) in L' by apply bpow_ge_0.
      rewrite Z.add_comm, bpow_plus in L'. apply Rmult_lt_reg_r in L'; [|apply bpow_gt_0].
      rewrite <- abs_IZR in L'. pose proof (prec_gt_0 prec). rewrite <- IZR_Zpower in L' by lia. apply lt_IZR in L'. exact L'.
    + lia.
  - apply generic_format_abs_inv. rewrite L'. apply generic_format_FLT_bpow; [exact Hp|]. pose proof (prec_gt_0 prec). lia.
Qed.

Lemma B2R_FIX : forall x : float, exists k, B2R x = (IZR k * bpow radix2 (SpecFloat.emin prec emax))%R.
Proof.
  intros x. pose proof (generic_format_B2R prec emax x) as G.
  change (SpecFloat.fexp prec emax) with (FLT_exp (SpecFloat.emin prec emax) prec) in G.
  apply generic_format_FIX_FLT in G. apply FIX_format_generic in G. destruct G as [[k e] H1 H2].
  simpl in H2. subst e. exists k. exact H1.
Qed.

Lemma finite_pos_shape : forall x : float, is_finite x = true -> (0 < B2R x)%R ->
  exists m e B, x = B754_finite false m e B.
Proof.
  intros [s|s| |s m e B] F P; try discriminate; simpl in P.
  - lra.
  - destruct s; [|eauto]. assert (F2R (Float radix2 (cond_Zopp true (Zpos m)) e) < 0)%R by (apply F2R_lt_0; simpl; lia). lra.
Qed.

Hypothesis P5 : 5 <= prec.

Lemma small_Z : forall z, Z.abs z < 32 -> Z.abs z < 2 ^ prec.
Proof. intros. assert (2 ^ 5 <= 2 ^ prec) by (apply Z.pow_le_mono_r; lia). lia. Qed.

Lemma scale_twenty : forall l : float,
  Bmult mode_NE (float_of_Z prec emax 20) l =
  Bmult mode_NE (float_of_Z prec emax 2) (Bmult mode_NE (float_of_Z prec emax 10) l).
Proof.
  intros l.
  destruct (float_of_Z_exact (prec:=prec) (emax:=emax) 20) as (E20 & F20 & S20); [apply small_Z; simpl; lia|].
  destruct (float_of_Z_exact (prec:=prec) (emax:=emax) 10) as (E10 & F10 & S10); [apply small_Z; simpl; lia|].
  destruct (float_of_Z_exact (prec:=prec) (emax:=emax) 2) as (E2 & F2 & S2); [apply small_Z; simpl; lia|].
  change (20 <? 0) with false in S20. change (10 <? 0) with false in S10. change (2 <? 0) with false in S2.
  destruct (is_finite l) eqn:Fl.
  - pose proof (Bmult_correct prec emax _ _ mode_NE (float_of_Z prec emax 20) l) as H20.
    pose proof (Bmult_correct prec emax _ _ mode_NE (float_of_Z prec emax 10) l) as H10.
    rewrite E20 in H20. rewrite E10 in H10. change (round_mode mode_NE) with ZnearestE in *.
    assert (R : rnd (20 * B2R l) = (2 * rnd (10 * B2R l))%R).
    { replace (20 * B2R l)%R with (2 * (10 * B2R l))%R by ring.
      destruct (Rle_or_lt (bpow radix2 (SpecFloat.emin prec emax + prec - 1)) (Rabs (10 * B2R l))) as [L|L].
      - apply round_double; auto.
      - destruct (B2R_FIX l) as [k Ek].
        assert (B : bpow radix2 (SpecFloat.emin prec emax + prec) = (2 * bpow radix2 (SpecFloat.emin prec emax + prec - 1))%R).
        { replace (SpecFloat.emin prec emax + prec) with (1 + (SpecFloat.emin prec emax + prec - 1)) at 1 by lia. rewrite bpow_plus. reflexivity. }
        pose proof (Rabs_pos (10 * B2R l)).
        rewrite !round_generic; auto; try apply valid_rnd_N.
        + replace (10 * B2R l)%R with (IZR (10 * k) * bpow radix2 (SpecFloat.emin prec emax))%R by (rewrite mult_IZR, Ek; ring).
          apply FIX_small_format. rewrite mult_IZR, Rmult_assoc, <- Ek. lra.
        + replace (2 * (10 * B2R l))%R with (IZR (20 * k) * bpow radix2 (SpecFloat.emin prec emax))%R by (rewrite mult_IZR, Ek; ring).
          apply FIX_small_format. rewrite mult_IZR, Rmult_assoc, <- Ek.
          replace (20 * B2R l)%R with (2 * (10 * B2R l))%R by ring. rewrite Rabs_mult, (Rabs_pos_eq 2) by lra. lra. }
    rewrite R in H20.
    destruct (Rlt_bool_spec (Rabs (rnd (10 * B2R l))) (bpow radix2 emax)) as [L10|L10].
    + destruct H10 as (A10 & B10 & C10). rewrite F10, Fl in B10. cbn [andb] in B10.
      pose proof (Bmult_correct prec emax _ _ mode_NE (float_of_Z prec emax 2) (Bmult mode_NE (float_of_Z prec emax 10) l)) as H2.
      rewrite E2, A10 in H2. change (round_mode mode_NE) with ZnearestE in *.
      assert (R2 : rnd (2 * rnd (10 * B2R l)) = rnd (20 * B2R l)).
      { rewrite R. rewrite <- R. apply round_generic; [apply valid_rnd_N|]. apply generic_format_round; [|apply valid_rnd_N].
        change (SpecFloat.fexp prec emax) with (FLT_exp (SpecFloat.emin prec emax) prec). apply FLT_exp_valid. exact Hp. }
      rewrite R2, R in H2.
      assert (Sg : xorb (Bsign (float_of_Z prec emax 2)) (Bsign (Bmult mode_NE (float_of_Z prec emax 10) l)) = xorb (Bsign (float_of_Z prec emax 20)) (Bsign l)).
      { rewrite C10 by (apply finite_not_nan; auto). rewrite S2, S10, S20. destruct (Bsign l); reflexivity. }
      destruct (Rlt_bool _ _).
      * destruct H2 as (A2 & B2 & C2), H20 as (A20 & B20 & C20).
        rewrite F2, B10 in B2. rewrite F20, Fl in B20. cbn [andb] in B2, B20.
        apply B2R_Bsign_inj; auto; [congruence|].
        rewrite C20, C2 by (apply finite_not_nan; auto). auto.
      * apply B2SF_inj. rewrite H2, H20, Sg. reflexivity.
    + assert (I : Bmult mode_NE (float_of_Z prec emax 10) l = B754_infinity (Bsign l)).
      { apply B2SF_inj. rewrite H10, S10. destruct (Bsign l); reflexivity. }
      rewrite I. rewrite Rlt_bool_false in H20.
      2:{ rewrite Rabs_mult, (Rabs_pos_eq 2) by lra. pose proof (bpow_gt_0 radix2 emax). lra. }
      destruct (finite_pos_shape _ F2) as (m2 & e2 & B2 & Sh2). { rewrite E2. lra. }
      rewrite Sh2. apply B2SF_inj. rewrite H20, S20. destruct (Bsign l); reflexivity.
  - destruct (finite_pos_shape _ F2) as (m2 & e2 & B2 & Sh2). { rewrite E2. lra. }
    destruct (finite_pos_shape _ F10) as (m1 & e1 & B1 & Sh1). { rewrite E10. lra. }
    destruct (finite_pos_shape _ F20) as (m3 & e3 & B3 & Sh3). { rewrite E20. lra. }
    rewrite Sh2, Sh1, Sh3. destruct l as [?|[]| |? ? ? ?]; try discriminate; reflexivity.
Qed.

Lemma mag2db_pow2db : forall L E (x p r : float), 
  mixed_pow2db (float_dbpow L E) x = Ok p ->
  mixed_mag2db (float_dbmag L E) x = Ok r ->
  r = Bmult mode_NE (float_of_Z prec emax 2) p.
Proof.
  intros L E x p r Hpw Hm. cbn in Hpw, Hm. binv Hpw. inversion Hpw; subst. rewrite E0 in Hm. cbn in Hm. inversion Hm.
  apply scale_twenty.
Qed.

Lemma db2mag_db2pow : forall L E (x : float), is_finite (Bmult mode_NE (float_of_Z prec emax 2) x) = true ->
  mixed_db2mag (float_dbmag L E) (Bmult mode_NE (float_of_Z prec emax 2) x) = mixed_db2pow (float_dbpow L E) x.
Proof.
  intros L E x F. cbn [mixed_db2mag mixed_db2pow float_dbmag float_dbpow o_of_i32 o_div float_ops bind].
  f_equal.
  destruct (float_of_Z_exact (prec:=prec) (emax:=emax) 20) as (E20 & F20 & S20); [apply small_Z; simpl; lia|].
  destruct (float_of_Z_exact (prec:=prec) (emax:=emax) 10) as (E10 & F10 & S10); [apply small_Z; simpl; lia|].
  destruct (float_of_Z_exact (prec:=prec) (emax:=emax) 2) as (E2 & F2 & S2); [apply small_Z; simpl; lia|].
  change (20 <? 0) with false in S20. change (10 <? 0) with false in S10. change (2 <? 0) with false in S2.
  assert (Fx : is_finite x = true).
  { destruct (finite_pos_shape _ F2) as (m2 & e2 & B2 & Sh2). { rewrite E2. lra. }
    rewrite Sh2 in F. destruct x as [?|?| |? ? ? ?]; try discriminate; auto. }
  pose proof (Bmult_correct prec emax _ _ mode_NE (float_of_Z prec emax 2) x) as H.
  rewrite E2 in H. change (round_mode mode_NE) with ZnearestE in H.
  assert (R : rnd (2 * B2R x) = (2 * B2R x)%R).
  { destruct (Rle_or_lt (bpow radix2 (SpecFloat.emin prec emax + prec - 1)) (Rabs (B2R x))) as [L'|L'].
    - rewrite round_double by auto. rewrite round_B2R. auto.
    - destruct (B2R_FIX x) as [k Ek]. apply round_generic; [apply valid_rnd_N|].
      replace (2 * B2R x)%R with (IZR (2 * k) * bpow radix2 (SpecFloat.emin prec emax))%R by (rewrite mult_IZR, Ek; ring).
      apply FIX_small_format. rewrite mult_IZR, Rmult_assoc, <- Ek.
      rewrite Rabs_mult, (Rabs_pos_eq 2) by lra.
      replace (SpecFloat.emin prec emax + prec) with (1 + (SpecFloat.emin prec emax + prec - 1)) at 1 by lia. rewrite bpow_plus.
      simpl (bpow radix2 1). lra. }
  rewrite R in H. destruct (Rlt_bool _ _).
  - destruct H as (A & _ & C). apply Bdiv_ext; auto.
    + rewrite E20. lra.
    + rewrite E10. lra.
    + rewrite A, E20, E10. field.
    + rewrite C by (apply finite_not_nan; auto). rewrite S2, S20, S10. destruct (Bsign x); reflexivity.
  - assert (I : Bmult mode_NE (float_of_Z prec emax 2) x = B754_infinity (Bsign x)).
    { apply B2SF_inj. rewrite H, S2. destruct (Bsign x); reflexivity. }
    rewrite I in F. discriminate.
Qed.
End FP.
