(** * Scaling by powers of two is exact on floats. *)

From Coq Require Import ZArith Reals Lia Lra Psatz List Bool.
From Flocq Require Import Core.Core Plus_error IEEE754.BinarySingleNaN.
From Verif Require Import Base FloatBase Literals Traits Trig FloatImpl Complex Spec SpecAngle SpecScale Lemmas FloatLemmas FloatProofs FloatWrap
  WrapProofs2 FloatKit SinReal SinFloat AtanReal AtanFloat MagProofs MagOrder SqrtInv.
Open Scope Z_scope.

Section Scale.
Context {prec emax : Z} {Hp : Prec_gt_0 prec} {He : Prec_lt_emax prec emax}.
Notation float := (binary_float prec emax).
Notation fexp := (SpecFloat.fexp prec emax).
Notation rnd := (round radix2 fexp ZnearestE).
Notation format := (generic_format radix2 fexp).
Notation B2R := (@B2R prec emax).
Notation fin x := (is_finite x = true).
Notation mag := (Raux.mag radix2).
Let Vexp : Valid_exp fexp := fexp_correct prec emax _.

Lemma rnd_scale : forall v k, (bpow radix2 (2 - emax) <= Rabs v)%R -> (bpow radix2 (2 - emax) <= Rabs (v * bpow radix2 k))%R ->
  rnd (v * bpow radix2 k) = (rnd v * bpow radix2 k)%R.
Proof.
  intros v k L1 L2. assert (v <> 0)%R by (intros ->; rewrite Rabs_R0 in L1; pose proof (bpow_gt_0 radix2 (2 - emax)); lra).
  assert (M1 : 2 - emax < mag v) by (apply (lt_bpow radix2); eapply Rle_lt_trans; [exact L1 | apply bpow_mag_gt]).
  assert (M2 : 2 - emax < mag v + k).
  { rewrite <- mag_mult_bpow by auto. apply (lt_bpow radix2). eapply Rle_lt_trans; [exact L2 | apply bpow_mag_gt]. }
  unfold round, scaled_mantissa, cexp. rewrite mag_mult_bpow by auto. rewrite !fexp_val. rewrite !Z.max_l by lia.
  unfold F2R. cbn [Fnum Fexp]. rewrite !Rmult_assoc, <- !bpow_plus.
  replace (k + - (mag v + k - prec)) with (- (mag v - prec)) by lia. f_equal. f_equal. lia.
Qed.
Lemma rnd_scale0 : forall v k, (v = 0 \/ bpow radix2 (2 - emax) <= Rabs v)%R -> (v = 0 \/ bpow radix2 (2 - emax) <= Rabs (v * bpow radix2 k))%R ->
  rnd (v * bpow radix2 k) = (rnd v * bpow radix2 k)%R.
Proof.
  intros v k [->|A] [B|B]; try (rewrite Rmult_0_l, round_0 by apply valid_rnd_N; ring).
  - rewrite B, Rmult_0_l, round_0 by apply valid_rnd_N. ring.
  - apply rnd_scale; auto.
Qed.

(** sums: below the smallest normal number they are exact *)
Lemma rnd_scale_sum : forall a b k, format a -> format b -> format (a * bpow radix2 k) -> format (b * bpow radix2 k) ->
  rnd ((a + b) * bpow radix2 k) = (rnd (a + b) * bpow radix2 k)%R.
Proof.
  intros a b k Fa Fb Fa' Fb'.
  assert (SM : forall c d, format c -> format d -> (Rabs (c + d) <= bpow radix2 (prec + (3 - emax - prec)))%R -> format (c + d)).
  { intros c d Fc Fd L. apply (FLT_format_plus_small radix2 (3 - emax - prec) prec); auto. }
  replace (prec + (3 - emax - prec)) with (3 - emax) in SM by lia.
  assert (X : format (a + b) -> format ((a + b) * bpow radix2 k) -> rnd ((a + b) * bpow radix2 k) = (rnd (a + b) * bpow radix2 k)%R).
  { intros U V. rewrite !round_generic; auto; apply valid_rnd_N. }
  pose proof (bpow_le radix2 (2 - emax) (3 - emax) ltac:(lia)) as LB. specialize (SM) as SM'.
  assert (PM := bpow_gt_0 radix2 k).
  destruct (Rle_or_lt (Rabs (a + b)) (bpow radix2 (3 - emax))) as [L1|L1]; destruct (Rle_or_lt (Rabs ((a + b) * bpow radix2 k)) (bpow radix2 (3 - emax))) as [L2|L2].
  - apply X; [apply SM; auto|]. rewrite Rmult_plus_distr_r in *. apply SM; auto.
  - apply X; [apply SM; auto|]. apply scale_format; [apply SM; auto|]. left. apply Z.nlt_ge. intros K.
    rewrite Rabs_mult, (Rabs_pos_eq (bpow radix2 k)) in L2 by lra. pose proof (bpow_lt radix2 k 0 K) as K1. change (bpow radix2 0) with 1%R in K1.
    pose proof (Rabs_pos (a + b)). nra.
  - assert (K : k < 0).
    { apply Z.nle_gt. intros K. rewrite Rabs_mult, (Rabs_pos_eq (bpow radix2 k)) in L2 by lra. pose proof (bpow_le radix2 0 k K) as K1. change (bpow radix2 0) with 1%R in K1.
      pose proof (Rabs_pos (a + b)). nra. }
    assert (F2 : format ((a + b) * bpow radix2 k)) by (rewrite Rmult_plus_distr_r in *; apply SM; auto).
    apply X; auto. replace (a + b)%R with ((a + b) * bpow radix2 k * bpow radix2 (- k))%R.
    + apply scale_format; auto. left. lia.
    + rewrite Rmult_assoc, <- bpow_plus. replace (k + - k) with 0 by lia. change (bpow radix2 0) with 1%R. ring.
  - apply rnd_scale; lra.
Qed.

(** ** scaled floats *)
Notation scl := (@scaled prec emax).
Lemma scl_sum : forall k a a' b b' e, scl k a a' -> scl k b b' -> 3 - emax <= e -> e < emax ->
  (Rabs (B2R a + B2R b) <= bpow radix2 e -> Rabs (B2R a' + B2R b') <= bpow radix2 e ->
  scl k (Bplus mode_NE a b) (Bplus mode_NE a' b') /\ B2R (Bplus mode_NE a b) = rnd (B2R a + B2R b))%R.
Proof.
  intros k a a' b b' e (Fa & Fa' & Ea) (Fb & Fb' & Eb) L1 L2 B B'.
  destruct (plus_r (prec := prec) (emax := emax) a b Fa Fb e ltac:(lia) B) as [F V].
  destruct (plus_r (prec := prec) (emax := emax) a' b' Fa' Fb' e ltac:(lia) B') as [F' V'].
  split; auto. split; auto. split; auto. rewrite V, V', Ea, Eb, <- Rmult_plus_distr_r. apply rnd_scale_sum; try apply generic_format_B2R.
  - rewrite <- Ea. apply generic_format_B2R.
  - rewrite <- Eb. apply generic_format_B2R.
Qed.
Lemma scl_opp : forall k a a', scl k a a' -> scl k (Bopp a) (Bopp a').
Proof. intros k a a' (F & F' & E). repeat split; rewrite ?is_finite_Bopp, ?B2R_Bopp; auto. rewrite E. ring. Qed.
Lemma scl_abs : forall k a a', scl k a a' -> scl k (Babs a) (Babs a').
Proof. intros k a a' (F & F' & E). repeat split; rewrite ?is_finite_Babs, ?B2R_Babs; auto. rewrite E, Rabs_mult, (Rabs_pos_eq (bpow _ _)); auto. apply bpow_ge_0. Qed.
Lemma scl_minus : forall k a a' b b' e, scl k a a' -> scl k b b' -> 3 - emax <= e -> e < emax ->
  (Rabs (B2R a - B2R b) <= bpow radix2 e -> Rabs (B2R a' - B2R b') <= bpow radix2 e ->
  scl k (Bminus mode_NE a b) (Bminus mode_NE a' b'))%R.
Proof.
  intros k a a' b b' e (Fa & Fa' & Ea) (Fb & Fb' & Eb) L1 L2 B B'.
  destruct (minus_r (prec := prec) (emax := emax) a b Fa Fb e ltac:(lia) B) as [F V].
  destruct (minus_r (prec := prec) (emax := emax) a' b' Fa' Fb' e ltac:(lia) B') as [F' V'].
  split; auto. split; auto. rewrite V, V', Ea, Eb. replace (B2R a * bpow radix2 k - B2R b * bpow radix2 k)%R with ((B2R a + - B2R b) * bpow radix2 k)%R by ring.
  apply rnd_scale_sum; try apply generic_format_opp; try apply generic_format_B2R.
  - rewrite <- Ea. apply generic_format_B2R.
  - rewrite Ropp_mult_distr_l_reverse, <- Eb. apply generic_format_opp, generic_format_B2R.
Qed.
Definition norm (v : R) : Prop := (v = 0 \/ bpow radix2 (2 - emax) <= Rabs v <= bpow radix2 (emax - 1))%R.
Lemma norm_le : 3 <= emax -> forall v, norm v -> (Rabs v <= bpow radix2 (emax - 1))%R.
Proof. intros E v [->|H]; [rewrite Rabs_R0; apply bpow_ge_0 | lra]. Qed.
Lemma scl_mult : 3 <= emax -> forall j k a a' b b', scl j a a' -> scl k b b' -> norm (B2R a * B2R b) -> norm (B2R a' * B2R b') ->
  scl (j + k) (Bmult mode_NE a b) (Bmult mode_NE a' b') /\ B2R (Bmult mode_NE a b) = rnd (B2R a * B2R b).
Proof.
  intros E3 j k a a' b b' (Fa & Fa' & Ea) (Fb & Fb' & Eb) N N'.
  destruct (mult_r (prec := prec) (emax := emax) a b Fa Fb (emax - 1) ltac:(lia) (norm_le E3 _ N)) as [F V].
  destruct (mult_r (prec := prec) (emax := emax) a' b' Fa' Fb' (emax - 1) ltac:(lia) (norm_le E3 _ N')) as [F' V'].
  split; auto. split; auto. split; auto. assert (X : (B2R a' * B2R b' = B2R a * B2R b * bpow radix2 (j + k))%R) by (rewrite Ea, Eb, bpow_plus; ring).
  rewrite V, V', X in *. apply rnd_scale0; [destruct N as [->|[N _]]; auto|].
  destruct N' as [H|[H _]]; auto. left. apply Rmult_integral in H. destruct H as [H|H]; auto. pose proof (bpow_gt_0 radix2 (j + k)). lra.
Qed.
Lemma scl_div : 3 <= emax -> forall j k a a' b b', scl j a a' -> scl k b b' -> B2R b <> 0%R -> norm (B2R a / B2R b) -> norm (B2R a' / B2R b') ->
  scl (j - k) (Bdiv mode_NE a b) (Bdiv mode_NE a' b') /\ B2R (Bdiv mode_NE a b) = rnd (B2R a / B2R b).
Proof.
  intros E3 j k a a' b b' (Fa & Fa' & Ea) (Fb & Fb' & Eb) NZ N N'. pose proof (bpow_gt_0 radix2 k) as P.
  assert (NZ' : B2R b' <> 0%R) by (rewrite Eb; apply Rmult_integral_contrapositive; split; lra).
  destruct (div_r (prec := prec) (emax := emax) a b Fa NZ (emax - 1) ltac:(lia) (norm_le E3 _ N)) as [F V].
  destruct (div_r (prec := prec) (emax := emax) a' b' Fa' NZ' (emax - 1) ltac:(lia) (norm_le E3 _ N')) as [F' V'].
  split; auto. split; auto. split; auto.
  assert (X : (B2R a' / B2R b' = B2R a / B2R b * bpow radix2 (j - k))%R).
  { rewrite Ea, Eb. unfold Z.sub. rewrite bpow_plus, bpow_opp. field. split; lra. }
  rewrite V, V', X in *. apply rnd_scale0; [destruct N as [->|[N _]]; auto|].
  destruct N' as [H|[H _]]; auto. left. apply Rmult_integral in H. destruct H as [H|H]; auto. pose proof (bpow_gt_0 radix2 (j - k)). lra.
Qed.

(** ** ranges *)
Lemma within_mult : forall h a b, 2 * h <= emax - 2 -> within2 h a -> within2 h b -> norm (a * b).
Proof.
  intros h a b H [->|[A1 A2]]; [left; ring|]. intros [->|[B1 B2]]; [left; ring|]. right. rewrite Rabs_mult.
  pose proof (bpow_gt_0 radix2 (- h)) as P. split.
  - apply Rle_trans with (bpow radix2 (- h) * bpow radix2 (- h))%R; [rewrite <- bpow_plus; apply bpow_le; lia | apply Rmult_le_compat; lra].
  - apply Rle_trans with (bpow radix2 h * bpow radix2 h)%R; [apply Rmult_le_compat; try apply Rabs_pos; lra | rewrite <- bpow_plus; apply bpow_le; lia].
Qed.
Lemma within_mult_le : forall h a b, within2 h a -> within2 h b -> (Rabs (a * b) <= bpow radix2 (2 * h))%R.
Proof.
  intros h a b A B. rewrite Rabs_mult. replace (2 * h) with (h + h) by lia. rewrite bpow_plus.
  assert (X : forall v, within2 h v -> (Rabs v <= bpow radix2 h)%R) by (intros v [->|V]; [rewrite Rabs_R0; apply bpow_ge_0 | lra]).
  apply Rmult_le_compat; try apply Rabs_pos; auto.
Qed.
Lemma sum_le : forall h a b, (Rabs a <= bpow radix2 (2 * h) -> Rabs b <= bpow radix2 (2 * h) -> Rabs (a + b) <= bpow radix2 (2 * h + 1))%R.
Proof.
  intros h a b A B. rewrite bpow_plus. change (bpow radix2 1) with 2%R. pose proof (Rabs_triang a b). lra.
Qed.

Lemma mul_scaled : forall h, 0 <= h -> 2 * h <= emax - 3 -> forall j k (z z' w w' : Cartesian float), cscaled j z z' -> cscaled k w w' ->
  cwithin h z -> cwithin h z' -> cwithin h w -> cwithin h w' ->
  exists r r', cartesian_mul float_ops z w = Ok r /\ cartesian_mul float_ops z' w' = Ok r' /\ cscaled (j + k) r r'.
Proof.
  intros h H0 H j k [a b] [a' b'] [c d] [c' d'] [Sa Sb] [Sc Sd] [Wa Wb] [Wa' Wb'] [Wc Wd] [Wc' Wd']. cbn [re im] in *.
  eexists. eexists. split; [reflexivity|]. split; [reflexivity|].
  assert (X : forall u u' v v' j k, scl j u u' -> scl k v v' -> within2 h (B2R u) -> within2 h (B2R u') -> within2 h (B2R v) -> within2 h (B2R v') ->
    scl (j + k) (Bmult mode_NE u v) (Bmult mode_NE u' v') /\ (Rabs (B2R (Bmult mode_NE u v)) <= bpow radix2 (2 * h) /\ Rabs (B2R (Bmult mode_NE u' v')) <= bpow radix2 (2 * h))%R).
  { intros u u' v v' j0 k0 Su Sv W1 W2 W3 W4.
    destruct (scl_mult ltac:(lia) j0 k0 u u' v v' Su Sv (within_mult h _ _ ltac:(lia) W1 W3) (within_mult h _ _ ltac:(lia) W2 W4)) as [S V]. split; auto.
    destruct Su as (F1 & F2 & _), Sv as (F3 & F4 & _).
    destruct (mult_r (prec := prec) (emax := emax) u' v' F2 F4 (2 * h) ltac:(lia) (within_mult_le h _ _ W2 W4)) as [_ V'].
    rewrite V, V'. split; (apply rnd_le; [apply within_mult_le; auto | lia]). }
  destruct (X a a' c c' j k Sa Sc Wa Wa' Wc Wc') as (S1 & B1 & B1'). destruct (X b b' d d' j k Sb Sd Wb Wb' Wd Wd') as (S2 & B2 & B2').
  destruct (X a a' d d' j k Sa Sd Wa Wa' Wd Wd') as (S3 & B3 & B3'). destruct (X b b' c c' j k Sb Sc Wb Wb' Wc Wc') as (S4 & B4 & B4').
  split; cbn [re im].
  - eapply (scl_minus _ _ _ _ _ (2 * h + 1)); auto; try lia; unfold Rminus; apply sum_le; rewrite ?Rabs_Ropp; auto.
  - eapply (scl_sum _ _ _ _ _ (2 * h + 1)); auto; try lia; apply sum_le; auto.
Qed.

Lemma add_scaled : 5 <= emax -> forall k (z z' w w' : Cartesian float), cscaled k z z' -> cscaled k w w' ->
  (forall v, v = z \/ v = z' \/ v = w \/ v = w' -> Rabs (B2R (re v)) <= bpow radix2 (emax - 2) /\ Rabs (B2R (im v)) <= bpow radix2 (emax - 2))%R ->
  exists r r', cartesian_add float_ops z w = Ok r /\ cartesian_add float_ops z' w' = Ok r' /\ cscaled k r r'.
Proof.
  intros E5 k [a b] [a' b'] [c d] [c' d'] [Sa Sb] [Sc Sd] B. cbn [re im] in *.
  eexists. eexists. split; [reflexivity|]. split; [reflexivity|].
  destruct (B _ (or_introl eq_refl)) as [B1 B2]. destruct (B _ (or_intror (or_introl eq_refl))) as [B3 B4].
  destruct (B _ (or_intror (or_intror (or_introl eq_refl)))) as [B5 B6]. destruct (B _ (or_intror (or_intror (or_intror eq_refl)))) as [B7 B8]. cbn [re im] in *.
  assert (X : forall u v, (Rabs u <= bpow radix2 (emax - 2) -> Rabs v <= bpow radix2 (emax - 2) -> Rabs (u + v) <= bpow radix2 (emax - 1))%R).
  { intros u v U V. replace (emax - 1) with (emax - 2 + 1) by lia. rewrite bpow_plus. change (bpow radix2 1) with 2%R. pose proof (Rabs_triang u v). lra. }
  split; cbn [re im]; eapply (scl_sum _ _ _ _ _ (emax - 1)); auto; lia.
Qed.

Lemma mag_scaled : forall m fuel sq, (forall x : float, sq x = Bsqrt mode_NE x) -> forall h, 0 <= h -> 2 * h <= emax - 3 ->
  forall k (z z' : Cartesian float), cscaled k z z' -> cwithin h z -> cwithin h z' ->
  exists r r', float_mag m sq fuel z = Ok r /\ float_mag m sq fuel z' = Ok r' /\ scaled k r r'.
Proof.
  intros m fuel sq SQ h H0 H k [a b] [a' b'] [Sa Sb] [Wa Wb] [Wa' Wb']. rewrite !float_mag_eq. cbn [re im] in *.
  eexists. eexists. split; [reflexivity|]. split; [reflexivity|]. rewrite !SQ.
  assert (X : forall u u', scl k u u' -> within2 h (B2R u) -> within2 h (B2R u') ->
    scl (2 * k) (Bmult mode_NE u u) (Bmult mode_NE u' u') /\ (B2R u <> 0 -> bpow radix2 (- (2 * h)) <= B2R (Bmult mode_NE u u) /\ bpow radix2 (- (2 * h)) <= B2R (Bmult mode_NE u' u'))%R /\
    (B2R u = 0 -> B2R (Bmult mode_NE u u) = 0 /\ B2R (Bmult mode_NE u' u') = 0)%R /\
    (0 <= B2R (Bmult mode_NE u u) <= bpow radix2 (2 * h) /\ 0 <= B2R (Bmult mode_NE u' u') <= bpow radix2 (2 * h))%R).
  { intros u u' Su W1 W2. destruct (scl_mult ltac:(lia) k k u u' u u' Su Su (within_mult h _ _ ltac:(lia) W1 W1) (within_mult h _ _ ltac:(lia) W2 W2)) as [S V].
    replace (2 * k) with (k + k) by lia. split; auto. destruct Su as (F1 & F2 & E).
    destruct (mult_r (prec := prec) (emax := emax) u' u' F2 F2 (2 * h) ltac:(lia) (within_mult_le h _ _ W2 W2)) as [_ V']. rewrite V, V'.
    assert (L : forall v, within2 h v -> (v <> 0 -> bpow radix2 (- (2 * h)) <= rnd (v * v))%R /\ (0 <= rnd (v * v) <= bpow radix2 (2 * h))%R).
    { intros v W. split.
      - intros N. destruct W as [W|[W _]]; [contradiction|]. assert (G : format (bpow radix2 (- (2 * h)))) by (apply generic_format_bpow; rewrite fexp_val; pose proof Hp as HP; red in HP; lia).
        rewrite <- (round_generic radix2 fexp ZnearestE _ G). apply round_le; [exact Vexp | apply valid_rnd_N|].
        replace (- (2 * h)) with (- h + - h) by lia. rewrite bpow_plus. replace (v * v)%R with (Rabs v * Rabs v)%R by (rewrite <- Rabs_mult; apply Rabs_pos_eq; nra).
        pose proof (bpow_gt_0 radix2 (- h)). apply Rmult_le_compat; lra.
      - assert (0 <= rnd (v * v))%R. { rewrite <- (round_0 radix2 fexp ZnearestE). apply round_le; [exact Vexp | apply valid_rnd_N | nra]. }
        split; auto. rewrite <- (Rabs_pos_eq (rnd (v * v))) by auto. apply rnd_le; [apply within_mult_le; auto | lia]. }
    destruct (L _ W1) as [L1 L2]. destruct (L _ W2) as [L3 L4]. split; [|split; [|split; auto]].
    - intros N. split; auto. apply L3. rewrite E. pose proof (bpow_gt_0 radix2 k). apply Rmult_integral_contrapositive. split; lra.
    - intros Z. rewrite E, Z, !Rmult_0_l, round_0 by apply valid_rnd_N. auto. }
  destruct (X a a' Sa Wa Wa') as (S1 & A1 & A2 & A3 & A4). destruct (X b b' Sb Wb Wb') as (S2 & C1 & C2 & C3 & C4). clear X.
  set (p := Bmult mode_NE a a) in *. set (q := Bmult mode_NE b b) in *. set (p' := Bmult mode_NE a' a') in *. set (q' := Bmult mode_NE b' b') in *.
  destruct (scl_sum (2 * k) p p' q q' (2 * h + 1) S1 S2 ltac:(lia) ltac:(lia)) as [S V]; try (apply sum_le; rewrite Rabs_pos_eq; lra).
  assert (SG : forall u v : float, fin u -> fin v -> fin (Bplus mode_NE (Bmult mode_NE u u) (Bmult mode_NE v v)) -> Bsign (Bplus mode_NE (Bmult mode_NE u u) (Bmult mode_NE v v)) = false).
  { intros u v Fu Fv F. destruct (plus_fin _ _ F) as [F1 F2]. apply plus_sign; auto; apply sq_sign; auto. }
  destruct S as (Fs & Fs' & Es). destruct Sa as (Fa & Fa' & _), Sb as (Fb & Fb' & _).
  pose proof (SG a b Fa Fb Fs) as G. pose proof (SG a' b' Fa' Fb' Fs') as G'. fold p q in G. fold p' q' in G'.
  destruct (sqrt_nonneg _ Fs G) as (R1 & _ & R2). destruct (sqrt_nonneg _ Fs' G') as (R1' & _ & R2').
  split; auto. split; auto. rewrite R2, R2', Es.
  assert (SB : R_sqrt.sqrt (bpow radix2 (2 * k)) = bpow radix2 k).
  { apply sqrt_lem_1; try apply bpow_ge_0. rewrite <- bpow_plus. f_equal. lia. }
  rewrite sqrt_mult_alt, SB.
  2: { rewrite V, <- (round_0 radix2 fexp ZnearestE). apply round_le; [exact Vexp | apply valid_rnd_N | lra]. }
  assert (LOW : forall s, (bpow radix2 (- (2 * h)) <= s -> bpow radix2 (2 - emax) <= Rabs (R_sqrt.sqrt s))%R).
  { intros s L. rewrite Rabs_pos_eq by apply sqrt_pos. apply Rle_trans with (bpow radix2 (- h)); [apply bpow_le; lia|].
    replace (bpow radix2 (- h)) with (R_sqrt.sqrt (bpow radix2 (- (2 * h)))); [apply sqrt_le_1_alt; auto|].
    apply sqrt_lem_1; try apply bpow_ge_0. rewrite <- bpow_plus. f_equal. lia. }
  assert (Z : (B2R p + B2R q = 0 \/ (bpow radix2 (- (2 * h)) <= B2R p + B2R q /\ bpow radix2 (- (2 * h)) <= B2R p' + B2R q'))%R).
  { destruct (Req_dec (B2R a) 0) as [Za|Na]; [destruct (Req_dec (B2R b) 0) as [Zb|Nb]|].
    - left. rewrite (proj1 (A2 Za)), (proj1 (C2 Zb)). ring.
    - right. destruct (C1 Nb). lra.
    - right. destruct (A1 Na). lra. }
  destruct Z as [Z|[Z Z']].
  - rewrite V, Z, round_0, sqrt_0, !Rmult_0_l, round_0 by apply valid_rnd_N. ring.
  - destruct (scl_sum (2 * k) p p' q q' (2 * h + 1) S1 S2 ltac:(lia) ltac:(lia)) as [_ _]; try (apply sum_le; rewrite Rabs_pos_eq; lra).
    destruct (plus_r (prec := prec) (emax := emax) p' q') with (e := 2 * h + 1) as [_ V']; try apply S1; try apply S2; try lia; try (apply sum_le; rewrite Rabs_pos_eq; lra).
    assert (G2 : format (bpow radix2 (- (2 * h)))) by (apply generic_format_bpow; rewrite fexp_val; pose proof Hp as HP; red in HP; lia).
    assert (RL : forall s, (bpow radix2 (- (2 * h)) <= s -> bpow radix2 (- (2 * h)) <= rnd s)%R).
    { intros s L. rewrite <- (round_generic radix2 fexp ZnearestE _ G2). apply round_le; auto. apply valid_rnd_N. }
    apply rnd_scale.
    + apply LOW. rewrite V. apply RL. auto.
    + rewrite <- SB, <- sqrt_mult_alt.
      * rewrite <- Es, V'. apply LOW, RL. auto.
      * rewrite V. pose proof (RL _ Z). pose proof (bpow_gt_0 radix2 (- (2 * h))). lra.
Qed.
End Scale.

(** ** the two-argument arctangent *)
Section ScaleAtan.
Context {prec emax : Z} {Hp : Prec_gt_0 prec} {He : Prec_lt_emax prec emax}.
Notation float := (binary_float prec emax).
Notation fexp := (SpecFloat.fexp prec emax).
Notation rnd := (round radix2 fexp ZnearestE).
Notation B2R := (@B2R prec emax).
Notation fin x := (is_finite x = true).
Notation scl := (@scaled prec emax).
Notation norm := (@norm emax).
Notation cf := (float_of_float prec emax lit_atan).
Notation "a ++. b" := (Bplus mode_NE a b) (at level 50, left associativity).
Notation "a --. b" := (Bminus mode_NE a b) (at level 50, left associativity).
Notation "a **. b" := (Bmult mode_NE a b) (at level 40, left associativity).
Notation "a //. b" := (Bdiv mode_NE a b) (at level 40, left associativity).
Notation O := (@float_ops prec emax Hp He).
Notation ep := (bpow radix2 (- prec)).
Hypothesis (P24 : 24 <= prec <= 100) (E10 : prec + 20 <= emax <= 2000).
Variable h : Z.
Hypothesis (H0 : 0 <= h) (H : 2 * h <= emax - 5).

Lemma ep_le : (0 < ep <= / 16777216)%R.
Proof using P24. split; [apply bpow_gt_0|]. apply Rle_trans with (bpow radix2 (-24)); [apply bpow_le; lia | right; cbn; lra]. Qed.
Lemma rel : forall v, norm v -> (Rabs (rnd v - v) <= ep * Rabs v)%R.
Proof using Hp.
  intros v [->|[N _]]; [rewrite round_0 by apply valid_rnd_N; rewrite Rminus_0_r, Rabs_R0; lra | apply SqrtInv.rnd_norm; auto].
Qed.
Lemma quot_range : forall u v : float, fin u -> fin v -> within2 h (B2R u) -> within2 h (B2R v) -> B2R v <> 0%R -> (Rabs (B2R v) <= Rabs (B2R u))%R ->
  let s := u **. u in let t := v **. v in let ct := cf **. t in let p := u **. v in let d := s ++. ct in
  norm (B2R cf * B2R t) /\ (Rabs (B2R s + B2R ct) <= bpow radix2 (2 * h + 2))%R /\ B2R d <> 0%R /\ norm (B2R p / B2R d) /\ (bpow radix2 (2 - emax) <= Rabs (B2R p / B2R d) <= 1)%R.
Proof using Hp He P24 E10 H0 H.
  intros u v Fu Fv Wu Wv Nv L s t ct p d. destruct (cf_val (prec := prec) (emax := emax) ltac:(lia) ltac:(lia)) as [Fc Vc].
  pose proof ep_le as EP. assert (AV : (0 < Rabs (B2R v))%R) by (apply Rabs_pos_lt; auto).
  set (U := Rabs (B2R u)) in *. set (V := Rabs (B2R v)) in *.
  assert (RU : (bpow radix2 (- h) <= U <= bpow radix2 h)%R). { destruct Wu as [Z|W]; [unfold U in *; rewrite Z, Rabs_R0 in L; lra | exact W]. }
  assert (RV : (bpow radix2 (- h) <= V <= bpow radix2 h)%R). { destruct Wv as [Z|W]; [contradiction | exact W]. }
  assert (B1 : bpow radix2 (2 * h) = (bpow radix2 h * bpow radix2 h)%R) by (rewrite <- bpow_plus; f_equal; lia).
  assert (B2 : (bpow radix2 (- h) * bpow radix2 h = 1)%R) by (rewrite <- bpow_plus; replace (- h + h) with 0 by lia; reflexivity).
  pose proof (bpow_gt_0 radix2 (- h)) as P1. pose proof (bpow_gt_0 radix2 h) as P2.
  set (lo := bpow radix2 (- h)) in *. set (hi := bpow radix2 h) in *.
  destruct (mult_r (prec := prec) (emax := emax) u u Fu Fu (2 * h) ltac:(lia) (within_mult_le h _ _ Wu Wu)) as [Fs Vs].
  destruct (mult_r (prec := prec) (emax := emax) v v Fv Fv (2 * h) ltac:(lia) (within_mult_le h _ _ Wv Wv)) as [Ft Vt].
  destruct (mult_r (prec := prec) (emax := emax) u v Fu Fv (2 * h) ltac:(lia) (within_mult_le h _ _ Wu Wv)) as [Fp Vp].
  fold s in Fs, Vs. fold t in Ft, Vt. fold p in Fp, Vp.
  pose proof (rel _ (within_mult (emax := emax) h _ _ ltac:(lia) Wu Wu)) as Rs. rewrite <- Vs in Rs.
  pose proof (rel _ (within_mult (emax := emax) h _ _ ltac:(lia) Wv Wv)) as Rt. rewrite <- Vt in Rt.
  pose proof (rel _ (within_mult (emax := emax) h _ _ ltac:(lia) Wu Wv)) as Rp. rewrite <- Vp in Rp.
  rewrite !Rabs_mult in Rs, Rt, Rp. fold U V in Rs, Rt, Rp.
  assert (SU : (B2R u * B2R u = U * U)%R) by (unfold U; rewrite <- Rabs_mult; symmetry; apply Rabs_pos_eq; apply Rle_0_sqr).
  assert (SV : (B2R v * B2R v = V * V)%R) by (unfold V; rewrite <- Rabs_mult; symmetry; apply Rabs_pos_eq; apply Rle_0_sqr).
  rewrite SU in Rs. rewrite SV in Rt. apply Rabs_le_inv in Rs. apply Rabs_le_inv in Rt.
  assert (UU : (lo * lo <= U * U <= hi * hi)%R) by (split; apply Rmult_le_compat; lra).
  assert (VV : (lo * lo <= V * V <= U * U)%R) by (split; apply Rmult_le_compat; lra).
  assert (LL : (0 < lo * lo)%R) by (apply Rmult_lt_0_compat; lra).
  assert (Ts : (/ 2 * (U * U) <= B2R s <= 11 / 10 * (U * U))%R).
  { assert (0 <= ep * (U * U) <= / 16777216 * (U * U))%R by (split; [apply Rmult_le_pos; lra | apply Rmult_le_compat_r; lra]). lra. }
  assert (Tt : (9 / 10 * (V * V) <= B2R t <= 11 / 10 * (V * V))%R).
  { assert (0 <= ep * (V * V) <= / 16777216 * (V * V))%R by (split; [apply Rmult_le_pos; lra | apply Rmult_le_compat_r; lra]). lra. }
  assert (LB : (bpow radix2 (2 - emax) <= / 8 * (lo * lo))%R).
  { replace (/ 8)%R with (bpow radix2 (-3)) by (change (bpow radix2 (-3)) with (/ 8)%R; lra). unfold lo. rewrite <- !bpow_plus. apply bpow_le. lia. }
  assert (HB : (2 * (hi * hi) <= bpow radix2 (emax - 1))%R).
  { change 2%R with (bpow radix2 1). unfold hi. rewrite <- !bpow_plus. apply bpow_le. lia. }
  assert (Nct : norm (B2R cf * B2R t)). { right. rewrite Vc, Rabs_pos_eq by lra. lra. }
  split; auto.
  assert (Bct : (Rabs (B2R cf * B2R t) <= bpow radix2 (2 * h))%R). { rewrite Vc, Rabs_pos_eq by lra. rewrite B1. fold hi. lra. }
  destruct (mult_r (prec := prec) (emax := emax) cf t Fc Ft (2 * h) ltac:(lia) Bct) as [Fct Vct]. fold ct in Fct, Vct.
  pose proof (rel _ Nct) as Rct. rewrite <- Vct, Vc in Rct. rewrite (Rabs_pos_eq (9 / 32 * B2R t)) in Rct by lra. apply Rabs_le_inv in Rct.
  assert (Tct : (0 < B2R ct <= 4 / 10 * (U * U))%R).
  { assert (0 <= ep * (9 / 32 * B2R t) <= / 16777216 * (9 / 32 * B2R t))%R by (split; [apply Rmult_le_pos; lra | apply Rmult_le_compat_r; lra]). lra. }
  assert (Bd : (Rabs (B2R s + B2R ct) <= bpow radix2 (2 * h + 2))%R).
  { rewrite Rabs_pos_eq by lra. rewrite bpow_plus, B1. change (bpow radix2 2) with 4%R. fold hi. lra. }
  split; auto.
  destruct (plus_r (prec := prec) (emax := emax) s ct Fs Fct (2 * h + 2) ltac:(lia) Bd) as [Fd Vd]. fold d in Fd, Vd.
  assert (Vexp : Valid_exp fexp) by (apply fexp_correct; auto).
  assert (DS : (B2R s <= B2R d)%R). { rewrite Vd. rewrite <- (round_generic radix2 fexp ZnearestE (B2R s)) at 1 by apply generic_format_B2R. apply round_le; [auto | apply valid_rnd_N | lra]. }
  assert (DU : (B2R d <= 16 / 10 * (U * U))%R).
  { assert (N : norm (B2R s + B2R ct)) by (right; rewrite Rabs_pos_eq by lra; lra). pose proof (rel _ N) as R. rewrite <- Vd in R.
    rewrite (Rabs_pos_eq (B2R s + B2R ct)) in R by lra. apply Rabs_le_inv in R.
    assert (0 <= ep * (B2R s + B2R ct) <= / 16777216 * (B2R s + B2R ct))%R by (split; [apply Rmult_le_pos; lra | apply Rmult_le_compat_r; lra]). lra. }
  assert (PD : (0 < B2R d)%R) by lra. split; [lra|].
  assert (PU : (Rabs (B2R p) <= B2R s)%R).
  { assert (A : Rabs (B2R p) = rnd (U * V)). { rewrite Vp. unfold U, V. rewrite <- Rabs_mult. symmetry. apply round_NE_abs. auto. }
    rewrite A, Vs, SU. apply round_le; [auto | apply valid_rnd_N | nra]. }
  assert (PL : (/ 2 * (U * V) <= Rabs (B2R p))%R).
  { assert (T := Rabs_triang_inv (B2R u * B2R v) (B2R u * B2R v - B2R p)). rewrite Rabs_mult in T. fold U V in T.
    rewrite (Rabs_minus_sym (B2R u * B2R v)) in T. replace (B2R u * B2R v - (B2R u * B2R v - B2R p))%R with (B2R p) in T by ring.
    assert (0 < U * V)%R by (apply Rmult_lt_0_compat; lra).
    assert (0 <= ep * (U * V) <= / 16777216 * (U * V))%R by (split; [apply Rmult_le_pos; lra | apply Rmult_le_compat_r; lra]). lra. }
  assert (Q : (bpow radix2 (2 - emax) <= Rabs (B2R p / B2R d) <= 1)%R).
  { unfold Rdiv. rewrite Rabs_mult, Rabs_inv, (Rabs_pos_eq (B2R d)) by lra. split.
    - apply Rle_trans with (/ 8 * (lo * lo))%R; auto. apply Rmult_le_reg_r with (B2R d); auto. rewrite (Rmult_assoc (Rabs (B2R p))), Rinv_l by lra. rewrite (Rmult_1_r (Rabs (B2R p))).
      apply Rle_trans with (2 := PL). apply Rle_trans with (/ 8 * (lo * lo) * (16 / 10 * (U * U)))%R; [apply Rmult_le_compat_l; lra|].
      assert (lo * U <= 1)%R by (rewrite <- B2; apply Rmult_le_compat_l; lra).
      replace (/ 8 * (lo * lo) * (16 / 10 * (U * U)))%R with (2 / 10 * ((lo * U) * (lo * U)))%R by field.
      assert (lo * U * (lo * U) <= 1 * (lo * U))%R by (apply Rmult_le_compat_r; [apply Rmult_le_pos; lra | lra]).
      assert (lo * U <= V * U)%R by (apply Rmult_le_compat_r; lra). assert (0 < lo * U)%R by (apply Rmult_lt_0_compat; lra). lra.
    - apply Rmult_le_reg_r with (B2R d); auto. rewrite Rmult_assoc, Rinv_l by lra. lra. }
  split; auto. right. split; [lra|]. apply Rle_trans with 1%R; [lra|]. change 1%R with (bpow radix2 0). apply bpow_le. lia.
Qed.

Lemma fp_scaled : forall k (u u' v v' : float), scl k u u' -> scl k v v' -> within2 h (B2R u) -> within2 h (B2R v) -> within2 h (B2R u') -> within2 h (B2R v') ->
  B2R v <> 0%R -> (Rabs (B2R v) <= Rabs (B2R u))%R ->
  (u' **. v') //. (u' **. u' ++. cf **. (v' **. v')) = (u **. v) //. (u **. u ++. cf **. (v **. v)).
Proof using Hp He P24 E10 H0 H.
  intros k u u' v v' Su Sv Wu Wv Wu' Wv' Nv L. pose proof (bpow_gt_0 radix2 k) as PK.
  pose proof Su as (Fu & Fu' & Eu). pose proof Sv as (Fv & Fv' & Ev).
  assert (Nv' : B2R v' <> 0%R) by (rewrite Ev; apply Rmult_integral_contrapositive; split; lra).
  assert (L' : (Rabs (B2R v') <= Rabs (B2R u'))%R) by (rewrite Eu, Ev, !Rabs_mult; apply Rmult_le_compat_r; [apply Rabs_pos | auto]).
  destruct (quot_range u v Fu Fv Wu Wv Nv L) as (N1 & B1 & D1 & Q1 & R1). destruct (quot_range u' v' Fu' Fv' Wu' Wv' Nv' L') as (N2 & B2 & D2 & Q2 & R2).
  destruct (cf_val (prec := prec) (emax := emax) ltac:(lia) ltac:(lia)) as [Fc Vc].
  assert (Sc : scl 0 cf cf) by (split; auto; split; auto; change (bpow radix2 0) with 1%R; ring).
  destruct (scl_mult (prec := prec) (emax := emax) ltac:(lia) k k u u' u u' Su Su (within_mult (emax := emax) h _ _ ltac:(lia) Wu Wu) (within_mult (emax := emax) h _ _ ltac:(lia) Wu' Wu')) as [Ss _].
  destruct (scl_mult (prec := prec) (emax := emax) ltac:(lia) k k v v' v v' Sv Sv (within_mult (emax := emax) h _ _ ltac:(lia) Wv Wv) (within_mult (emax := emax) h _ _ ltac:(lia) Wv' Wv')) as [St _].
  destruct (scl_mult (prec := prec) (emax := emax) ltac:(lia) k k u u' v v' Su Sv (within_mult (emax := emax) h _ _ ltac:(lia) Wu Wv) (within_mult (emax := emax) h _ _ ltac:(lia) Wu' Wv')) as [Sp _].
  destruct (scl_mult (prec := prec) (emax := emax) ltac:(lia) 0 (k + k) cf cf _ _ Sc St N1 N2) as [Sct _]. rewrite Z.add_0_l in Sct.
  destruct (scl_sum (prec := prec) (emax := emax) (k + k) _ _ _ _ (2 * h + 2) Ss Sct ltac:(lia) ltac:(lia) B1 B2) as [Sd _].
  destruct (scl_div (prec := prec) (emax := emax) ltac:(lia) (k + k) (k + k) _ _ _ _ Sp Sd D1 Q1 Q2) as [Sq Vq].
  rewrite Z.sub_diag in Sq. destruct Sq as (Fq & Fq' & Eq). change (bpow radix2 0) with 1%R in Eq. rewrite Rmult_1_r in Eq.
  assert (NZ : B2R ((u **. v) //. (u **. u ++. cf **. (v **. v))) <> 0%R).
  { rewrite Vq. intros Z. pose proof (rel _ Q1) as R. rewrite Z in R. pose proof ep_le. rewrite Rabs_minus_sym, Rminus_0_r in R. pose proof (bpow_gt_0 radix2 (2 - emax)). nra. }
  destruct (sign_cases _ Fq NZ) as [[S1 P1]|[S1 P1]]; (assert (NZ' := NZ); rewrite <- Eq in NZ', P1; destruct (sign_cases _ Fq' NZ') as [[S2 P2]|[S2 P2]]; try lra);
    apply B2R_Bsign_inj; auto; congruence.
Qed.

Lemma atan2_scaled : forall k (y y' x x' : float), scl k y y' -> scl k x x' ->
  within2 h (B2R y) -> within2 h (B2R y') -> within2 h (B2R x) -> within2 h (B2R x') -> (B2R y <> 0 \/ B2R x <> 0)%R ->
  float_atan2_poly y' x' = float_atan2_poly y x.
Proof using Hp He P24 E10 H0 H.
  intros k y y' x x' Sy Sx Wy Wy' Wx Wx' NZ. rewrite !atan2_float_eq. f_equal. pose proof (bpow_gt_0 radix2 k) as PK.
  pose proof Sy as (Fy & Fy' & Ey). pose proof Sx as (Fx & Fx' & Ex).
  assert (ZI : forall v, (v * bpow radix2 k = 0 <-> v = 0)%R).
  { intros v. split; [|intros ->; ring]. intros Z. apply Rmult_integral in Z. destruct Z; lra. }
  assert (SG : forall a a' : float, scl k a a' -> B2R a <> 0%R -> Bsign a' = Bsign a).
  { intros a a' (Fa & Fa' & Ea) Na. assert (Na' : B2R a' <> 0%R) by (rewrite Ea, ZI; auto).
    destruct (sign_cases a Fa Na) as [[S1 P1]|[S1 P1]], (sign_cases a' Fa' Na') as [[S2 P2]|[S2 P2]]; try congruence; rewrite Ea in P2; exfalso; nra. }
  assert (LE : forall v, within2 h v -> (Rabs v <= bpow radix2 (emax - 2))%R).
  { intros v [->|W]; [rewrite Rabs_R0; apply bpow_ge_0|]. apply Rle_trans with (1 := proj2 W). apply bpow_le. lia. }
  unfold fatan2. destruct (eq_zero y Fy) as [[-> Zy]|[-> Ny]].
  - destruct (eq_zero y' Fy') as [[-> _]|[_ Ny']]; [|exfalso; apply Ny'; rewrite Ey, Zy; ring].
    rewrite (SG x x'); auto. destruct NZ; [contradiction | auto].
  - destruct (eq_zero y' Fy') as [[_ Zy']|[-> Ny']]; [exfalso; apply Ny, ZI; rewrite <- Ey; auto|].
    pose proof (SG y y' Sy Ny) as Gy. rewrite Gy.
    destruct (eq_zero x Fx) as [[-> Zx]|[-> Nx]].
    + destruct (eq_zero x' Fx') as [[-> _]|[_ Nx']]; [|exfalso; apply Nx'; rewrite Ex, Zx; ring]. reflexivity.
    + destruct (eq_zero x' Fx') as [[_ Zx']|[-> Nx']]; [exfalso; apply Nx, ZI; rewrite <- Ex; auto|].
      pose proof (SG x x' Sx Nx) as Gx. rewrite Gx.
      destruct (diff_sign (prec := prec) (emax := emax) ltac:(lia) ltac:(lia) y x Fy Fx (LE _ Wy) (LE _ Wx)) as [[L1 C1]|(L1 & C1 & C2)];
      destruct (diff_sign (prec := prec) (emax := emax) ltac:(lia) ltac:(lia) y' x' Fy' Fx' (LE _ Wy') (LE _ Wx')) as [[L1' C1']|(L1' & C1' & C2')];
        rewrite Ey, Ex, !Rabs_mult, (Rabs_pos_eq (bpow radix2 k)) in L1' by lra; try (exfalso; nra).
      * rewrite C1, C1'. assert (Q : fp1 y' x' = fp1 y x) by (unfold fp1; apply (fp_scaled k); auto; lra). rewrite Q. reflexivity.
      * rewrite C1, C1', C2, C2', !andb_false_r. assert (Q : fp2 y' x' = fp2 y x).
        { unfold fp2. rewrite (Bmult_comm x' y'), (Bmult_comm x y). apply (fp_scaled k); auto; lra. }
        rewrite Q. reflexivity.
Qed.
End ScaleAtan.
