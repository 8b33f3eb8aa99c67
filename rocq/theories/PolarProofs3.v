(** * Angles, the complex exponential, scalar division, and identities. *)

From Coq Require Import ZArith Nnat Reals Lia Lra Psatz List Bool.
From Flocq Require Import Core.Core IEEE754.BinarySingleNaN.
From Verif Require Import Base FloatBase Literals Traits Trig IntImpl FixedPrim FixedImpl FloatImpl Complex Spec SpecAngle SpecPolar
  Lemmas ScalarProofs FloatLemmas ScalarProofs2 WrapProofs WrapProofs2 SinReal SinFixed TrigProofs AtanReal MagProofs ComplexProofs ComplexProofs2 ComplexProofs3
  FloatKit DisplayProofs PolarProofs PolarProofs2.
Open Scope Z_scope.

(** ** ideal routines: the exact value rounded down to the format *)
Lemma fround_err : forall f v, (Rabs (fval f (fround f v) - v) <= ulp f)%R.
Proof.
  intros f v. assert (U : (0 < ulp f)%R) by (unfold ulp; apply bpow_gt_0).
  unfold fround. change (fval f (Zfloor (v / ulp f))) with (IZR (Zfloor (v / ulp f)) * ulp f)%R.
  pose proof (Zfloor_lb (v / ulp f)) as L. pose proof (Zfloor_ub (v / ulp f)) as B.
  set (k := IZR (Zfloor (v / ulp f))) in *. assert (E : (v = v / ulp f * ulp f)%R) by (field; lra).
  pose proof (Rmult_le_compat_r (ulp f) _ _ ltac:(lra) L). pose proof (Rmult_lt_compat_r (ulp f) _ _ U B). apply Rabs_le. lra.
Qed.

Lemma ideal_sincos_ok : forall f b, accurate_sincos f b (ulp f) (ideal_sin f).
Proof. intros f b a _ _. do 2 eexists. split; [reflexivity|]. split; apply fround_err. Qed.

Lemma ideal_atan2_ok : forall f, supported f = true -> fsigned f = true -> accurate_atan2 f (ulp f) (ideal_atan f AtanReal.angle).
Proof.
  intros f Hf S y x _ _ th H. rewrite (angle_is _ _ _ H). eexists. split; [reflexivity|]. split; [|apply fround_err].
  rewrite <- (angle_is _ _ _ H). destruct H as [[L B] _]. pose proof (supported_fwf f Hf) as W.
  assert (U : (0 < ulp f)%R) by (unfold ulp; apply bpow_gt_0).
  destruct pi_bounds as [P1 P2].
  pose proof (fone_le_max f W) as M. pose proof (fone_pos f (proj1 W)) as Q. pose proof (fone_IZR_pos f (proj1 W)) as Qr.
  assert (E : (th / ulp f = th * IZR (fone f))%R) by (rewrite ulp_eq by apply W; field; lra).
  apply fvalid_iff. rewrite S. unfold fround. rewrite E. 
  assert (L2 : (-4 * IZR (fone f) <= th * IZR (fone f))%R) by (apply Rmult_le_compat_r; lra).
  assert (B2 : (th * IZR (fone f) < 4 * IZR (fone f))%R) by (apply Rmult_lt_compat_r; lra).
  rewrite <- mult_IZR in L2, B2. split; [apply Z.le_trans with (-4 * fone f); [lia|apply Zfloor_lub; auto]|].
  apply Z.lt_le_pred. apply Z.lt_le_trans with (4 * fone f); [|lia]. apply lt_IZR. eapply Rle_lt_trans; [apply Zfloor_lb|exact B2].
Qed.

(** ** the angle *)
Lemma arg_acc : forall f A e z th, accurate_atan2_at f e A (im z) (re z) -> cvalid (fity f) z ->
  is_angle (fval f (im z)) (fval f (re z)) th ->
  exists a, cartesian_arg A z = Ok a /\ cartesian_ang A z = Ok a /\ (Rabs (fval f a - th) <= e)%R /\
  (let rho := sqrt (fval f (re z) * fval f (re z) + fval f (im z) * fval f (im z)) in
   Rabs (rho * Rtrigo_def.cos (fval f a) - fval f (re z)) <= rho * e /\
   Rabs (rho * Rtrigo_def.sin (fval f a) - fval f (im z)) <= rho * e)%R /\
  (forall m fuel p, cartesian_to_polar (fixed_ops m f) (fixed_sqrt m f fuel) (fixed_powi m f) A z = Ok p ->
     polar_arg p = a /\ polar_ang p = a /\
     cartesian_mag (fixed_ops m f) (fixed_sqrt m f fuel) (fixed_powi m f) z = Ok (polar_mag p) /\ polar_abs p = polar_mag p /\
     polar_new_from_cartesian (fixed_ops m f) (fixed_sqrt m f fuel) (fixed_powi m f) A (re z) (im z) = Ok p).
Proof.
  intros f A e z th HA [Vr Vi] H. destruct (HA _ H) as [a [E [Va Ha]]]. exists a.
  split; [exact E|]. split; [exact E|]. split; [exact Ha|]. destruct (angle_radius _ _ _ H) as [Xr Yr]. split.
  - cbv zeta. set (rho := sqrt _) in *. pose proof (sqrt_pos (fval f (re z) * fval f (re z) + fval f (im z) * fval f (im z))) as R0. fold rho in R0.
    split; [rewrite Xr at 1|rewrite Yr at 1]; rewrite <- Rmult_minus_distr_l, Rabs_mult, (Rabs_pos_eq rho) by auto; apply Rmult_le_compat_l; auto.
    + eapply Rle_trans; [apply cos_lipschitz|exact Ha].
    + eapply Rle_trans; [apply sin_lipschitz|exact Ha].
  - intros m fuel p Hp. assert (P : polar_new_from_cartesian (fixed_ops m f) (fixed_sqrt m f fuel) (fixed_powi m f) A (re z) (im z) = Ok p) by (destruct z; exact Hp).
    unfold cartesian_to_polar, ops_to_polar, ops_abs in Hp. unfold cartesian_mag. cbn [o_add fixed_ops] in *.
    destruct (mixed_powi (fixed_powi m f) (re z) 2); try discriminate. cbn [bind] in *.
    destruct (mixed_powi (fixed_powi m f) (im z) 2); try discriminate. cbn [bind] in *.
    destruct (fx_add m f _ _); try discriminate. cbn [bind] in *.
    destruct (mixed_sqrt (fixed_sqrt m f fuel) _) as [g| |]; try discriminate. cbn [bind] in *. rewrite E in Hp. cbn [bind] in *. injection Hp as <-.
    repeat split. exact P.
Qed.

(** conjugating into polar form: same magnitude, opposite angle *)
Lemma conj_polar_acc : forall m f A e, supported f = true -> fsigned f = true ->
  forall z th fuel, accurate_atan2_at f e A (im z) (re z) -> accurate_atan2_at f e A (- im z) (re z) -> cvalid (fity f) z -> im z <> fmin f -> is_angle (fval f (im z)) (fval f (re z)) th -> (th <> PI)%R ->
  forall p q, cartesian_to_polar (fixed_ops m f) (fixed_sqrt m f fuel) (fixed_powi m f) A z = Ok p ->
  cartesian_conj_polar (fixed_ops m f) (fixed_signed m f) (fixed_sqrt m f fuel) (fixed_powi m f) A z = Ok q ->
  polar_mag q = polar_mag p /\ (Rabs (fval f (polar_ang q) - - th) <= e /\ Rabs (fval f (polar_ang q) + fval f (polar_ang p)) <= 2 * e)%R.
Proof.
  intros m f A e Hf S z th fuel HA HC V N H NP p q Hp Hq. pose proof (supported_fwf f Hf) as W.
  destruct (conj_word_all m (fity f) ltac:(apply supported_inv in Hf; cbn; lia) S z V) as [C _]. specialize (C N).
  change (int_signed m (fity f)) with (fixed_signed m f) in C.
  assert (Q : cartesian_to_polar (fixed_ops m f) (fixed_sqrt m f fuel) (fixed_powi m f) A (mkC (re z) (- im z)) = Ok q).
  { unfold cartesian_conj in C. unfold cartesian_conj_polar in Hq. destruct (o_neg (fixed_signed m f) (im z)) as [u| |]; try discriminate. cbn [bind] in *. injection C as ->. exact Hq. }
  assert (V2 : cvalid (fity f) (mkC (re z) (- im z))).
  { destruct V as [Vr Vi]. split; cbn [re im]; auto. change (fvalid f (im z)) in Vi. change (fvalid f (- im z)). apply fvalid_iff in Vi. apply fvalid_iff. rewrite S in *. rewrite fmin_signed in N by auto. lia. }
  assert (H2 : is_angle (fval f (im (mkC (re z) (- im z)))) (fval f (re (mkC (re z) (- im z)))) (- th)).
  { cbn [re im]. rewrite fval_opp. destruct H as [[L B] [rho [P [X Y]]]]. split; [lra|]. exists rho. rewrite cos_neg, sin_neg. split; auto. split; auto. lra. }
  destruct (arg_acc f A e z th HA V H) as [a [_ [_ [Ha [_ Pa]]]]]. destruct (Pa _ _ _ Hp) as [A1 [A2 [A3 _]]].
  destruct (arg_acc f A e (mkC (re z) (- im z)) _ HC V2 H2) as [b [_ [_ [Hb [_ Pb]]]]]. destruct (Pb _ _ _ Q) as [B1 [B2 [B3 _]]].
  destruct (fixed_mag_sym m f fuel z Hf S V) as [Sy _]. specialize (Sy _ C). cbv zeta in Sy. unfold fixed_mag in *.
  rewrite A3, B3 in Sy. injection Sy as Sy. rewrite A2, B2. split; [exact Sy|]. split; [exact Hb|].
  replace (fval f b + fval f a)%R with ((fval f b - - th) + (fval f a - th))%R by ring. eapply Rle_trans; [apply Rabs_triang|]. lra.
Qed.

(** ** the complex exponential *)
Lemma exp_acc : forall m f, supported f = true -> fsigned f = true -> forall Sn E d b z g dg,
  accurate_sincos f b d Sn -> fvalid f (im z) -> (Rabs (fval f (im z)) <= b)%R ->
  mixed_exp E (re z) = Ok g -> (Rabs (fval f g - exp (fval f (re z))) <= dg)%R ->
  ((1 + d) * (exp (fval f (re z)) + dg) <= fval f (fmax f))%R ->
  exists r, cartesian_exp (fixed_ops m f) Sn E z = Ok r /\
  let B := (exp (fval f (re z)) * d + (1 + d) * dg + ulp f)%R in
  (Rabs (fval f (re r) - exp (fval f (re z)) * Rtrigo_def.cos (fval f (im z))) <= B /\
   Rabs (fval f (im r) - exp (fval f (re z)) * Rtrigo_def.sin (fval f (im z))) <= B)%R.
Proof.
  intros m f Hf S Sn E d b z g dg AS V Vb Eg Hg Bd. pose proof (supported_fwf f Hf) as W.
  destruct (AS _ V Vb) as [s [c [Es [Hs Hc]]]]. pose proof (exp_pos (fval f (re z))) as Xp. set (ex := exp (fval f (re z))) in *.
  assert (D0 : (0 <= d)%R) by (eapply Rle_trans; [apply Rabs_pos|exact Hs]).
  assert (G0 : (0 <= dg)%R) by (eapply Rle_trans; [apply Rabs_pos|exact Hg]).
  assert (Gb : (Rabs (fval f g) <= ex + dg)%R).
  { replace (fval f g) with ((fval f g - ex) + ex)%R by ring. eapply Rle_trans; [apply Rabs_triang|]. rewrite (Rabs_pos_eq ex) by lra. lra. }
  assert (K : forall t T, (Rabs T <= 1)%R -> (Rabs (fval f t - T) <= d)%R -> exists r, fx_mul m f t g = Ok r /\
     (Rabs (fval f r - ex * T) <= ex * d + (1 + d) * dg + ulp f)%R).
  { intros t T HT Ht. assert (Tb : (Rabs (fval f t) <= 1 + d)%R).
    { replace (fval f t) with ((fval f t - T) + T)%R by ring. eapply Rle_trans; [apply Rabs_triang|]. lra. }
    pose proof (Rabs_pos (fval f t)) as T0. pose proof (Rabs_pos (fval f g)) as G1.
    assert (Pb : (Rabs (fval f t * fval f g) <= fval f (fmax f))%R).
    { rewrite Rabs_mult. eapply Rle_trans; [apply Rmult_le_compat; [exact T0|exact G1|exact Tb|exact Gb]|exact Bd]. }
    destruct (fmul_ok m f t g W S Pb) as [Em Er]. eexists. split; [exact Em|].
    assert (U : (Rabs (fval f (t * g / fone f) - fval f t * fval f g) <= ulp f)%R) by (apply Rlt_le; exact Er).
    replace (fval f (t * g / fone f) - ex * T)%R with ((fval f (t * g / fone f) - fval f t * fval f g) + (ex * (fval f t - T) + fval f t * (fval f g - ex)))%R by ring.
    eapply Rle_trans; [apply Rabs_triang|]. eapply Rle_trans; [apply Rplus_le_compat_l, Rabs_triang|].
    rewrite !Rabs_mult, (Rabs_pos_eq ex) by lra.
    pose proof (Rmult_le_compat_l ex _ _ ltac:(lra) Ht). pose proof (Rmult_le_compat _ _ _ _ T0 (Rabs_pos (fval f g - ex)) Tb Hg). lra. }
  destruct (K c _ (abs_cos _) Hc) as [r1 [E1 B1]]. destruct (K s _ (abs_sin _) Hs) as [r2 [E2 B2]].
  exists (mkC r1 r2). split; [|split; [exact B1|exact B2]].
  unfold cartesian_exp. rewrite Es. cbn [bind fst snd]. rewrite Eg. cbn [bind o_mul fixed_ops]. rewrite E1. cbn [bind]. rewrite E2. reflexivity.
Qed.

(** ** division by a scalar *)
Lemma quot_range : forall t a s, 1 <= iwidth t -> in_range t a -> s <> 0 -> (isigned t = false -> 0 < s) ->
  ~ (s = -1 /\ isigned t = true /\ a = imin t) -> in_range t (Z.quot a s).
Proof.
  intros t a s Hw V N U X. pose proof (half_le_full (iwidth t) Hw) as HF. assert (H0 : 0 < 2 ^ (iwidth t - 1)) by (apply Z.pow_pos_nonneg; lia).
  pose proof (Z.quot_abs a s N) as QA. rewrite Z.quot_div_nonneg in QA by lia.
  assert (LE : Z.abs (Z.quot a s) <= Z.abs a) by (rewrite <- QA; apply Z.div_le_upper_bound; nia).
  assert (L2 : Z.abs s <> 1 -> a <> 0 -> Z.abs (Z.quot a s) < Z.abs a) by (intros; rewrite <- QA; apply Z.div_lt; lia).
  unfold in_range, imin, imax in *. destruct (isigned t) eqn:S.
  - destruct (Z.eq_dec a 0) as [->|A0]; [rewrite Z.quot_0_l by auto; lia|].
    destruct (Z.eq_dec s 1) as [->|S1]; [rewrite Z.quot_1_r; lia|].
    destruct (Z.eq_dec s (-1)) as [->|S2]; [|specialize (L2 ltac:(lia) A0); lia].
    replace (-1) with (- (1)) by reflexivity. rewrite Z.quot_opp_r, Z.quot_1_r by lia.
    assert (a <> - 2 ^ (iwidth t - 1)) by (intros ->; apply X; auto). lia.
  - specialize (U eq_refl). pose proof (Z.quot_pos a s ltac:(lia) U). lia.
Qed.

Lemma quot_min : forall t, 1 <= iwidth t -> isigned t = true -> ~ in_range t (Z.quot (imin t) (-1)).
Proof.
  intros t Hw S. assert (H0 : 0 < 2 ^ (iwidth t - 1)) by (apply Z.pow_pos_nonneg; lia).
  replace (-1) with (- (1)) by reflexivity. rewrite Z.quot_opp_r, Z.quot_1_r by lia. unfold in_range, imin, imax. rewrite S. lia.
Qed.

Lemma div_assign_eq : forall T1 T2 (O1 : MixedOps T1) (O : MixedOps T2) C Z1 R z s zero, mixed_zero Z1 = Ok zero -> o_eq O1 s zero = false ->
  cartesian_div_assign_scalar O1 O C Z1 R z s = cartesian_div_scalar O1 O C Z1 R z s.
Proof.
  intros T1 T2 O1 O C Z1 R z s zero Ez Eq. unfold cartesian_div_assign_scalar, cartesian_div_scalar. rewrite Ez. cbn [bind]. rewrite Eq. reflexivity.
Qed.

Lemma int_neq0 : forall m t s, s <> 0 -> o_eq (int_ops m t) s 0 = false.
Proof. intros m t s N. unfold o_eq. cbn. destruct (Z.compare_spec s 0); auto. lia. Qed.

Lemma div_scalar_int : forall m t t1, In t int_types -> In t1 int_types -> forall z s, cvalid t z -> in_range t1 s -> in_range t s -> s <> 0 ->
  let d := cartesian_div_scalar (int_ops m t1) (int_ops m t) (int_conv_int t t1) (int_zero t1) (int_real m t) z s in
  (s = -1 /\ isigned t = true /\ (re z = imin t \/ im z = imin t) -> d = Panic POverflow) /\
  (~ (s = -1 /\ isigned t = true /\ (re z = imin t \/ im z = imin t)) -> d = Ok (mkC (Z.quot (re z) s) (Z.quot (im z) s))) /\
  cartesian_div_assign_scalar (int_ops m t1) (int_ops m t) (int_conv_int t t1) (int_zero t1) (int_real m t) z s = d.
Proof.
  intros m t t1 Ht Ht1 z s [Vr Vi] V1 V N d.
  pose proof (int_types_width t Ht) as W. pose proof (int_types_width t1 Ht1) as W1.
  assert (W' : 1 <= iwidth t) by lia.
  assert (E0 : mixed_zero (int_zero t1) = Ok 0) by (apply int_zero_eq; auto).
  assert (D : d = (r <- int_div t (re z) s ;; i <- int_div t (im z) s ;; Ok (mkC r i))).
  { unfold d, cartesian_div_scalar. rewrite E0. cbn [bind]. rewrite int_neq0 by auto. cbn [mixed_from_num int_conv_int bind o_div int_ops].
    rewrite wrap_id by auto. reflexivity. }
  assert (SU : isigned t = false -> 0 < s) by (intros U; unfold in_range, imin in V; rewrite U in V; lia).
  assert (DV : forall a, int_div t a s = if in_rangeb t (Z.quot a s) then Ok (Z.quot a s) else Panic POverflow).
  { intros a. unfold int_div. destruct (Z.eqb_spec s 0); [lia|reflexivity]. }
  split; [|split].
  - intros (-> & S & Q). rewrite D, !DV.
    assert (X : forall a, a = imin t -> in_rangeb t (Z.quot a (-1)) = false) by (intros a ->; apply in_rangeb_false; apply quot_min; auto).
    destruct Q as [Q|Q]; rewrite (X _ Q); cbn [bind]; [reflexivity|]. destruct (in_rangeb t (Z.quot (re z) (-1))); reflexivity.
  - intros Q. rewrite D, !DV. assert (X : forall a, in_range t a -> ~ (s = -1 /\ isigned t = true /\ a = imin t) -> in_rangeb t (Z.quot a s) = true) by (intros; apply in_rangeb_spec; apply quot_range; auto).
    rewrite !X by (auto; intros (A & B & C); apply Q; auto). reflexivity.
  - apply (div_assign_eq _ _ _ _ _ _ _ _ _ 0); auto. apply int_neq0; auto.
Qed.

Lemma div_scalar_fixed : forall m f t1, supported f = true -> In t1 int_types -> forall z s, cvalid (fity f) z -> in_range t1 s -> s <> 0 ->
  let d := cartesian_div_scalar (int_ops m t1) (fixed_ops m f) (fixed_conv_int m f t1) (int_zero t1) (fixed_real m f) z s in
  (fvalid f (s * 2 ^ ffrac f) ->
    (s = -1 /\ fsigned f = true /\ (re z = fmin f \/ im z = fmin f) -> m = Debug -> d = Panic POverflow) /\
    (~ (s = -1 /\ fsigned f = true /\ (re z = fmin f \/ im z = fmin f)) -> d = Ok (mkC (Z.quot (re z) s) (Z.quot (im z) s)))) /\
  (~ fvalid f (s * 2 ^ ffrac f) -> m = Debug -> d = Panic POverflow) /\
  cartesian_div_assign_scalar (int_ops m t1) (fixed_ops m f) (fixed_conv_int m f t1) (int_zero t1) (fixed_real m f) z s = d.
Proof.
  intros m f t1 Hf Ht1 z s [Vr Vi] V1 N d. pose proof (supported_fwf f Hf) as W. pose proof (fone_pos f (proj1 W)) as P.
  assert (W' : 1 <= iwidth (fity f)) by (apply supported_inv in Hf; cbn; lia).
  assert (E0 : mixed_zero (int_zero t1) = Ok 0) by (apply int_zero_eq; auto).
  change (2 ^ ffrac f) with (fone f).
  assert (D : d = (c <- fx_of_int m f s ;; r <- fx_div m f (re z) c ;; i <- fx_div m f (im z) c ;; Ok (mkC r i))).
  { unfold d, cartesian_div_scalar. rewrite E0. cbn [bind]. rewrite int_neq0 by auto. cbn [mixed_from_num fixed_conv_int o_div fixed_ops].
    destruct (fx_of_int m f s); reflexivity. }
  assert (DV : forall a, fx_div m f a (s * fone f) = fx_fin m f (Z.quot a s)).
  { intros a. unfold fx_div. destruct (Z.eqb_spec (s * fone f) 0); [nia|]. rewrite Z.quot_mul_cancel_r by lia. reflexivity. }
  split; [|split].
  - intros V. unfold fx_of_int in D. rewrite fx_fin_ok in D by auto. cbn [bind] in D. rewrite !DV in D.
    assert (SU : isigned (fity f) = false -> 0 < s). { intros U. apply fvalid_iff in V. change (isigned (fity f)) with (fsigned f) in U. rewrite U in V. nia. }
    split.
    + intros (-> & S & Q) ->. rewrite D. assert (X : forall a, a = fmin f -> fx_fin Debug f (Z.quot a (-1)) = Panic POverflow).
      { intros a ->. unfold fx_fin. apply fin_debug_over. apply quot_min; auto. }
      destruct Q as [Q|Q]; rewrite (X _ Q); cbn [bind]; [reflexivity|]. unfold fx_fin, fin. destruct (in_rangeb (fity f) (Z.quot (re z) (-1))); reflexivity.
    + intros Q. rewrite D. assert (X : forall a, in_range (fity f) a -> ~ (s = -1 /\ fsigned f = true /\ a = fmin f) -> fx_fin m f (Z.quot a s) = Ok (Z.quot a s)) by (intros; apply fx_fin_ok; apply quot_range; auto).
      rewrite !X by (auto; intros (A & B & C); apply Q; auto). reflexivity.
  - intros V ->. rewrite D. unfold fx_of_int, fx_fin. rewrite fin_debug_over by auto. reflexivity.
  - apply (div_assign_eq _ _ _ _ _ _ _ _ _ 0); auto. apply int_neq0; auto.
Qed.

(** fixed by fixed *)
Lemma fdiv_val : forall f a b, 0 <= ffrac f -> b <> 0 ->
  (Rabs (fval f (Z.quot (a * fone f) b) - fval f a / fval f b) < ulp f /\ Rabs (fval f (Z.quot (a * fone f) b)) <= Rabs (fval f a / fval f b))%R.
Proof.
  intros f a b F N. pose proof (fone_IZR_pos f F) as Q. assert (U : (0 < ulp f)%R) by (unfold ulp; apply bpow_gt_0).
  assert (NB : (IZR b <> 0)%R) by (apply IZR_neq; auto).
  set (k := Z.quot (a * fone f) b). pose proof (Z.quot_rem' (a * fone f) b) as E. fold k in E.
  set (r := Z.rem (a * fone f) b) in *. pose proof (Z.rem_bound_abs (a * fone f) b N) as RB. fold r in RB.
  assert (SG : 0 <= r * (a * fone f)) by (apply Z.rem_sign_mul; auto).
  assert (V : (fval f a / fval f b = IZR (a * fone f) / IZR b * ulp f)%R).
  { rewrite !fval_eq, ulp_eq, mult_IZR by auto. field. split; lra. }
  assert (V2 : (IZR (a * fone f) / IZR b = IZR k + IZR r / IZR b)%R) by (rewrite E, plus_IZR, mult_IZR; field; auto).
  assert (V3 : (fval f k = IZR k * ulp f)%R) by reflexivity.
  rewrite V, V2, V3. split.
  - replace (IZR k * ulp f - (IZR k + IZR r / IZR b) * ulp f)%R with (- (IZR r / IZR b) * ulp f)%R by ring.
    rewrite Rabs_mult, Rabs_Ropp, (Rabs_pos_eq (ulp f)) by lra. rewrite <- (Rmult_1_l (ulp f)) at 2. apply Rmult_lt_compat_r; auto.
    unfold Rdiv. rewrite Rabs_mult, Rabs_inv. rewrite <- !abs_IZR. apply IZR_lt in RB.
    assert (0 < IZR (Z.abs b))%R by (apply IZR_lt; lia). apply Rmult_lt_reg_r with (IZR (Z.abs b)); auto. rewrite Rmult_assoc, Rinv_l by lra. lra.
  - rewrite !Rabs_mult, (Rabs_pos_eq (ulp f)) by lra. apply Rmult_le_compat_r; [lra|].
    rewrite <- V2. unfold Rdiv. rewrite Rabs_mult, Rabs_inv, <- !abs_IZR.
    assert (0 < IZR (Z.abs b))%R by (apply IZR_lt; lia). apply Rmult_le_reg_r with (IZR (Z.abs b)); auto. rewrite Rmult_assoc, Rinv_l, Rmult_1_r by lra.
    rewrite <- mult_IZR. apply IZR_le. rewrite <- Z.abs_mul. 
    pose proof (Z.quot_abs (a * fone f) b N) as QA. fold k in QA. rewrite Z.abs_mul, <- QA, Z.quot_div_nonneg, Z.mul_comm by lia. apply Z.mul_div_le. lia.
Qed.

Lemma div_same_fixed : forall f, supported f = true ->
  (forall z b r, b <> 0 -> ops_div_scalar_cartesian (fixed_ops Debug f) (fixed_real Debug f) z b = Ok r ->
     (Rabs (fval f (re r) - fval f (re z) / fval f b) < ulp f /\ Rabs (fval f (im r) - fval f (im z) / fval f b) < ulp f)%R) /\
  (forall p b r, b <> 0 -> polar_div_real (fixed_ops Debug f) (fixed_real Debug f) (fixed_zero Debug f) p b = Ok r ->
     (Rabs (fval f (mag r) - fval f (mag p) / fval f b) < ulp f)%R /\ ang r = ang p) /\
  (forall m p, polar_div_real (fixed_ops m f) (fixed_real m f) (fixed_zero m f) p 0 = Ok (mkP (fmax f) (ang p))) /\
  (forall p b r, polar_mul_real (fixed_ops Debug f) p b = Ok r ->
     (Rabs (fval f (mag r) - fval f (mag p) * fval f b) < ulp f)%R /\ ang r = ang p).
Proof.
  intros f Hf. pose proof (supported_fwf f Hf) as W.
  assert (NZ : forall m b, b <> 0 -> o_eq (fixed_ops m f) b 0 = false) by (intros m b N; unfold o_eq; cbn; destruct (Z.compare_spec b 0); auto; lia).
  assert (ZI : forall m, o_of_i32 (fixed_ops m f) 0 = Ok 0) by (intros m; cbn; rewrite fx_of_int_small by (auto; lia); reflexivity).
  assert (DV : forall a b c, b <> 0 -> o_div (fixed_ops Debug f) a b = Ok c -> (Rabs (fval f c - fval f a / fval f b) < ulp f)%R).
  { intros a b c N H. cbn in H. unfold fx_div in H. destruct (Z.eqb_spec b 0); [lia|]. unfold fx_fin in H. apply fin_debug_inv in H. destruct H as [-> _].
    apply fdiv_val; auto. apply W. }
  split; [|split; [|split]].
  - intros z b r N H. unfold ops_div_scalar_cartesian in H. rewrite ZI in H. cbn [bind] in H. rewrite NZ in H by auto.
    destruct (o_div _ (re z) b) as [u| |] eqn:E1; try discriminate. cbn [bind] in H. destruct (o_div _ (im z) b) as [v| |] eqn:E2; try discriminate. cbn [bind] in H.
    injection H as <-. split; eapply DV; eauto.
  - intros p b r N H. unfold polar_div_real in H. rewrite fixed_zero_ok in H by auto. cbn [bind] in H. rewrite NZ in H by auto.
    destruct (o_div _ (mag p) b) as [u| |] eqn:E1; try discriminate. cbn [bind] in H. injection H as <-. split; [eapply DV; eauto|reflexivity].
  - intros m p. unfold polar_div_real. rewrite fixed_zero_ok by auto. reflexivity.
  - intros p b r H. unfold polar_mul_real in H. cbn [o_mul fixed_ops] in H. unfold fx_mul, fx_fin in H.
    destruct (fin Debug (fity f) _) as [u| |] eqn:E1; try discriminate. cbn [bind] in H. injection H as <-. apply fin_debug_inv in E1. destruct E1 as [-> _].
    split; auto. cbn [mag]. pose proof (fval_mul f (mag p) b (proj1 W)). apply Rabs_def1; assert (0 < ulp f)%R by (unfold ulp; apply bpow_gt_0); lra.
Qed.

(** ** zero survives the round trip exactly *)
Lemma roundtrip_zero : forall m f, supported f = true -> fsigned f = true -> ffrac f <= fwidth f - 4 ->
  forall p, mixed_pi (fixed_pi m f) = Ok p -> forall Sn d A a, accurate_sincos f (fval f p) d Sn ->
  mixed_atan2 A 0 0 = Ok a -> fvalid f a ->
  returns (fun fuel => q <- ops_to_polar (fixed_ops m f) (fixed_sqrt m f fuel) (fixed_powi m f) A (mkC 0 0) ;;
     ops_to_cartesian (fixed_ops m f) (fixed_wrap_phase m f fuel) Sn q) (mkC 0 0).
Proof.
  intros m f Hf S F p Hp Sn d A a AS E V. pose proof (supported_fwf f Hf) as W. rewrite fixed_pi_eq in Hp by auto. injection Hp as <-.
  pose proof (fone_pos f (proj1 W)) as P. assert (V0 : fvalid f 0) by (apply zero_in_range; apply fwf_width; auto).
  destruct (wrapped m f W S ltac:(right; lia) a V) as [r [[n0 R] [Vr [Br _]]]].
  destruct (AS r Vr Br) as [s [c [Es _]]].
  exists n0. intros k Hk. pose proof (fixed_mag_zero m f k Hf) as M. unfold fixed_mag, cartesian_mag in M.
  unfold ops_to_polar, ops_abs. cbn [re im o_add fixed_ops] in *.
  destruct (mixed_powi (fixed_powi m f) 0 2); try discriminate. cbn [bind] in *. destruct (fx_add m f _ _); try discriminate. cbn [bind] in *.
  rewrite M. cbn [bind]. rewrite E. cbn [bind]. unfold ops_to_cartesian. cbn [ang mag]. specialize (R k Hk). rewrite R. cbn [bind]. rewrite Es. cbn [bind fst snd o_mul fixed_ops].
  unfold fx_mul. rewrite !Z.mul_0_l, Z.div_0_l by lia. rewrite !fx_fin_ok by auto. reflexivity.
Qed.

Lemma to_cartesian_all : forall m f, supported f = true -> fsigned f = true -> ffrac f <= fwidth f - 4 ->
  forall p, mixed_pi (fixed_pi m f) = Ok p -> forall Sn d, accurate_sincos f (fval f p) d Sn ->
  forall q, fvalid f (ang q) -> (Rabs (fval f (mag q)) * (1 + d) <= fval f (fmax f))%R ->
  exists z, returns (fun fuel => polar_to_cartesian (fixed_ops m f) (fixed_wrap_phase m f fuel) Sn q) z /\
  let g := fval f (mag q) in let a := fval f (ang q) in
  (let B := (Rabs g * (d + (Rabs a / 6 + / 2) * (ulp f + 2 / 1000000000000000)) + ulp f)%R in
   Rabs (fval f (re z) - g * Rtrigo_def.cos a) <= B /\ Rabs (fval f (im z) - g * Rtrigo_def.sin a) <= B)%R /\
  (- fval f p <= a < fval f p -> let B := (Rabs g * d + ulp f)%R in
   Rabs (fval f (re z) - g * Rtrigo_def.cos a) <= B /\ Rabs (fval f (im z) - g * Rtrigo_def.sin a) <= B)%R.
Proof.
  intros m f Hf S F p Hp Sn d AS q V Bd. pose proof (supported_fwf f Hf) as W. rewrite fixed_pi_eq in Hp by auto. injection Hp as <-.
  exact (tc_acc m f W S ltac:(right; lia) Sn d AS q V Bd).
Qed.

Lemma roundtrip_all : forall m f, supported f = true -> fsigned f = true -> 2 <= ffrac f <= fwidth f - 4 ->
  forall p, mixed_pi (fixed_pi m f) = Ok p -> forall Sn d A e, accurate_sincos f (fval f p) d Sn ->
  forall z, accurate_atan2_at f e A (im z) (re z) -> cvalid (fity f) z -> z <> mkC 0 0 ->
  let rho := sqrt (fval f (re z) * fval f (re z) + fval f (im z) * fval f (im z)) in
  let me := ((/ 1000 + 5 * ulp f) * rho + 3 * ulp f + sqrt (2 * ulp f))%R in
  (rho * rho <= fval f (fmax f) -> (rho + me) * (1 + d) <= fval f (fmax f) ->
  exists w, returns (fun fuel => q <- cartesian_to_polar (fixed_ops m f) (fixed_sqrt m f fuel) (fixed_powi m f) A z ;;
     polar_to_cartesian (fixed_ops m f) (fixed_wrap_phase m f fuel) Sn q) w /\
   let B := me + (rho + me) * (d + e + (2 + e) * (ulp f + 2 / 1000000000000000)) + ulp f in
   Rabs (fval f (re w) - fval f (re z)) <= B /\ Rabs (fval f (im w) - fval f (im z)) <= B)%R.
Proof.
  intros m f Hf S F p Hp Sn d A e AS z AA [Vr Vi] NZ rho me N Bd. pose proof (supported_fwf f Hf) as W.
  assert (U : (0 < ulp f)%R) by (unfold ulp; apply bpow_gt_0).
  assert (H : is_angle (fval f (im z)) (fval f (re z)) (AtanReal.angle (fval f (im z)) (fval f (re z)))).
  { apply angle_spec. assert (K : forall a, (fval f a = 0)%R -> a = 0).
    { intros a E. unfold fval in E. apply Rmult_integral in E. destruct E as [E|E]; [apply eq_IZR; exact E|]. unfold ulp in U. lra. }
    destruct (Req_dec (fval f (re z)) 0) as [E1|]; auto. destruct (Req_dec (fval f (im z)) 0) as [E2|]; auto.
    exfalso. apply NZ. destruct z as [u v]. cbn [re im] in *. rewrite (K _ E1), (K _ E2). reflexivity. }
  destruct (AA _ H) as [a [E [Va Ha]]].
  exact (roundtrip m f Hf S F p Hp Sn d A z _ a e AS H E Va Ha N Bd).
Qed.

Lemma mul_polar_forms : forall T (O : MixedOps T) Wr Sn z q,
  cartesian_mul_assign_polar O Wr Sn z q = cartesian_mul_polar O Wr Sn z q /\
  cartesian_mul_polar O Wr Sn z q = (w <- polar_to_cartesian O Wr Sn q ;; cartesian_mul O z w).
Proof. intros. split; [apply mul_assign_polar_eq|reflexivity]. Qed.

Lemma powi_refuted_witness : let f := mkFty true 32 28 in exists a, mixed_atan2 (ideal_atan f AtanReal.angle) 0 (- fone f) = Ok a /\ (3 <= fval f a)%R /\
  (fval f (fmax f) + ulp f < 3 * INR 3)%R.
Proof.
  cbv zeta. eexists. split; [reflexivity|]. set (f := mkFty true 32 28).
  assert (E1 : (fval f (- fone f) = -1)%R) by (unfold fval; change (bpow radix2 (- ffrac f)) with (/ IZR 268435456)%R; change (- fone f) with (-268435456); lra).
  assert (E0 : (fval f 0 = 0)%R) by (unfold fval; ring). rewrite E1, E0.
  assert (H : is_angle 0 (-1) PI).
  { split; [pose proof PI_RGT_0; lra|]. exists 1%R. rewrite cos_PI, sin_PI. lra. }
  rewrite <- (angle_is _ _ _ H). pose proof (fround_err f PI) as R. apply Rabs_le_inv in R. destruct pi_bounds as [P1 P2].
  assert (U : (ulp f = / 268435456)%R) by (unfold ulp; change (bpow radix2 (- ffrac f)) with (/ IZR 268435456)%R; reflexivity).
  rewrite U in *. split; [lra|]. unfold fval. change (bpow radix2 (- ffrac f)) with (/ IZR 268435456)%R. change (fmax f) with 2147483647. cbn [INR]. lra.
Qed.
