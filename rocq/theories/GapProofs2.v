(** * Zero and the embedding of the reals on floats; products with head room never overflow. *)

From Coq Require Import ZArith Reals List Lia Lra Bool.
From Flocq Require Import Core.Core IEEE754.BinarySingleNaN.
From Verif Require Import Base FloatBase Traits Trig IntImpl FixedPrim FixedImpl FloatImpl Complex Spec SpecAngle SpecPolar SpecFilter Lemmas FloatLemmas ScalarProofs ComplexProofs ComplexProofs3
  FloatProofs RotorProofs FilterProofs WrapProofs TrigProofs PolarProofs PolarProofs2 IdentProofs.
Open Scope Z_scope.

(** ** floats *)
Section Flt.
Context {prec emax : Z} {Hp : Prec_gt_0 prec} {He : Prec_lt_emax prec emax}.
Notation float := (binary_float prec emax).
Lemma minus_self : forall x : float, is_finite x = true -> Bminus mode_NE x x = B754_zero false.
Proof.
  intros x F. pose proof (Bminus_correct prec emax _ _ mode_NE x x F F) as H. rewrite Rminus_diag_eq in H by reflexivity. rewrite round_0, Rabs_R0 in H by apply valid_rnd_N.
  rewrite Rlt_bool_true in H by apply bpow_gt_0. destruct H as (V & F' & S). rewrite Rcompare_Eq in S by reflexivity.
  destruct (Bminus mode_NE x x) as [s|s| |s m e b]; try discriminate F'.
  - cbn in S. rewrite S. destruct (Bsign x); reflexivity.
  - exfalso. cbn in V. apply eq_0_F2R in V. destruct s; discriminate V.
Qed.
Lemma float_null : forall z o : Cartesian float, cartesian_zero float_zero = Ok o -> is_finite (re z) = true -> is_finite (im z) = true ->
  cartesian_sub float_ops z z = Ok o /\
  exists a b, cartesian_mul float_ops z o = Ok a /\ cartesian_mul float_ops o z = Ok b /\
  (same_float (re a) (re o) /\ same_float (im a) (im o)) /\ (same_float (re b) (re o) /\ same_float (im b) (im o)).
Proof.
  intros [x y] o H Fx Fy. cbn [re im] in *. unfold cartesian_zero in H. cbn [mixed_zero float_zero bind] in H. rewrite float_of_Z_zero in H. injection H as <-. split.
  - unfold cartesian_sub. cbn [re im o_sub float_ops bind]. rewrite !minus_self by auto. reflexivity.
  - do 2 eexists. split; [reflexivity|]. split; [reflexivity|]. cbn [re im]. rewrite !(Bmult_comm (B754_zero false)).
    destruct (Bmult_zero x false Fx) as [sx ->]. destruct (Bmult_zero y false Fy) as [sy ->].
    destruct sx, sy; cbn; repeat split; right; eauto.
Qed.
Lemma embed_float : forall (x y : float) cx cy, cartesian_mixed_to_complex float_zero x = Ok cx -> cartesian_mixed_to_complex float_zero y = Ok cy ->
  cartesian_add float_ops cx cy = cartesian_mixed_to_complex float_zero (Bplus mode_NE x y) /\
  cartesian_sub float_ops cx cy = cartesian_mixed_to_complex float_zero (Bminus mode_NE x y) /\
  (is_finite x = true -> is_finite y = true ->
   exists p q, cartesian_mul float_ops cx cy = Ok p /\ cartesian_mixed_to_complex float_zero (Bmult mode_NE x y) = Ok q /\ re p = re q /\ same_float (im p) (im q)).
Proof.
  intros x y cx cy Hx Hy. unfold cartesian_mixed_to_complex in *. cbn [mixed_zero float_zero bind] in *. rewrite float_of_Z_zero in *. injection Hx as <-. injection Hy as <-.
  split; [reflexivity|]. split; [reflexivity|]. intros Fx Fy. do 2 eexists. split; [reflexivity|]. split; [reflexivity|]. cbn [re im].
  rewrite !(Bmult_comm (B754_zero false) y). destruct (Bmult_zero x false Fx) as [sx ->]. destruct (Bmult_zero y false Fy) as [sy ->]. split.
  - change (Bmult mode_NE (B754_zero false) (B754_zero false)) with (B754_zero false : float).
    destruct (Bmult mode_NE x y) as [[]|s| |s m e b] eqn:E; reflexivity.
  - destruct sx, sy; cbn; right; eauto.
Qed.
End Flt.

(** ** fixed point *)
Lemma mul_room : forall m f, supported f = true -> fsigned f = true -> forall z w, cvalid (fity f) z -> cvalid (fity f) w ->
  (cabs (cval f z) * cabs (cval f w) + 224 / 100 * ulp f <= fval f (fmax f))%R ->
  exists r, cartesian_mul (fixed_ops m f) z w = Ok r /\
  (Rabs (fval f (re r) - (fval f (re z) * fval f (re w) - fval f (im z) * fval f (im w))) < ulp f)%R /\
  (-2 * ulp f < fval f (im r) - (fval f (re z) * fval f (im w) + fval f (im z) * fval f (re w)) <= 0)%R.
Proof.
  intros m f Hf Sg z w Vz Vw H. assert (C0 : cabs (cval f (mkC 0 0)) = 0%R).
  { unfold cval. cbn [re im]. replace (fval f 0) with 0%R by (unfold fval; ring). unfold cabs. cbn [fst snd]. rewrite Rmult_0_l, Rplus_0_r. apply sqrt_0. }
  destruct (filt_total f Hf Sg w z (mkC 0 0)) as (r & E & _); [rewrite C0, Rplus_0_r; exact H|].
  destruct (cartesian_mul (fixed_ops Debug f) z w) as [v| |] eqn:M; try discriminate E.
  destruct (mul_fixed_all f Hf z w v Vz Vw M) as (A & B & C). exists v. split; [destruct m; [exact M | exact C]|]. auto.
Qed.
Lemma mul_polar_room : forall m f, supported f = true -> fsigned f = true -> ffrac f <= fwidth f - 4 ->
  forall p, mixed_pi (fixed_pi m f) = Ok p -> forall Sn d, accurate_sincos f (fval f p) d Sn ->
  forall z q, cvalid (fity f) z -> fvalid f (ang q) ->
  let x := fval f (re z) in let y := fval f (im z) in let g := fval f (mag q) in let a := fval f (ang q) in
  let C := (Rabs g * (d + slip f a) + ulp f)%R in
  (Rabs g * (1 + d) <= fval f (fmax f) -> cabs (x, y) * (Rabs g + 2 * C) + 224 / 100 * ulp f <= fval f (fmax f) ->
  exists r, returns (fun fuel => cartesian_mul_polar (fixed_ops m f) (fixed_wrap_phase m f fuel) Sn z q) r /\
  Rabs (fval f (re r) - (x * (g * Rtrigo_def.cos a) - y * (g * Rtrigo_def.sin a))) <= (Rabs x + Rabs y) * C + 2 * ulp f /\
  Rabs (fval f (im r) - (x * (g * Rtrigo_def.sin a) + y * (g * Rtrigo_def.cos a))) <= (Rabs x + Rabs y) * C + 2 * ulp f)%R.
Proof.
  intros m f Hf S F p Hp Sn d AS z q Vz Va x y g a C Bd Rm. pose proof (supported_fwf f Hf) as W. rewrite fixed_pi_eq in Hp by auto. injection Hp as <-.
  destruct (tc_acc m f W S ltac:(right; lia) Sn d AS q Va Bd) as [w [[n0 R] [[B1 B2] _]]].
  assert (Vw : cvalid (fity f) w).
  { specialize (R n0 (le_n _)). clear - R W S. unfold ops_tc, ops_to_cartesian in R. destruct (mixed_wrap_phase _ _) as [t| |]; try discriminate. cbn [bind] in R.
    destruct (mixed_sincos Sn t) as [[s c]| |]; try discriminate. cbn [bind fst snd o_mul fixed_ops] in R. unfold fx_mul, fx_fin in R.
    destruct (fin m (fity f) (mag q * c / fone f)) as [u| |] eqn:E1; try discriminate. cbn [bind] in R.
    destruct (fin m (fity f) (mag q * s / fone f)) as [v| |] eqn:E2; try discriminate. cbn [bind] in R. injection R as <-.
    split; (eapply Lemmas.fin_range; [|eassumption]); cbn; unfold fwf in W; lia. }
  fold g a in B1, B2. cbv zeta in B1, B2. fold C in B1, B2.
  assert (CW : (cabs (cval f w) <= Rabs g + 2 * C)%R).
  { eapply Rle_trans; [apply (cabs_via (cval f w) (g * Rtrigo_def.cos a, g * Rtrigo_def.sin a)%R)|]. apply Rplus_le_compat.
    - right. unfold cabs. cbn [fst snd]. pose proof (sin2_cos2 a) as SC. unfold Rsqr in SC.
      replace (g * Rtrigo_def.cos a * (g * Rtrigo_def.cos a) + g * Rtrigo_def.sin a * (g * Rtrigo_def.sin a))%R with (Rsqr g * (Rtrigo_def.sin a * Rtrigo_def.sin a + Rtrigo_def.cos a * Rtrigo_def.cos a))%R by (unfold Rsqr; ring).
      rewrite SC, Rmult_1_r. apply sqrt_Rsqr_abs.
    - unfold csub, cval. cbn [fst snd]. set (s1 := (fval f (re w) - g * Rtrigo_def.cos a)%R) in *. set (s2 := (fval f (im w) - g * Rtrigo_def.sin a)%R) in *.
      replace (cabs (s1, s2)) with (cabs (s1 + 0, 0 + s2)%R) by (f_equal; f_equal; ring). eapply Rle_trans; [apply cabs_tri|].
      assert (K1 : cabs (s1, 0%R) = Rabs s1) by (unfold cabs; cbn [fst snd]; rewrite Rmult_0_l, Rplus_0_r; apply sqrt_Rsqr_abs).
      assert (K2 : cabs (0%R, s2) = Rabs s2) by (unfold cabs; cbn [fst snd]; rewrite Rmult_0_l, Rplus_0_l; apply sqrt_Rsqr_abs). rewrite K1, K2. lra. }
  destruct (mul_room m f Hf S z w Vz Vw) as (r & ER & C1 & C2).
  { eapply Rle_trans; [|exact Rm]. apply Rplus_le_compat_r. change (cabs (x, y)) with (cabs (cval f z)). apply Rmult_le_compat_l; [apply cabs_pos | exact CW]. }
  exists r. split.
  { exists n0. intros fuel Hn. specialize (R fuel Hn). unfold ops_tc in R. unfold cartesian_mul_polar. rewrite R. cbn [bind]. exact ER. }
  assert (U : (0 < ulp f)%R) by (unfold ulp; apply bpow_gt_0). fold x y in C1, C2. clearbody x y g a C.
  set (u := fval f (re w)) in *. set (v := fval f (im w)) in *.
  pose proof (Rabs_pos x) as X0. pose proof (Rabs_pos y) as Y0.
  pose proof (Rmult_le_compat_l _ _ _ X0 B1) as XB1. pose proof (Rmult_le_compat_l _ _ _ X0 B2) as XB2.
  pose proof (Rmult_le_compat_l _ _ _ Y0 B1) as YB1. pose proof (Rmult_le_compat_l _ _ _ Y0 B2) as YB2.
  rewrite <- Rabs_mult in XB1, XB2, YB1, YB2. split.
  - replace (fval f (re r) - (x * (g * Rtrigo_def.cos a) - y * (g * Rtrigo_def.sin a)))%R with
      ((fval f (re r) - (x * u - y * v)) + (x * (u - g * Rtrigo_def.cos a) + - (y * (v - g * Rtrigo_def.sin a))))%R by ring.
    eapply Rle_trans; [apply Rabs_triang|]. eapply Rle_trans; [apply Rplus_le_compat_l, Rabs_triang|]. rewrite Rabs_Ropp. lra.
  - replace (fval f (im r) - (x * (g * Rtrigo_def.sin a) + y * (g * Rtrigo_def.cos a)))%R with
      ((fval f (im r) - (x * v + y * u)) + (x * (v - g * Rtrigo_def.sin a) + y * (u - g * Rtrigo_def.cos a)))%R by ring.
    eapply Rle_trans; [apply Rabs_triang|]. eapply Rle_trans; [apply Rplus_le_compat_l, Rabs_triang|].
    assert (Rabs (fval f (im r) - (x * v + y * u)) <= 2 * ulp f)%R by (apply Rabs_le; lra). lra.
Qed.
