(** * Proofs about comparisons, differences and products (C179). *)

From Coq Require Import ZArith Reals Lia Lra List Bool Psatz.
From Flocq Require Import Core.Core IEEE754.BinarySingleNaN Plus_error.
From Verif Require Import Base FloatBase Traits IntImpl FixedPrim FixedImpl FloatImpl Spec Lemmas ScalarProofs ScalarProofs2 FloatLemmas FloatArith SqrtInv.
Import ListNotations.
Open Scope Z_scope.

Section Flt.
Context {prec emax : Z} {Hp : Prec_gt_0 prec} {He : Prec_lt_emax prec emax}.
Notation float := (binary_float prec emax).
Notation fexp := (SpecFloat.fexp prec emax).
Notation rnd := (round radix2 fexp ZnearestE).
Let Vx : Valid_exp fexp := fexp_correct prec emax Hp.
Let Vm : Monotone_exp fexp := fexp_monotone prec emax.

Lemma rnd_cmp : forall x y, generic_format radix2 fexp x -> generic_format radix2 fexp y -> Rcompare (rnd (x - y)) 0 = Rcompare x y.
Proof using Vx Vm.
  intros x y Gx Gy. assert (Vn : Valid_rnd ZnearestE) by apply valid_rnd_N. assert (NF : Exp_not_FTZ fexp) by (apply monotone_exp_not_FTZ; auto).
  assert (Z0 : generic_format radix2 fexp 0) by apply generic_format_0.
  assert (NZ : (x - y <> 0 -> rnd (x - y) <> 0)%R). { intros H. unfold Rminus in *. apply round_plus_neq_0; auto. apply generic_format_opp. exact Gy. }
  destruct (Rtotal_order x y) as [H|[H|H]].
  - assert (rnd (x - y) <= 0)%R by (apply round_le_generic; auto; lra). specialize (NZ ltac:(lra)). rewrite !Rcompare_Lt; [reflexivity|lra|lra].
  - subst y. rewrite Rminus_eq_0, round_0 by auto. rewrite !Rcompare_Eq; reflexivity.
  - assert (0 <= rnd (x - y))%R by (apply round_ge_generic; auto; lra). specialize (NZ ltac:(lra)). rewrite !Rcompare_Gt; [reflexivity|lra|lra].
Qed.
Lemma diff_finite : forall x y : float, is_finite x = true -> is_finite y = true -> Bcompare (Bminus mode_NE x y) (B754_zero false) = Bcompare x y.
Proof using Vx Vm.
  intros x y Fx Fy. rewrite (Bcompare_correct prec emax x y Fx Fy). pose proof (Bminus_correct prec emax _ _ mode_NE x y Fx Fy) as K. change (round_mode mode_NE) with ZnearestE in K.
  destruct (Rlt_bool_spec (Rabs (rnd (B2R x - B2R y))) (bpow radix2 emax)) as [L|L].
  - destruct K as (V & F & _). rewrite (Bcompare_correct prec emax _ (B754_zero false) F eq_refl), V. cbn [B2R]. rewrite rnd_cmp; auto; apply generic_format_B2R.
  - destruct K as [O S].
    assert (N : (B2R x <> B2R y)%R). { intros E. rewrite E, Rminus_eq_0, round_0, Rabs_R0 in L by apply valid_rnd_N. pose proof (bpow_gt_0 radix2 emax). lra. }
    assert (Sx : forall v : float, (Bsign v = false -> 0 <= B2R v)%R /\ (Bsign v = true -> B2R v <= 0)%R).
    { intros [s|s| |s m e H]; cbn [Bsign B2R]; split; intros E; try lra; subst s; [apply F2R_ge_0|apply F2R_le_0]; cbn; lia. }
    destruct (Bsign x) eqn:Ex; destruct (Bsign y) eqn:Ey; try discriminate S; cbn in O; destruct (Bminus mode_NE x y) as [|s| |]; try discriminate O; cbn in O; injection O as ->; cbn.
    + pose proof (proj2 (Sx x) Ex). pose proof (proj1 (Sx y) Ey). rewrite Rcompare_Lt by lra. reflexivity.
    + pose proof (proj1 (Sx x) Ex). pose proof (proj2 (Sx y) Ey). rewrite Rcompare_Gt by lra. reflexivity.
Qed.
Theorem diff_float : forall x y : float, (forall s, ~ (x = B754_infinity s /\ y = B754_infinity s)) -> exists d z, o_sub float_ops x y = Ok d /\ mixed_zero float_zero = Ok z /\
  o_cmp float_ops d z = o_cmp float_ops x y.
Proof using Vx Vm.
  intros x y H. exists (Bminus mode_NE x y), (B754_zero false). split; [reflexivity|]. split; [reflexivity|]. cbn [o_cmp float_ops].
  destruct (is_finite x) eqn:Fx; [destruct (is_finite y) eqn:Fy; [apply diff_finite; auto|]|].
  - destruct x as [sx|sx| |sx m e Hx], y as [sy|sy| |sy m' e' Hy]; try discriminate; cbn; try reflexivity; try (destruct sx, sy; reflexivity); try (destruct sy; reflexivity).
  - destruct x as [sx|sx| |sx m e Hx], y as [sy|sy| |sy m' e' Hy]; try discriminate; cbn; try reflexivity; try (destruct sx; reflexivity).
    destruct sx, sy; cbn; try reflexivity; exfalso; eapply H; split; reflexivity.
Qed.
(** products in finite results *)
Theorem products_float : forall a b c d x y : float, o_mul float_ops a b = Ok x -> o_mul float_ops c d = Ok y -> is_finite x = true -> is_finite y = true ->
  (o_cmp float_ops x y = Some Lt -> B2R a * B2R b < B2R c * B2R d)%R /\ (o_cmp float_ops x y = Some Gt -> B2R a * B2R b > B2R c * B2R d)%R /\
  (B2R a * B2R b = B2R c * B2R d -> o_cmp float_ops x y = Some Eq)%R.
Proof using Vx.
  intros a b c d x y Ex Ey Fx Fy. cbn [o_mul float_ops] in Ex, Ey. injection Ex as Ex. injection Ey as Ey. subst x y. cbn [o_cmp float_ops]. rewrite (Bcompare_correct prec emax _ _ Fx Fy).
  rewrite (mult_fin _ _ Fx), (mult_fin _ _ Fy). assert (Vn : Valid_rnd ZnearestE) by apply valid_rnd_N. set (v := (B2R a * B2R b)%R). set (w := (B2R c * B2R d)%R).
  split; [|split]; intros H.
  - injection H as H. apply Rcompare_Lt_inv in H. apply Rnot_le_lt. intros L. assert (rnd w <= rnd v)%R by (apply round_le; auto). lra.
  - injection H as H. apply Rcompare_Gt_inv in H. apply Rnot_le_lt. intros L. assert (rnd v <= rnd w)%R by (apply round_le; auto). lra.
  - rewrite H, Rcompare_Eq; reflexivity.
Qed.
End Flt.

Theorem diff_fixed : forall m f, supported f = true -> forall x y d, fvalid f x -> fvalid f y -> o_sub (fixed_ops m f) x y = Ok d ->
  (fvalid f (x - y) -> o_cmp (fixed_ops m f) d 0 = o_cmp (fixed_ops m f) x y) /\ (m = Debug -> fvalid f (x - y)).
Proof.
  intros m f Hf x y d Vx Vy E. cbn [o_sub o_cmp fixed_ops] in *. unfold fx_sub, fx_fin, fx_cmp in *. split.
  - intros V. rewrite fin_ok in E by exact V. injection E as <-. f_equal. rewrite <- Z.compare_sub. reflexivity.
  - intros ->. apply fin_debug_inv in E as [-> R]. exact R.
Qed.
(** release: when the difference does not fit the comparison comes out the wrong way round *)
Theorem diff_wraps : forall f, supported f = true -> forall x y, fvalid f x -> fvalid f y -> ~ fvalid f (x - y) ->
  exists d, o_sub (fixed_ops Release f) x y = Ok d /\ o_cmp (fixed_ops Release f) x y <> o_cmp (fixed_ops Release f) d 0.
Proof.
  intros f Hf x y Vx Vy N. assert (W : 1 <= iwidth (fity f)) by (apply fwf_width, supported_fwf; exact Hf).
  cbn [o_sub o_cmp fixed_ops]. unfold fx_sub, fx_fin, fx_cmp. exists (wrap (fity f) (x - y)). split; [apply fin_release; exact W|]. intros H. injection H as H.
  pose proof (wrap_range (fity f) W (x - y)) as R. unfold fvalid, in_range in *.
  destruct (wrap_congr (fity f) W (x - y)) as [k Hk].
  assert (P : imax (fity f) - imin (fity f) + 1 = 2 ^ iwidth (fity f)). { unfold imax, imin. destruct (isigned (fity f)); [|lia]. replace (2 ^ iwidth (fity f)) with (2 * 2 ^ (iwidth (fity f) - 1)) by (rewrite <- Z.pow_succ_r by lia; f_equal; lia). lia. }
  set (p := 2 ^ iwidth (fity f)) in *. set (w := wrap (fity f) (x - y)) in *.
  pose proof (zero_in_range (fity f) W) as Z0. unfold in_range in Z0. assert (K : k = 0 \/ k <= -1 \/ 1 <= k) by lia.
  destruct K as [->|[K|K]]; [lia| |]; destruct (Z.compare_spec x y), (Z.compare_spec w 0); try discriminate; nia.
Qed.
Theorem diff_fixed_iff : forall m f, supported f = true -> forall x y, fvalid f x -> fvalid f y ->
  (fvalid f (x - y) <-> exists d, o_sub (fixed_ops m f) x y = Ok d /\ o_cmp (fixed_ops m f) d 0 = o_cmp (fixed_ops m f) x y).
Proof.
  intros m f Hf x y Vx Vy. split.
  - intros V. exists (x - y). assert (E : o_sub (fixed_ops m f) x y = Ok (x - y)) by (cbn [o_sub fixed_ops]; unfold fx_sub, fx_fin; apply fin_ok; exact V). split; [exact E|]. apply (diff_fixed m f Hf x y _ Vx Vy E). exact V.
  - intros (d & E & C). destruct m; [apply (diff_fixed Debug f Hf x y d Vx Vy E); reflexivity|].
    destruct (in_rangeb (fity f) (x - y)) eqn:B; [apply in_rangeb_spec; exact B|]. destruct (diff_wraps f Hf x y Vx Vy) as (d' & E' & N).
    + intros V. apply in_rangeb_spec in V. congruence.
    + rewrite E in E'. injection E' as <-. congruence.
Qed.
Theorem diff_wrong : forall f, supported f = true -> exists x y d, fvalid f x /\ fvalid f y /\ o_sub (fixed_ops Release f) x y = Ok d /\
  o_cmp (fixed_ops Release f) x y <> o_cmp (fixed_ops Release f) d 0.
Proof.
  intros f Hf. assert (W : 1 <= iwidth (fity f)) by (apply fwf_width, supported_fwf; exact Hf). pose proof (zero_in_range (fity f) W) as Z0. pose proof (in_range_width (fity f) W) as P.
  assert (P1 : 1 <= imax (fity f)).
  { pose proof (supported_fwf f Hf) as [F0 F1]. assert (2 <= 2 ^ (fwidth f - 1)) by (replace 2 with (2 ^ 1) at 1 by reflexivity; apply Z.pow_le_mono_r; lia).
    assert (2 <= 2 ^ fwidth f) by (replace 2 with (2 ^ 1) at 1 by reflexivity; apply Z.pow_le_mono_r; lia). unfold imax, fity. cbn [isigned iwidth]. destruct (fsigned f); lia. }
  unfold fvalid, in_range in *.
  destruct (diff_wraps f Hf (imin (fity f)) (imax (fity f))) as (d & E & C); unfold fvalid, in_range; try lia.
  exists (imin (fity f)), (imax (fity f)), d. split; [lia|]. split; [lia|]. auto.
Qed.
Theorem products_fixed : forall f, supported f = true -> forall a b c d x y, o_mul (fixed_ops Debug f) a b = Ok x -> o_mul (fixed_ops Debug f) c d = Ok y ->
  (o_cmp (fixed_ops Debug f) x y = Some Lt -> a * b < c * d) /\ (o_cmp (fixed_ops Debug f) x y = Some Gt -> c * d < a * b) /\ (a * b = c * d -> o_cmp (fixed_ops Debug f) x y = Some Eq).
Proof.
  intros f Hf a b c d x y Ex Ey. cbn [o_mul o_cmp fixed_ops] in *. unfold fx_mul, fx_fin, fx_cmp in *. apply fin_debug_inv in Ex as [-> _]. apply fin_debug_inv in Ey as [-> _].
  pose proof (fone_pos f (proj1 (supported_fwf f Hf))) as O. split; [|split]; intros H.
  - injection H as H. rewrite Z.compare_lt_iff in H. apply Z.nle_gt. intros L. apply (Z.div_le_mono _ _ _ O) in L. lia.
  - injection H as H. rewrite Z.compare_gt_iff in H. apply Z.nle_gt. intros L. apply (Z.div_le_mono _ _ _ O) in L. lia.
  - rewrite H, Z.compare_refl. reflexivity.
Qed.
Theorem inf_minus_inf : forall p e {Hp : Prec_gt_0 p} {He : Prec_lt_emax p e} s, let x : binary_float p e := B754_infinity s in
  exists d z, o_sub float_ops x x = Ok d /\ mixed_zero float_zero = Ok z /\ o_cmp float_ops x x = Some Eq /\ o_cmp float_ops d z = None.
Proof. intros p e Hp He s. cbv zeta. exists B754_nan, (B754_zero false). destruct s; repeat split. Qed.

(** the same for the primitive integers *)
Theorem diff_int_iff : forall m t, 1 <= iwidth t -> forall x y, in_range t x -> in_range t y ->
  (in_range t (x - y) <-> exists d, o_sub (int_ops m t) x y = Ok d /\ o_cmp (int_ops m t) d 0 = o_cmp (int_ops m t) x y).
Proof.
  intros m t W x y Vx Vy. cbn [o_sub o_cmp int_ops]. split.
  - intros V. exists (x - y). split; [apply fin_ok; exact V|]. f_equal. rewrite <- Z.compare_sub. reflexivity.
  - intros (d & E & C). destruct m; [apply fin_debug_inv in E as [-> R]; exact R|]. rewrite fin_release in E by exact W. injection E as <-. injection C as C.
    destruct (in_rangeb t (x - y)) eqn:B; [apply in_rangeb_spec; exact B|]. assert (N : ~ in_range t (x - y)) by (intros V; apply in_rangeb_spec in V; congruence).
    pose proof (wrap_range t W (x - y)) as R. destruct (wrap_congr t W (x - y)) as [k Hk]. unfold in_range in *.
    assert (P : imax t - imin t + 1 = 2 ^ iwidth t). { unfold imax, imin. destruct (isigned t); [|lia]. replace (2 ^ iwidth t) with (2 * 2 ^ (iwidth t - 1)) by (rewrite <- Z.pow_succ_r by lia; f_equal; lia). lia. }
    set (p := 2 ^ iwidth t) in *. set (w := wrap t (x - y)) in *. pose proof (zero_in_range t W) as Z0. unfold in_range in Z0. assert (K : k = 0 \/ k <= -1 \/ 1 <= k) by lia.
    destruct K as [->|[K|K]]; [lia| |]; destruct (Z.compare_spec x y), (Z.compare_spec w 0); try discriminate; nia.
Qed.
Theorem products_int : forall t a b c d x y, o_mul (int_ops Debug t) a b = Ok x -> o_mul (int_ops Debug t) c d = Ok y -> o_cmp (int_ops Debug t) x y = Some (a * b ?= c * d).
Proof. intros t a b c d x y Ex Ey. cbn [o_mul o_cmp int_ops] in *. apply fin_debug_inv in Ex as [-> _]. apply fin_debug_inv in Ey as [-> _]. reflexivity. Qed.
