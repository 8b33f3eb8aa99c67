(** * Proofs: the polynomial sine up to three quarters of a turn. *)

From Coq Require Import ZArith Reals Lia Lra List.
From Flocq Require Import Core.Core IEEE754.BinarySingleNaN.
From Verif Require Import Base FloatBase Literals Traits Trig IntImpl FixedPrim FixedImpl FloatImpl Spec
  Lemmas ScalarProofs ScalarProofs2 WrapProofs FloatLemmas FloatProofs FloatWrap WrapProofs2 SqrtReal FloatKit NiirfFloat SinReal SinFixed SinFloat TrigProofs.
Open Scope Z_scope.

Section Fixed.
Variables (m : mode) (f : fty).
Hypothesis W : fwf f.
Hypothesis S : fsigned f = true.
Hypothesis I20 : ffrac f <= fwidth f - 20.
Hypothesis F44 : ffrac f <= 44.
Notation q := (fone f).
Notation p := (pi_bits f).
Notation O := (fixed_ops m f).
Notation the_sin := (sin O (fixed_signed m f) (fixed_pi m f) (fixed_powi m f)).

Lemma wide_fold : forall x, Z.abs x <= 3 * (p / 2) -> Z.abs (zfold p x) <= p / 2.
Proof using W.
  intros x H. pose proof (half_pi_range f). pose proof (pi_bits_bounds f W). pose proof (fone_pos f (proj1 W)). unfold zfold.
  assert (1 <= p / 2) by (apply Z.div_le_lower_bound; lia).
  destruct (Z.ltb_spec x (- (p / 2))); [lia|]. destruct (Z.ltb_spec (p / 2) x); lia.
Qed.
Lemma wide_head : forall x, Z.abs x <= 3 * (p / 2) -> sin_head m f x = Ok (zfold p x).
Proof using W S.
  intros x H. unfold sin_head. pose proof (half_pi_range f) as HR. pose proof (pi_bits_bounds f W) as B. pose proof (fone_pos f (proj1 W)).
  pose proof (fone_le_max f W) as M. cbn [o_neg fixed_signed o_add o_sub fixed_ops]. unfold fx_neg.
  assert (V : forall z, Z.abs z <= p -> fx_fin m f z = Ok z) by (intros; apply fx_fin_ok; apply fvalid_iff; rewrite S; lia).
  rewrite V by lia. cbn [bind]. unfold o_lt. cbn [o_cmp fixed_ops]. unfold fx_cmp. unfold zfold, Z.ltb.
  assert (H1 : 1 <= p / 2) by lia. set (h := p / 2) in *. clearbody h.
  destruct (Z.compare_spec x (- h)) as [C1|C1|C1].
  - destruct (Z.compare_spec h x) as [C2|C2|C2]; auto. lia.
  - unfold fx_add, fx_sub. repeat (rewrite V by lia; cbn [bind]). auto.
  - destruct (Z.compare_spec h x) as [C2|C2|C2]; auto. unfold fx_sub. rewrite V by lia. cbn [bind]. rewrite V by lia. auto.
Qed.
(** the sine depends on its argument through the folded argument alone *)
Lemma wide_bits : forall x, Z.abs x <= 3 * (p / 2) -> the_sin x = Ok (zpoly q (zfold p x)).
Proof using W S I20.
  intros x H. pose proof (wide_fold x H) as Z1. pose proof (half_pi_range f) as HR.
  assert (E : zfold p (zfold p x) = zfold p x).
  { unfold zfold at 1. destruct (Z.ltb_spec (zfold p x) (- (p / 2))); [lia|]. destruct (Z.ltb_spec (p / 2) (zfold p x)); [lia|auto]. }
  rewrite <- E at 1. rewrite <- (sin_bits m f W S I20) by lia. rewrite !(sin_head_eq m f W S), wide_head by auto.
  rewrite sin_head_ok by (auto; lia). rewrite E. reflexivity.
Qed.
Lemma wide_acc : forall x, Z.abs x <= 3 * (p / 2) -> exists r, the_sin x = Ok r /\
  (Rabs (fval f r - Rtrigo_def.sin (fval f x)) <= 362 / 100000000 + 405 / 100 * ulp f)%R.
Proof using W S I20 F44.
  intros x H. exists (zpoly q (zfold p x)). split; [apply wide_bits; auto|].
  rewrite !fval_eq, ulp_eq by apply W. pose proof (q_le f W F44) as Q. pose proof (fold_sin f W F44 x) as FS.
  pose proof (wide_fold x H) as Z1. pose proof (half_pi_small f W) as HP.
  set (z := zfold p x) in *. assert (Z2 : 10000 * Z.abs z <= 15711 * q) by lia.
  assert (Q0 : 0 < q) by (apply fone_pos; apply W).
  pose proof (zpoly_err q z Q0 Z2) as E. pose proof (taylor _ (v_bound q z Q0 Z2)) as T.
  assert (U : (0 < / IZR q)%R) by (apply Rinv_0_lt_compat; lra).
  assert (E' : (Rabs (IZR (zpoly q z) / IZR q - P9 (IZR z / IZR q)) <= 252 / 100 * / IZR q)%R).
  { replace (IZR (zpoly q z) / IZR q - P9 (IZR z / IZR q))%R with ((IZR (zpoly q z) - IZR q * P9 (IZR z / IZR q)) * / IZR q)%R by (field; lra).
    rewrite Rabs_mult, (Rabs_pos_eq (/ IZR q)) by lra. apply Rmult_le_compat_r; lra. }
  apply Rabs_le_inv in FS, T, E'. apply Rabs_le. lra.
Qed.
End Fixed.

Lemma wide_fixed : forall m f, supported f = true -> fsigned f = true -> ffrac f <= fwidth f - 20 ->
  exists p, mixed_pi (fixed_pi m f) = Ok p /\
  forall x, (Rabs (fval f x) <= 3 / 2 * (fval f p - ulp f))%R -> exists r,
    sin (fixed_ops m f) (fixed_signed m f) (fixed_pi m f) (fixed_powi m f) x = Ok r /\
    (Rabs (fval f r - Rtrigo_def.sin (fval f x)) <= 362 / 100000000 + 405 / 100 * ulp f)%R.
Proof.
  intros m f Hf S I. pose proof (supported_fwf f Hf) as W. pose proof (supported_inv f Hf) as HI.
  exists (pi_bits f). split; [apply fixed_pi_eq; auto|]. intros x H. apply wide_acc; auto; try lia.
  rewrite fval_abs, !fval_eq, ulp_eq in H by apply W. pose proof (fone_IZR_pos f (proj1 W)) as P.
  assert (H' : (IZR (Z.abs x) <= 3 / 2 * (IZR (pi_bits f) - 1))%R).
  { apply Rmult_le_reg_r with (/ IZR (fone f))%R; [apply Rinv_0_lt_compat; auto|]. unfold Rdiv in *. lra. }
  assert (2 * Z.abs x <= 3 * (pi_bits f - 1)) by (apply le_IZR; rewrite !mult_IZR, minus_IZR; lra).
  pose proof (half_pi_range f). lia.
Qed.

Section Flt.
Context {prec emax : Z} {Hp : Prec_gt_0 prec} {He : Prec_lt_emax prec emax}.
Notation float := (binary_float prec emax).
Notation B2R := (@B2R prec emax).
Notation fin x := (is_finite x = true).
Notation "a ++. b" := (Bplus mode_NE a b) (at level 50, left associativity).
Notation "a --. b" := (Bminus mode_NE a b) (at level 50, left associativity).
Hypothesis P24 : 24 <= prec <= 100.
Hypothesis E10 : prec + 20 <= emax <= 2000.
Hypothesis Fh : fin (@fhalf prec emax _ _).
Hypothesis Vh : (Rabs (B2R fhalf - PI / 2) <= 5 / 100000000)%R.
Lemma wide_ffold : forall x : float, fin x -> (Rabs (B2R x) <= 3 * B2R fhalf)%R ->
  fin (ffold fhalf x) /\ (Rabs (B2R (ffold fhalf x)) <= 15711 / 10000)%R /\
  (Rabs (Rtrigo_def.sin (B2R (ffold fhalf x)) - Rtrigo_def.sin (B2R x)) <= 40 / 100000000)%R.
Proof using P24 E10 Hp He Fh Vh.
  intros x F H. pose proof pi_bounds as PB. set (h := fhalf) in *. clearbody h.
  apply Rabs_le_inv in H, Vh. unfold ffold.
  assert (Foh : fin (Bopp h)) by (rewrite is_finite_Bopp; auto).
  assert (E0 : forall y : float, (Rabs (B2R y - B2R y) <= 0)%R) by (intros; rewrite Rminus_diag_eq, Rabs_R0 by auto; lra).
  destruct (ltb_cmp x (Bopp h) F Foh) as [[-> C1]|[-> C1]]; rewrite B2R_Bopp in C1.
  - destruct (fadd P24 E10 x h (B2R x) (B2R h) 0 0 (315/100) 4 (12/100000000) 2 F Fh) as [Fd Vd]; auto; try lia; try lra; [apply Rabs_le; lra|].
    destruct (fsub P24 E10 (Bopp h) (x ++. h) (- B2R h) (B2R x + B2R h) 0 (12/100000000) (16/10) 2 (18/100000000) 1 Foh Fd) as [Fr Vr]; auto; try lia; try lra.
    + rewrite B2R_Bopp, Rminus_diag_eq, Rabs_R0 by auto. lra.
    + apply Rabs_le. lra.
    + split; auto. set (r := B2R (Bopp h --. (x ++. h))) in *. apply Rabs_le_inv in Vr.
      split; [apply Rabs_le; lra|].
      replace (Rtrigo_def.sin (B2R x)) with (Rtrigo_def.sin (- PI - B2R x)).
      2:{ replace (- PI - B2R x)%R with (- (B2R x + PI))%R by ring. rewrite sin_neg, neg_sin. ring. }
      eapply Rle_trans; [apply sin_lipschitz|]. apply Rabs_le. lra.
  - destruct (ltb_cmp h x Fh F) as [[-> C2]|[-> C2]].
    + destruct (fsub P24 E10 x h (B2R x) (B2R h) 0 0 (315/100) 4 (12/100000000) 2 F Fh) as [Fd Vd]; auto; try lia; try lra; [apply Rabs_le; lra|].
      destruct (fsub P24 E10 h (x --. h) (B2R h) (B2R x - B2R h) 0 (12/100000000) (16/10) 2 (18/100000000) 1 Fh Fd) as [Fr Vr]; auto; try lia; try lra.
      * apply Rabs_le. lra.
      * split; auto. set (r := B2R (h --. (x --. h))) in *. apply Rabs_le_inv in Vr.
        split; [apply Rabs_le; lra|].
        replace (Rtrigo_def.sin (B2R x)) with (Rtrigo_def.sin (PI - B2R x)) by apply sin_PI_x.
        eapply Rle_trans; [apply sin_lipschitz|]. apply Rabs_le. lra.
    + split; auto. split; [apply Rabs_le; lra|]. rewrite Rminus_diag_eq, Rabs_R0 by auto. lra.
Qed.
Lemma wide_float : forall x : float, fin x -> (Rabs (B2R x) <= 3 * B2R fhalf)%R -> exists r,
  the_sin x = Ok r /\ fin r /\ (Rabs (B2R r - Rtrigo_def.sin (B2R x)) <= 5 / 1000000)%R.
Proof using P24 E10 Hp He Fh Vh.
  intros x F H. rewrite sin_float_eq. eexists. split; [reflexivity|].
  destruct (wide_ffold x F H) as [F1 [B1 S1]]. destruct (fpoly_acc P24 E10 _ F1 B1) as [F2 A2]. pose proof (taylor _ B1) as T.
  split; auto. apply Rabs_le_inv in S1, A2, T. apply Rabs_le. lra.
Qed.
End Flt.

Lemma wide_f32 : exists p : f32, mixed_pi float_pi = Ok p /\
  forall x : f32, is_finite x = true -> (Rabs (B2R x) <= 3 / 2 * B2R p)%R ->
    exists r, the_sin x = Ok r /\ is_finite r = true /\ (Rabs (B2R r - Rtrigo_def.sin (B2R x)) <= 5 / 1000000)%R.
Proof.
  pose proof pi_bounds as PB. destruct f32_half_val as [Vh Fh]. destruct f32_pi_val as [Vp Fp].
  assert (Vh' : (B2R (@fhalf 24 128 _ _) = IZR 13176795 * / IZR 8388608)%R) by exact Vh.
  assert (Vp' : (B2R f32_pi = IZR 13176795 * / IZR 4194304)%R) by exact Vp.
  assert (H : (Rabs (B2R (@fhalf 24 128 _ _) - PI / 2) <= 5 / 100000000)%R) by (rewrite Vh'; apply Rabs_le; lra).
  exists f32_pi. split; [reflexivity|]. intros x F X. apply wide_float; auto; try lia. rewrite Vh'. rewrite Vp' in X. lra.
Qed.
Lemma wide_f64 : exists p : f64, mixed_pi float_pi = Ok p /\
  forall x : f64, is_finite x = true -> (Rabs (B2R x) <= 3 / 2 * B2R p)%R ->
    exists r, the_sin x = Ok r /\ is_finite r = true /\ (Rabs (B2R r - Rtrigo_def.sin (B2R x)) <= 5 / 1000000)%R.
Proof.
  pose proof pi_bounds as PB. destruct f64_half_val as [Vh Fh]. destruct f64_pi_val as [Vp Fp].
  assert (Vh' : (B2R (@fhalf 53 1024 _ _) = IZR 7074237752028440 * / IZR 4503599627370496)%R) by exact Vh.
  assert (Vp' : (B2R f64_pi = IZR 7074237752028440 * / IZR 2251799813685248)%R) by exact Vp.
  assert (H : (Rabs (B2R (@fhalf 53 1024 _ _) - PI / 2) <= 5 / 100000000)%R) by (rewrite Vh'; apply Rabs_le; lra).
  exists f64_pi. split; [reflexivity|]. intros x F X. apply wide_float; auto; try lia. rewrite Vh'. rewrite Vp' in X. lra.
Qed.

(** ** further out *)
Lemma ten : (exists r : f32, the_sin (float_of_Z 24 128 10) = Ok r /\ B2R (float_of_Z 24 128 10) = 10%R /\ is_finite r = true /\ (B2R r < -30)%R) /\
  (exists r : f64, the_sin (float_of_Z 53 1024 10) = Ok r /\ B2R (float_of_Z 53 1024 10) = 10%R /\ is_finite r = true /\ (B2R r < -30)%R) /\
  sin (fixed_ops Debug (mkFty true 64 32)) (fixed_signed Debug (mkFty true 64 32)) (fixed_pi Debug (mkFty true 64 32)) (fixed_powi Debug (mkFty true 64 32)) (10 * 2 ^ 32) = Ok (- 130762733400) /\
  (fval (mkFty true 64 32) (- 130762733400) < -30)%R.
Proof.
  assert (A : map_res (@B2SF 24 128) (the_sin (float_of_Z 24 128 10)) = Ok (SpecFloat.S754_finite true 15962240 (-19))) by (vm_compute; reflexivity).
  assert (B : map_res (@B2SF 53 1024) (the_sin (float_of_Z 53 1024 10)) = Ok (SpecFloat.S754_finite true 8569666494599780 (-48))) by (vm_compute; reflexivity).
  assert (A10 : B2R (float_of_Z 24 128 10) = 10%R).
  { destruct (B2SF_value 24 128 (float_of_Z 24 128 10) false 10485760 (-20)) as [V _]; [vm_compute; reflexivity|]. rewrite V. unfold F2R. cbn [Fnum Fexp cond_Zopp]. change (bpow radix2 (-20)) with (/ 1048576)%R. clear; lra. }
  assert (B10 : B2R (float_of_Z 53 1024 10) = 10%R).
  { destruct (B2SF_value 53 1024 (float_of_Z 53 1024 10) false 5629499534213120 (-49)) as [V _]; [vm_compute; reflexivity|]. rewrite V. unfold F2R. cbn [Fnum Fexp cond_Zopp]. change (bpow radix2 (-49)) with (/ 562949953421312)%R. clear; lra. }
  assert (K : forall p e (y : res (binary_float p e)) m ex, map_res (@B2SF p e) y = Ok (SpecFloat.S754_finite true m ex) ->
    exists r, y = Ok r /\ is_finite r = true /\ B2R r = F2R (Float radix2 (Z.neg m) ex)).
  { clear. intros p e y m ex H. destruct y as [r| |]; try discriminate. exists r. split; [reflexivity|].
    destruct r as [s|s| |s mm ee bb]; try discriminate. injection H as -> -> ->. split; reflexivity. }
  split; [|split; [|split]].
  - destruct (K _ _ _ _ _ A) as (r & E & F & V). exists r. split; [exact E|]. split; [exact A10|]. split; [exact F|]. rewrite V. unfold F2R. cbn [Fnum Fexp].
    change (bpow radix2 (-19)) with (/ 524288)%R. clear; lra.
  - destruct (K _ _ _ _ _ B) as (r & E & F & V). exists r. split; [exact E|]. split; [exact B10|]. split; [exact F|]. rewrite V. unfold F2R. cbn [Fnum Fexp].
    change (bpow radix2 (-48)) with (/ 281474976710656)%R. clear; lra.
  - vm_compute. reflexivity.
  - rewrite fval_eq by (cbn; lia). unfold fone. cbn [ffrac]. change (2 ^ 32) with 4294967296. clear; lra.
Qed.
