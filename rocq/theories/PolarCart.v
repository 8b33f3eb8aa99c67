(** * Polar times Cartesian, and integers as floats (proofs for C58, C99, C121). *)

From Coq Require Import ZArith Reals Lia Lra List Bool.
From Flocq Require Import Core.Core IEEE754.BinarySingleNaN.
From Verif Require Import Base FloatBase Traits Trig IntImpl FixedPrim FixedImpl FloatImpl Complex Spec SpecAngle SpecPolar
  Lemmas ScalarProofs ScalarProofs2 ConvProofs AtanReal MagProofs ComplexProofs2 PhaseAcc PolarProofs PolarProofs2 PolarProofs3.
Open Scope Z_scope.

Lemma fadd_ok : forall m f a b, fwf f -> fsigned f = true -> (Rabs (fval f a + fval f b) <= fval f (fmax f))%R -> fx_add m f a b = Ok (a + b).
Proof.
  intros m f a b W S H. unfold fx_add. apply fx_fin_ok. apply fvalid_iff. rewrite S. rewrite <- fval_add in H. apply Rabs_le_inv in H.
  pose proof (fmax_signed f S) as E. assert (N : (- fval f (fmax f) = fval f (- fmax f))%R) by (unfold fval; rewrite opp_IZR; ring).
  rewrite N in H. destruct H as [L U]. apply PhaseAcc.fval_le in L; [|apply W]. apply PhaseAcc.fval_le in U; [|apply W]. lia.
Qed.

Lemma pmul_cart : forall m f, supported f = true -> fsigned f = true -> 2 <= ffrac f <= fwidth f - 4 ->
  forall A e p z th, accurate_atan2_at f e A (im z) (re z) -> cvalid (fity f) z -> is_angle (fval f (im z)) (fval f (re z)) th ->
  let rho := sqrt (fval f (re z) * fval f (re z) + fval f (im z) * fval f (im z)) in
  let me := ((/ 1000 + 5 * ulp f) * rho + 3 * ulp f + sqrt (2 * ulp f))%R in
  (rho * rho <= fval f (fmax f))%R -> (Rabs (fval f (mag p)) * (rho + me) <= fval f (fmax f))%R ->
  (Rabs (fval f (ang p) + th) + e <= fval f (fmax f))%R ->
  exists q, returns (fun fuel => polar_mul_cartesian (fixed_ops m f) (fixed_sqrt m f fuel) (fixed_powi m f) A p z) q /\
  (Rabs (fval f (mag q) - fval f (mag p) * rho) <= Rabs (fval f (mag p)) * me + ulp f)%R /\
  (q = mkP 0 0 \/ (Rabs (fval f (ang q) - (fval f (ang p) + th)) <= e)%R).
Proof.
  intros m f Hf S F A e p z th HA [Vr Vi] H rho me N B1 B2. pose proof (supported_fwf f Hf) as W.
  assert (U : (0 < ulp f)%R) by (unfold ulp; apply bpow_gt_0).
  destruct (HA _ H) as [a [E [Va Ha]]].
  assert (NN : (0 <= fval f (re z) * fval f (re z) + fval f (im z) * fval f (im z))%R) by (pose proof (Rle_0_sqr (fval f (re z))); pose proof (Rle_0_sqr (fval f (im z))); unfold Rsqr in *; lra).
  destruct (fixed_mag_acc m f z Hf S F) as [r [[n0 Hr] Ar]].
  { rewrite <- (sqrt_sqrt _ NN). exact N. }
  fold rho in Ar. fold me in Ar. set (g := fval f (mag p)) in *.
  assert (R0 : (0 <= rho)%R) by apply sqrt_pos. assert (G0 : (0 <= Rabs g)%R) by apply Rabs_pos.
  assert (AR : (Rabs (g * fval f r - g * rho) <= Rabs g * me)%R).
  { rewrite <- Rmult_minus_distr_l, Rabs_mult. apply Rmult_le_compat_l; auto. }
  assert (TP : forall fuel, (n0 <= fuel)%nat -> ops_to_polar (fixed_ops m f) (fixed_sqrt m f fuel) (fixed_powi m f) A z = Ok (mkP r a)).
  { intros fuel Hn. unfold ops_to_polar. change (ops_abs (fixed_ops m f) (fixed_sqrt m f fuel) (fixed_powi m f) z) with (fixed_mag m f fuel z).
    rewrite (Hr fuel Hn). cbn [bind]. rewrite E. reflexivity. }
  assert (Z : o_of_i32 (fixed_ops m f) 0 = Ok 0).
  { cbn [o_of_i32 fixed_ops]. unfold fx_of_int. rewrite Z.mul_0_l. apply fx_fin_ok. apply fvalid_iff. rewrite S. pose proof (fone_pos f (proj1 W)). pose proof (fone_le_max f W). lia. }
  destruct (Z.eq_dec (mag p) 0) as [G|G]; [|destruct (Z.eq_dec r 0) as [Q|Q]].
  - exists (mkP 0 0). split; [|split; [|auto]].
    + exists n0. intros fuel Hn. unfold polar_mul_cartesian. rewrite (TP fuel Hn). cbn [bind]. unfold ops_mul_polar. rewrite Z. cbn [bind mag]. rewrite G. reflexivity.
    + cbn [mag]. assert (G1 : g = 0%R) by (unfold g; rewrite G; unfold fval; ring). rewrite G1. replace (fval f 0) with 0%R by (unfold fval; ring).
      rewrite !Rmult_0_l, Rminus_0_r, Rabs_R0. lra.
  - exists (mkP 0 0). split; [|split; [|auto]].
    + exists n0. intros fuel Hn. unfold polar_mul_cartesian. rewrite (TP fuel Hn). cbn [bind]. unfold ops_mul_polar. rewrite Z. cbn [bind mag]. rewrite Q.
      destruct (o_eq (fixed_ops m f) (mag p) 0); reflexivity.
    + cbn [mag]. rewrite Q in AR. replace (fval f 0) with 0%R in * by (unfold fval; ring). rewrite Rmult_0_r in AR. lra.
  - destruct (fmul_ok m f (mag p) r W S) as [M1 M2].
    { fold g. rewrite Rabs_mult. eapply Rle_trans; [apply Rmult_le_compat_l; [exact G0|]|exact B1].
      apply Rabs_le_inv in Ar. apply Rabs_le. lra. }
    assert (Ad : fx_add m f (ang p) a = Ok (ang p + a)).
    { apply fadd_ok; auto. replace (fval f (ang p) + fval f a)%R with ((fval f (ang p) + th) + (fval f a - th))%R by ring.
      eapply Rle_trans; [apply Rabs_triang|]. lra. }
    exists (mkP (mag p * r / fone f) (ang p + a)). split; [|split; [|right]].
    + exists n0. intros fuel Hn. unfold polar_mul_cartesian. rewrite (TP fuel Hn). cbn [bind]. unfold ops_mul_polar. rewrite Z. cbn [bind mag ang].
      unfold o_eq. cbn [o_cmp fixed_ops]. unfold fx_cmp. destruct (Z.compare_spec (mag p) 0); [contradiction| |]; cbn [bind]; rewrite ?Z; cbn [bind];
      (destruct (Z.compare_spec r 0); [contradiction| |]; cbn [bind o_mul o_add fixed_ops]; rewrite M1; cbn [bind]; rewrite Ad; reflexivity).
    + cbn [mag]. fold g in M2. replace (fval f (mag p * r / fone f) - g * rho)%R with ((fval f (mag p * r / fone f) - g * fval f r) + (g * fval f r - g * rho))%R by ring.
      eapply Rle_trans; [apply Rabs_triang|]. lra.
    + cbn [ang]. rewrite fval_add. replace (fval f (ang p) + fval f a - (fval f (ang p) + th))%R with (fval f a - th)%R by ring. exact Ha.
Qed.

(** ** integers as floats *)
Lemma int_to_float : forall p e {Hp : Prec_gt_0 p} {He : Prec_lt_emax p e} z, let x := float_of_Z p e z in
  let v := round radix2 (SpecFloat.fexp p e) ZnearestE (IZR z) in
  ((Rabs v < bpow radix2 e)%R -> is_finite x = true /\ B2R x = v) /\ ((bpow radix2 e <= Rabs v)%R -> x = B754_infinity (z <? 0)).
Proof.
  intros p e Hp He z x v. pose proof (binary_normalize_correct p e Hp He mode_NE z 0 false) as K. cbv zeta in K.
  change (binary_normalize p e Hp He mode_NE z 0 false) with x in K.
  assert (E : F2R (Float radix2 z 0) = IZR z) by (unfold F2R; cbn; ring). rewrite E in K. cbn [round_mode] in K. fold v in K.
  split; intros B.
  - rewrite Rlt_bool_true in K by exact B. destruct K as (K1 & K2 & _). auto.
  - rewrite Rlt_bool_false in K by exact B. assert (SF : B2SF x = SpecFloat.S754_infinity (z <? 0)).
    { rewrite K. unfold binary_overflow. cbn. f_equal. destruct (Rlt_bool_spec (IZR z) 0) as [L|L]; destruct (Z.ltb_spec z 0) as [M|M]; auto; [apply lt_IZR in L|apply le_IZR in L]; lia. }
    apply B2SF_inj. exact SF.
Qed.

Lemma c58_int_side : forall t, In t int_types ->
  (forall z, mixed_to_num (int_conv_f32 t) z = mixed_from_num (float_conv_int (prec := 24) (emax := 128) t) z) /\
  (forall z, mixed_to_num (int_conv_f64 t) z = mixed_from_num (float_conv_int (prec := 53) (emax := 1024) t) z) /\
  (forall x, mixed_from_num (int_conv_f32 t) x = mixed_to_num (float_conv_int t) x) /\
  (forall x, mixed_from_num (int_conv_f64 t) x = mixed_to_num (float_conv_int t) x).
Proof. intros. repeat split. Qed.

Lemma c58_int_rounds : forall p e {Hp : Prec_gt_0 p} {He : Prec_lt_emax p e} t z, In t int_types -> exists x : binary_float p e,
  mixed_from_num (float_conv_int t) z = Ok x /\
  let v := round radix2 (SpecFloat.fexp p e) ZnearestE (IZR z) in
  ((Rabs v < bpow radix2 e)%R -> is_finite x = true /\ B2R x = v) /\ ((bpow radix2 e <= Rabs v)%R -> x = B754_infinity (z <? 0)).
Proof. intros p e Hp He t z _. exists (float_of_Z p e z). split; [reflexivity|]. apply int_to_float. Qed.
