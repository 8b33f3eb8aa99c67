(** * Complex powers through polar form; multiplication by a polar number; conjugation of polar numbers. *)

From Coq Require Import ZArith Nnat Reals Lia Lra Psatz List Bool.
From Flocq Require Import Core.Core IEEE754.BinarySingleNaN.
From Verif Require Import Base FloatBase Literals Traits Trig IntImpl FixedPrim FixedImpl FloatImpl Complex Spec SpecAngle SpecPolar
  Lemmas ScalarProofs ScalarProofs2 WrapProofs WrapProofs2 SinReal SinFixed TrigProofs MagProofs ComplexProofs2 ComplexProofs3 NiirfFixed4 PolarProofs.
Open Scope Z_scope.

(** ** de Moivre *)
Lemma de_moivre : forall rho th n, 
  (cpow (rho * Rtrigo_def.cos th) (rho * Rtrigo_def.sin th) n = (rho ^ n * Rtrigo_def.cos (INR n * th), rho ^ n * Rtrigo_def.sin (INR n * th)))%R.
Proof.
  intros rho th. induction n as [|n IH].
  - cbn [cpow pow INR]. rewrite Rmult_0_l, cos_0, sin_0. f_equal; ring.
  - cbn [cpow]. rewrite IH. replace (INR (Datatypes.S n) * th)%R with (th + INR n * th)%R by (rewrite S_INR; ring).
    rewrite cos_plus, sin_plus. cbn [pow]. f_equal; ring.
Qed.

Lemma pow_diff : forall s r b e n, (Rabs s <= b -> 0 <= r <= b -> 1 <= b -> Rabs (s - r) <= e ->
  Rabs (s ^ n - r ^ n) <= INR n * b ^ n * e)%R.
Proof.
  intros s r b e n Hs Hr Hb He. assert (E0 : (0 <= e)%R) by (eapply Rle_trans; [apply Rabs_pos|exact He]).
  assert (P : forall k, (1 <= b ^ k)%R) by (intros; apply pow_R1_Rle; auto).
  assert (Sp : forall k, (Rabs (s ^ k) <= b ^ k)%R) by (intros; rewrite <- RPow_abs; apply pow_incr; split; auto using Rabs_pos).
  induction n as [|n IH].
  - cbn [pow INR]. replace (1 - 1)%R with 0%R by ring. rewrite Rabs_R0. lra.
  - cbn [pow]. replace (s * s ^ n - r * r ^ n)%R with (s ^ n * (s - r) + r * (s ^ n - r ^ n))%R by ring.
    eapply Rle_trans; [apply Rabs_triang|]. rewrite !Rabs_mult, (Rabs_pos_eq r) by lra. rewrite S_INR.
    assert (A : (Rabs (s ^ n) * Rabs (s - r) <= b * b ^ n * e)%R).
    { apply Rmult_le_compat; auto using Rabs_pos. eapply Rle_trans; [apply Sp|]. specialize (P n).
      assert (1 * b ^ n <= b * b ^ n)%R by (apply Rmult_le_compat_r; lra). lra. }
    assert (B : (r * Rabs (s ^ n - r ^ n) <= b * (INR n * b ^ n * e))%R) by (apply Rmult_le_compat; auto using Rabs_pos; lra).
    replace ((INR n + 1) * (b * b ^ n) * e)%R with (b * b ^ n * e + b * (INR n * b ^ n * e))%R by ring. lra.
Qed.

Section Pow.
Variable m : mode.
Variable f : fty.
Hypothesis W : fwf f.
Hypothesis S : fsigned f = true.

Lemma fpow_acc : forall g b n, (1 <= b)%R -> (b ^ n * (1 + INR n * ulp f) <= fval f (fmax f))%R -> (Rabs (fval f g) <= b)%R ->
  exists r, powi (fixed_ops m f) g (N.of_nat n) = Ok r /\ (Rabs (fval f r - fval f g ^ n) <= INR n * b ^ n * ulp f)%R.
Proof using W S.
  intros g b n Hb Hn Hg.
  assert (U : (0 < ulp f)%R) by (unfold ulp; apply bpow_gt_0).
  assert (P : forall k, (1 <= b ^ k)%R) by (intros; apply pow_R1_Rle; auto).
  assert (Sp : forall k, (Rabs (fval f g ^ k) <= b ^ k)%R) by (intros; rewrite <- RPow_abs; apply pow_incr; split; auto using Rabs_pos).
  assert (Mono : forall k, (k <= n)%nat -> (b ^ k * (1 + INR k * ulp f) <= fval f (fmax f))%R).
  { intros k K. eapply Rle_trans; [|exact Hn]. pose proof (pos_INR k).
    apply Rmult_le_compat; [specialize (P k); lra | pose proof (Rmult_le_pos _ _ H (Rlt_le _ _ U)); lra | apply Rle_pow; auto |].
    apply le_INR in K. pose proof (Rmult_le_compat_r _ _ _ (Rlt_le _ _ U) K). lra. }
  assert (G : forall k, (k <= n)%nat -> exists r, powi (fixed_ops m f) g (N.of_nat k) = Ok r /\ (Rabs (fval f r - fval f g ^ k) <= INR k * b ^ k * ulp f)%R).
  { induction k as [|k IH]; intros K.
    - exists (fone f). split; [apply powi_0; auto|]. cbn [pow INR]. rewrite fval_eq by apply W. pose proof (fone_IZR_pos f (proj1 W)).
      unfold Rdiv. rewrite Rinv_r by lra. replace (1 - 1)%R with 0%R by ring. rewrite Rabs_R0. lra.
    - destruct k as [|k].
      + exists g. split; [reflexivity|]. replace (fval f g - fval f g ^ 1)%R with 0%R by (cbn [pow]; ring). rewrite Rabs_R0.
        pose proof (P 1%nat). apply Rmult_le_pos; [apply Rmult_le_pos; [apply pos_INR|lra]|lra].
      + destruct (IH ltac:(lia)) as [r [E A]]. set (k1 := Datatypes.S k) in *.
        assert (I1 : (0 <= INR k1)%R) by apply pos_INR.
        assert (R1 : (Rabs (fval f r) <= b ^ k1 * (1 + INR k1 * ulp f))%R).
        { replace (fval f r) with (fval f g ^ k1 + (fval f r - fval f g ^ k1))%R by ring. eapply Rle_trans; [apply Rabs_triang|].
          specialize (Sp k1). lra. }
        assert (R2 : (Rabs (fval f r * fval f g) <= b ^ Datatypes.S k1 * (1 + INR k1 * ulp f))%R).
        { rewrite Rabs_mult. replace (b ^ Datatypes.S k1 * (1 + INR k1 * ulp f))%R with (b ^ k1 * (1 + INR k1 * ulp f) * b)%R by (cbn [pow]; ring).
          apply Rmult_le_compat; auto using Rabs_pos. }
        destruct (fmul_ok m f r g W S) as [E2 A2].
        { eapply Rle_trans; [exact R2|]. eapply Rle_trans; [|apply (Mono _ K)]. rewrite S_INR. specialize (P (Datatypes.S k1)).
          apply Rmult_le_compat_l; lra. }
        exists (r * g / fone f). split.
        { unfold k1. rewrite !Nat2N.inj_succ. rewrite powi_succ. rewrite <- Nat2N.inj_succ. fold k1. rewrite E. exact E2. }
        replace (fval f (r * g / fone f)%Z - fval f g ^ Datatypes.S k1)%R with
          ((fval f (r * g / fone f)%Z - fval f r * fval f g) + (fval f r - fval f g ^ k1) * fval f g)%R by (cbn [pow]; ring).
        eapply Rle_trans; [apply Rabs_triang|]. rewrite Rabs_mult.
        assert (X : (Rabs (fval f r - fval f g ^ k1) * Rabs (fval f g) <= INR k1 * b ^ k1 * ulp f * b)%R) by (apply Rmult_le_compat; auto using Rabs_pos).
        rewrite S_INR. replace ((INR k1 + 1) * b ^ Datatypes.S k1 * ulp f)%R with (INR k1 * b ^ k1 * ulp f * b + b ^ Datatypes.S k1 * ulp f)%R by (cbn [pow]; ring).
        assert (Y : (1 * ulp f <= b ^ Datatypes.S k1 * ulp f)%R) by (apply Rmult_le_compat_r; [lra|apply P]). lra. }
  exact (G n (le_n n)).
Qed.
End Pow.

Lemma powi_acc : forall m f, supported f = true -> fsigned f = true -> 2 <= ffrac f <= fwidth f - 4 ->
  forall Sn A z th a e d n b,
  let rho := sqrt (fval f (re z) * fval f (re z) + fval f (im z) * fval f (im z)) in
  is_angle (fval f (im z)) (fval f (re z)) th -> mixed_atan2 A (im z) (re z) = Ok a -> (Rabs (fval f a - th) <= e)%R ->
  accurate_sincos f (INR n * Rabs (fval f a)) d Sn ->
  Z.of_nat n < 2 ^ 31 ->
  (rho * rho <= fval f (fmax f) -> 1 <= b -> rho + mag_err f rho <= b ->
   b ^ n * (1 + INR n * ulp f) * (1 + d) <= fval f (fmax f) ->
   INR n * Rmax 1 (Rabs (fval f a)) <= fval f (fmax f) ->
  exists w, returns (fun fuel => ops_powi (fixed_ops m f) (fixed_sqrt m f fuel) (fixed_powi m f) A Sn (fx_of_int m f) z (N.of_nat n)) w /\
   let B := b ^ n * ((1 + INR n * ulp f) * (d + INR n * e) + INR n * (mag_err f rho + ulp f)) + ulp f in
   Rabs (fval f (re w) - fst (cpow (fval f (re z)) (fval f (im z)) n)) <= B /\
   Rabs (fval f (im w) - snd (cpow (fval f (re z)) (fval f (im z)) n)) <= B)%R.
Proof.
  intros m f Hf S F Sn A z th a e d n b rho HA E He AS Hn N Hb Hb2 Bd Bphi.
  pose proof (supported_fwf f Hf) as W.
  assert (U : (0 < ulp f)%R) by (unfold ulp; apply bpow_gt_0).
  pose proof (pos_INR n) as In.
  (* the phase *)
  pose proof (Rmax_l 1 (Rabs (fval f a))) as M1. pose proof (Rmax_r 1 (Rabs (fval f a))) as M2.
  assert (Vmax : forall c, (Rabs (fval f c) <= fval f (fmax f))%R -> fvalid f c).
  { intros c Hc. rewrite fval_abs in Hc by apply W. apply fval_le in Hc; [|apply W]. rewrite fmax_signed in Hc by auto. apply fvalid_iff. rewrite S. lia. }
  assert (Pn : fx_of_int m f (Z.of_nat n) = Ok (Z.of_nat n * fone f)).
  { unfold fx_of_int. apply fx_fin_ok. apply Vmax. rewrite fval_eq by apply W. rewrite mult_IZR, <- INR_IZR_INZ. pose proof (fone_IZR_pos f (proj1 W)).
    unfold Rdiv. rewrite Rmult_assoc, Rinv_r, Rmult_1_r, Rabs_pos_eq by lra. eapply Rle_trans; [|exact Bphi].
    rewrite <- (Rmult_1_r (INR n)) at 1. apply Rmult_le_compat_l; auto. }
  set (phi := a * Z.of_nat n).
  assert (Fphi : (fval f phi = INR n * fval f a)%R) by (unfold phi, fval; rewrite mult_IZR, <- INR_IZR_INZ; ring).
  assert (Aphi : (Rabs (fval f phi) = INR n * Rabs (fval f a))%R) by (rewrite Fphi, Rabs_mult, (Rabs_pos_eq (INR n)) by auto; reflexivity).
  assert (Vphi : fvalid f phi).
  { apply Vmax. rewrite Aphi. eapply Rle_trans; [|exact Bphi]. apply Rmult_le_compat_l; auto. }
  assert (Ephi : fx_mul m f a (Z.of_nat n * fone f) = Ok phi).
  { unfold fx_mul. replace (a * (Z.of_nat n * fone f)) with (phi * fone f) by (unfold phi; ring).
    rewrite Z.div_mul by (pose proof (fone_pos f (proj1 W)); lia). apply fx_fin_ok; auto. }
  destruct (AS phi Vphi ltac:(lra)) as [s [c [Esc [As Ac]]]].
  assert (D0 : (0 <= d)%R) by (eapply Rle_trans; [apply Rabs_pos|exact As]).
  assert (E0 : (0 <= e)%R) by (eapply Rle_trans; [apply Rabs_pos|exact He]).
  (* the magnitude *)
  destruct (angle_radius _ _ _ HA) as [Xr Yr]. fold rho in Xr, Yr.
  destruct (fixed_mag_acc m f z Hf S F) as [mg [[n0 R] Em]].
  { unfold rho in N. rewrite sqrt_sqrt in N; [exact N|]. pose proof (Rle_0_sqr (fval f (re z))) as X1. pose proof (Rle_0_sqr (fval f (im z))) as X2. unfold Rsqr in *. lra. }
  fold rho in Em. fold (mag_err f rho) in Em.
  assert (R0 : (0 <= rho)%R) by apply sqrt_pos.
  assert (Q0 : (0 <= mag_err f rho)%R) by (eapply Rle_trans; [apply Rabs_pos|exact Em]).
  assert (Mb : (Rabs (fval f mg) <= b)%R) by (apply Rabs_le_inv in Em; apply Rabs_le; lra).
  pose proof (pow_R1_Rle b n Hb) as Pb.
  assert (T1 : (0 <= INR n * ulp f)%R) by (apply Rmult_le_pos; lra).
  assert (Bd1 : (b ^ n * (1 + INR n * ulp f) <= fval f (fmax f))%R).
  { eapply Rle_trans; [|exact Bd]. rewrite <- (Rmult_1_r (b ^ n * _)) at 1. apply Rmult_le_compat_l; [apply Rmult_le_pos|]; lra. }
  destruct (fpow_acc m f W S mg b n Hb Bd1 Mb) as [g [Eg Ag]].
  assert (Gb : (Rabs (fval f g) <= b ^ n * (1 + INR n * ulp f))%R).
  { replace (fval f g) with (fval f mg ^ n + (fval f g - fval f mg ^ n))%R by ring. eapply Rle_trans; [apply Rabs_triang|].
    assert (Rabs (fval f mg ^ n) <= b ^ n)%R by (rewrite <- RPow_abs; apply pow_incr; split; auto using Rabs_pos). lra. }
  pose proof (pow_diff (fval f mg) rho b (mag_err f rho) n Mb ltac:(lra) Hb Em) as PD.
  assert (Gd : (Rabs (fval f g - rho ^ n) <= b ^ n * (INR n * (mag_err f rho + ulp f)))%R).
  { replace (fval f g - rho ^ n)%R with ((fval f g - fval f mg ^ n) + (fval f mg ^ n - rho ^ n))%R by ring.
    eapply Rle_trans; [apply Rabs_triang|]. lra. }
  assert (Bd2 : (Rabs (fval f g) * (1 + d) <= fval f (fmax f))%R).
  { eapply Rle_trans; [|exact Bd]. apply Rmult_le_compat_r; lra. }
  destruct (scaled m f W S g c d _ (abs_cos _) Ac Bd2) as [E1 A1].
  destruct (scaled m f W S g s d _ (abs_sin _) As Bd2) as [E2 A2].
  exists (mkC (g * c / fone f) (g * s / fone f)). split.
  { exists n0. intros k Hk. specialize (R k Hk). unfold fixed_mag, cartesian_mag in R. unfold ops_powi. cbn [o_add o_mul fixed_ops] in *.
    destruct (mixed_powi (fixed_powi m f) (re z) 2) as [r2| |]; try discriminate. cbn [bind] in *.
    destruct (mixed_powi (fixed_powi m f) (im z) 2) as [i2| |]; try discriminate. cbn [bind] in *.
    destruct (fx_add m f r2 i2) as [t| |]; try discriminate. cbn [bind] in *. rewrite R. cbn [bind].
    assert (EN : mixed_powi (fixed_powi m f) mg (wrap i32 (Z.of_N (N.of_nat n))) = Ok g).
    { rewrite nat_N_Z. rewrite wrap_id; [|cbn; lia|unfold in_range, imin, imax; cbn [isigned iwidth i32]; lia].
      cbn [mixed_powi fixed_powi]. rewrite to_N_usize_nonneg by lia. replace (Z.to_N (Z.of_nat n)) with (N.of_nat n) by lia. exact Eg. }
    rewrite EN. cbn [bind]. rewrite E. cbn [bind]. rewrite nat_N_Z, Pn. cbn [bind]. rewrite Ephi. cbn [bind]. rewrite Esc. cbn [bind fst snd].
    rewrite E1. cbn [bind]. rewrite E2. reflexivity. }
  destruct (trig_err (fval f phi) (INR n * th) 0 (INR n * e)) as [Ts Tc].
  { replace (INR n * th + 2 * 0 * PI - fval f phi)%R with (INR n * - (fval f a - th))%R by (rewrite Fphi; ring).
    rewrite Rabs_mult, Rabs_Ropp, (Rabs_pos_eq (INR n)) by auto. apply Rmult_le_compat_l; auto. }
  cbn [re im]. clearbody rho. rewrite Xr, Yr, de_moivre. cbn [fst snd].
  pose proof (Rabs_pos (fval f g)) as G0.
  assert (Z1 : (Rabs (fval f g) * d + Rabs (fval f g) * (INR n * e) <= b ^ n * ((1 + INR n * ulp f) * (d + INR n * e)))%R).
  { rewrite <- Rmult_plus_distr_l. rewrite <- Rmult_assoc. apply Rmult_le_compat_r; auto. assert (0 <= INR n * e)%R by (apply Rmult_le_pos; lra). lra. }
  pose proof (abs_cos (INR n * th)) as C1. pose proof (abs_sin (INR n * th)) as C2.
  cbv zeta. split.
  - replace (fval f (g * c / fone f)%Z - rho ^ n * Rtrigo_def.cos (INR n * th))%R with
      ((fval f (g * c / fone f)%Z - fval f g * Rtrigo_def.cos (fval f phi)) +
       (- (fval f g * (Rtrigo_def.cos (INR n * th) - Rtrigo_def.cos (fval f phi))) + (fval f g - rho ^ n) * Rtrigo_def.cos (INR n * th)))%R by ring.
    eapply Rle_trans; [apply Rabs_triang|]. eapply Rle_trans; [apply Rplus_le_compat; [exact A1|apply Rabs_triang]|].
    rewrite Rabs_Ropp, !Rabs_mult. pose proof (Rmult_le_compat_l _ _ _ G0 Tc).
    assert (Rabs (fval f g - rho ^ n) * Rabs (Rtrigo_def.cos (INR n * th)) <= b ^ n * (INR n * (mag_err f rho + ulp f)) * 1)%R by (apply Rmult_le_compat; auto using Rabs_pos). lra.
  - replace (fval f (g * s / fone f)%Z - rho ^ n * Rtrigo_def.sin (INR n * th))%R with
      ((fval f (g * s / fone f)%Z - fval f g * Rtrigo_def.sin (fval f phi)) +
       (- (fval f g * (Rtrigo_def.sin (INR n * th) - Rtrigo_def.sin (fval f phi))) + (fval f g - rho ^ n) * Rtrigo_def.sin (INR n * th)))%R by ring.
    eapply Rle_trans; [apply Rabs_triang|]. eapply Rle_trans; [apply Rplus_le_compat; [exact A2|apply Rabs_triang]|].
    rewrite Rabs_Ropp, !Rabs_mult. pose proof (Rmult_le_compat_l _ _ _ G0 Ts).
    assert (Rabs (fval f g - rho ^ n) * Rabs (Rtrigo_def.sin (INR n * th)) <= b ^ n * (INR n * (mag_err f rho + ulp f)) * 1)%R by (apply Rmult_le_compat; auto using Rabs_pos). lra.
Qed.

(** ** the phase of a power is not reduced *)
Lemma powi_phase_over : forall f, supported f = true -> fsigned f = true -> 2 <= ffrac f <= fwidth f - 4 ->
  forall Sn A z a n, (fval f (re z) * fval f (re z) + fval f (im z) * fval f (im z) <= fval f (fmax f))%R ->
  mixed_atan2 A (im z) (re z) = Ok a -> (fval f (fmax f) + ulp f < IZR (Z.of_N n) * Rabs (fval f a))%R ->
  panics (fun fuel => ops_powi (fixed_ops Debug f) (fixed_sqrt Debug f fuel) (fixed_powi Debug f) A Sn (fx_of_int Debug f) z n) POverflow.
Proof.
  intros f Hf S F Sn A z a n N E H. pose proof (supported_fwf f Hf) as W.
  destruct (fixed_mag_acc Debug f z Hf S F N) as [mg [[n0 R] _]].
  exists n0. intros k Hk. specialize (R k Hk). unfold fixed_mag, cartesian_mag in R. unfold ops_powi. cbn [o_add o_mul fixed_ops] in *.
  destruct (mixed_powi (fixed_powi Debug f) (re z) 2) as [r2| |]; try discriminate. cbn [bind] in *.
  destruct (mixed_powi (fixed_powi Debug f) (im z) 2) as [i2| |]; try discriminate. cbn [bind] in *.
  destruct (fx_add Debug f r2 i2) as [t| |]; try discriminate. cbn [bind] in *. rewrite R. cbn [bind].
  apply bind_panics; [apply powi_ok_or|]. intros g _. rewrite E. cbn [bind].
  apply bind_panics; [apply fin_ok_or|]. intros pw Hpw. apply int_fits in Hpw. destruct Hpw as [-> _].
  assert (Over : fx_mul Debug f a (Z.of_N n * fone f) = Panic POverflow); [|rewrite Over; reflexivity].
  unfold fx_mul, fx_fin. apply fin_debug_over. replace (a * (Z.of_N n * fone f)) with (a * Z.of_N n * fone f) by ring.
  rewrite Z.div_mul by (pose proof (fone_pos f (proj1 W)); lia). intros V. change (fvalid f (a * Z.of_N n)) in V. apply fvalid_iff in V. rewrite S in V.
  assert (B : Z.abs (a * Z.of_N n) <= fmax f + 1) by (rewrite fmax_signed by auto; lia).
  apply (fval_le f) in B; [|apply W]. rewrite <- fval_abs in B by apply W.
  replace (fval f (a * Z.of_N n)) with (IZR (Z.of_N n) * fval f a)%R in B by (unfold fval; rewrite mult_IZR; ring).
  rewrite Rabs_mult, (Rabs_pos_eq (IZR (Z.of_N n))) in B by (apply IZR_le; lia).
  replace (fval f (fmax f + 1)) with (fval f (fmax f) + ulp f)%R in B by (unfold fval, ulp; rewrite plus_IZR; ring). lra.
Qed.

Lemma cpow_minus_one : forall n, cpow (-1) 0 n = ((-1) ^ n, 0)%R.
Proof. induction n as [|n IH]; [reflexivity|]. cbn [cpow]. rewrite IH. cbn [pow]. f_equal; ring. Qed.

Lemma powi_refuted : forall f, supported f = true -> fsigned f = true -> 2 <= ffrac f <= fwidth f - 4 ->
  forall Sn A a n, mixed_atan2 A 0 (- fone f) = Ok a -> (3 <= fval f a)%R -> (fval f (fmax f) + ulp f < 3 * INR n)%R ->
  cpow (fval f (- fone f)) (fval f 0) n = ((-1) ^ n, 0)%R /\
  panics (fun fuel => ops_powi (fixed_ops Debug f) (fixed_sqrt Debug f fuel) (fixed_powi Debug f) A Sn (fx_of_int Debug f) (mkC (- fone f) 0) (N.of_nat n)) POverflow.
Proof.
  intros f Hf S F Sn A a n E Ha Hn. pose proof (supported_fwf f Hf) as W. pose proof (fone_IZR_pos f (proj1 W)) as Q.
  assert (E1 : (fval f (- fone f) = -1)%R) by (rewrite fval_eq by apply W; rewrite opp_IZR; field; lra).
  assert (E0 : (fval f 0 = 0)%R) by (unfold fval; ring).
  split; [rewrite E1, E0; apply cpow_minus_one|].
  apply (powi_phase_over f Hf S F Sn A (mkC (- fone f) 0) a (N.of_nat n)); auto.
  - cbn [re im]. rewrite E1, E0. replace (-1 * -1 + 0 * 0)%R with 1%R by ring.
    replace 1%R with (fval f (fone f)) by (rewrite fval_eq by apply W; field; lra).
    apply fval_le; [apply W|]. pose proof (fone_le_max f W). pose proof (fone_pos f (proj1 W)). rewrite fmax_signed by auto. lia.
  - rewrite nat_N_Z, <- INR_IZR_INZ. pose proof (pos_INR n). rewrite Rabs_pos_eq by lra.
    pose proof (Rmult_le_compat_l _ _ _ H Ha). lra.
Qed.

Lemma powi_zero : forall m f, supported f = true -> fsigned f = true -> 2 <= ffrac f <= fwidth f - 4 ->
  forall Sn A z a, (fval f (re z) * fval f (re z) + fval f (im z) * fval f (im z) <= fval f (fmax f))%R ->
  mixed_atan2 A (im z) (re z) = Ok a -> mixed_sincos Sn 0 = Ok (0, fone f) ->
  returns (fun fuel => ops_powi (fixed_ops m f) (fixed_sqrt m f fuel) (fixed_powi m f) A Sn (fx_of_int m f) z 0) (mkC (fone f) 0).
Proof.
  intros m f Hf S F Sn A z a N E Es. pose proof (supported_fwf f Hf) as W.
  destruct (fixed_mag_acc m f z Hf S F N) as [mg [[n0 R] _]].
  exists n0. intros k Hk. specialize (R k Hk). unfold fixed_mag, cartesian_mag in R. unfold ops_powi. cbn [o_add o_mul fixed_ops] in *.
  destruct (mixed_powi (fixed_powi m f) (re z) 2) as [r2| |]; try discriminate. cbn [bind] in *.
  destruct (mixed_powi (fixed_powi m f) (im z) 2) as [i2| |]; try discriminate. cbn [bind] in *.
  destruct (fx_add m f r2 i2) as [t| |]; try discriminate. cbn [bind] in *. rewrite R. cbn [bind].
  change (wrap i32 (Z.of_N 0)) with 0. assert (P : mixed_powi (fixed_powi m f) mg 0 = Ok (fone f)).
  { cbn [mixed_powi fixed_powi]. change (Z.to_N (wrap usize 0)) with 0%N. apply powi_0; auto. }
  rewrite P. cbn [bind]. rewrite E. cbn [bind]. change (Z.of_N 0) with 0.
  rewrite fx_of_int_small by (auto; lia). cbn [bind]. rewrite Z.mul_0_l. unfold fx_mul. rewrite Z.mul_0_r, Z.div_0_l by (pose proof (fone_pos f (proj1 W)); lia).
  assert (V0 : fvalid f 0) by (apply zero_in_range; apply fwf_width; auto).
  rewrite fx_fin_ok by auto. cbn [bind]. rewrite Es. cbn [bind fst snd]. rewrite Z.div_mul by (pose proof (fone_pos f (proj1 W)); lia).
  rewrite fx_fin_ok. 2:{ apply fvalid_iff. rewrite S. pose proof (fone_le_max f W). pose proof (fone_pos f (proj1 W)). lia. }
  cbn [bind]. rewrite Z.mul_0_r, Z.div_0_l by (pose proof (fone_pos f (proj1 W)); lia). rewrite fx_fin_ok by auto. reflexivity.
Qed.

(** ** multiplication by a polar number *)
Lemma mul_polar_acc : forall f, supported f = true -> fsigned f = true -> ffrac f <= fwidth f - 4 ->
  forall p, mixed_pi (fixed_pi Debug f) = Ok p -> forall Sn d, accurate_sincos f (fval f p) d Sn ->
  forall z q, cvalid (fity f) z -> fvalid f (ang q) -> (Rabs (fval f (mag q)) * (1 + d) <= fval f (fmax f))%R ->
  exists n0, forall fuel, (n0 <= fuel)%nat -> forall r,
  cartesian_mul_polar (fixed_ops Debug f) (fixed_wrap_phase Debug f fuel) Sn z q = Ok r ->
  let x := fval f (re z) in let y := fval f (im z) in let g := fval f (mag q) in let a := fval f (ang q) in
  let B := ((Rabs x + Rabs y) * (Rabs g * (d + slip f a) + ulp f) + 2 * ulp f)%R in
  (Rabs (fval f (re r) - (x * (g * Rtrigo_def.cos a) - y * (g * Rtrigo_def.sin a))) <= B)%R /\
  (Rabs (fval f (im r) - (x * (g * Rtrigo_def.sin a) + y * (g * Rtrigo_def.cos a))) <= B)%R.
Proof.
  intros f Hf S F p Hp Sn d AS z q Vz Va Bd. pose proof (supported_fwf f Hf) as W. rewrite fixed_pi_eq in Hp by auto. injection Hp as <-.
  destruct (tc_acc Debug f W S ltac:(right; lia) Sn d AS q Va Bd) as [w [[n0 R] [[B1 B2] _]]].
  exists n0. intros fuel Hn r H. specialize (R fuel Hn). unfold ops_tc in R. unfold cartesian_mul_polar in H. rewrite R in H. cbn [bind] in H.
  change (cartesian_mul (fixed_ops Debug f) z w = Ok r) in H.
  destruct (mul_fixed_all f Hf z w r Vz) as [C1 [C2 _]]; [|exact H|].
  { clear - R W S. unfold ops_to_cartesian in R. destruct (mixed_wrap_phase _ _) as [t| |]; try discriminate. cbn [bind] in R.
    destruct (mixed_sincos Sn t) as [[s c]| |]; try discriminate. cbn [bind fst snd o_mul fixed_ops] in R. unfold fx_mul, fx_fin in R.
    destruct (fin Debug (fity f) (mag q * c / fone f)) as [u| |] eqn:E1; try discriminate. cbn [bind] in R.
    destruct (fin Debug (fity f) (mag q * s / fone f)) as [v| |] eqn:E2; try discriminate. cbn [bind] in R. injection R as <-.
    apply fin_debug_inv in E1, E2. destruct E1 as [-> V1], E2 as [-> V2]. split; auto. }
  cbv zeta in *. assert (U : (0 < ulp f)%R) by (unfold ulp; apply bpow_gt_0).
  set (x := fval f (re z)) in *. set (y := fval f (im z)) in *. set (g := fval f (mag q)) in *. set (a := fval f (ang q)) in *.
  set (B := (Rabs g * (d + slip f a) + ulp f)%R) in *. set (u := fval f (re w)) in *. set (v := fval f (im w)) in *.
  pose proof (Rabs_pos x) as X0. pose proof (Rabs_pos y) as Y0.
  pose proof (Rmult_le_compat_l _ _ _ X0 B1) as XB1. pose proof (Rmult_le_compat_l _ _ _ X0 B2) as XB2.
  pose proof (Rmult_le_compat_l _ _ _ Y0 B1) as YB1. pose proof (Rmult_le_compat_l _ _ _ Y0 B2) as YB2.
  rewrite <- Rabs_mult in XB1, XB2, YB1, YB2. split.
  - replace (fval f (re r) - (x * (g * Rtrigo_def.cos a) - y * (g * Rtrigo_def.sin a)))%R with
      ((fval f (re r) - (x * u - y * v)) + (x * (u - g * Rtrigo_def.cos a) + - (y * (v - g * Rtrigo_def.sin a))))%R by ring.
    eapply Rle_trans; [apply Rabs_triang|]. eapply Rle_trans; [apply Rplus_le_compat_l, Rabs_triang|]. rewrite Rabs_Ropp. lra.
  - replace (fval f (im r) - (x * (g * Rtrigo_def.sin a) + y * (g * Rtrigo_def.cos a)))%R with
      ((fval f (im r) - (x * v + y * u)) + (x * (v - g * Rtrigo_def.sin a) + y * (u - g * Rtrigo_def.cos a)))%R by ring.
    eapply Rle_trans; [apply Rabs_triang|]. eapply Rle_trans; [apply Rplus_le_compat_l, Rabs_triang|].
    assert (Rabs (fval f (im r) - (x * v + y * u)) <= 2 * ulp f)%R by (apply Rabs_le; lra). lra.
Qed.

Lemma mul_assign_polar_eq : forall T (O : MixedOps T) Wr Sn z q, cartesian_mul_assign_polar O Wr Sn z q = cartesian_mul_polar O Wr Sn z q.
Proof.
  intros. unfold cartesian_mul_assign_polar, cartesian_mul_polar, cartesian_mul. destruct (ops_to_cartesian O Wr Sn q) as [w| |]; cbn [bind]; auto.
  destruct (ops_mul_cartesian O z w) as [[? ?]| |]; reflexivity.
Qed.

(** ** conjugation of polar numbers *)
Lemma polar_conj_word : forall m f, supported f = true -> fsigned f = true -> forall p, fvalid f (ang p) ->
  (ang p <> fmin f -> polar_conj (fixed_signed m f) p = Ok (mkP (mag p) (- ang p))) /\
  (ang p = fmin f -> polar_conj (fixed_signed m f) p = match m with Debug => Panic POverflow | Release => Ok p end) /\
  (forall c, polar_conj (fixed_signed m f) p = Ok c -> polar_conj (fixed_signed m f) c = Ok p).
Proof.
  intros m f Hf S [mg an] V. cbn [ang mag] in *. pose proof (supported_fwf f Hf) as W.
  assert (V0 : fvalid f 0) by (apply zero_in_range; apply fwf_width; auto).
  destruct (conj_word_all m (fity f) ltac:(apply supported_inv in Hf; cbn; lia) S (mkC 0 an) (conj V0 V)) as [A [B C]].
  unfold cartesian_conj, polar_conj in *. cbn [re im ang mag] in *. change (o_neg (int_signed m (fity f))) with (o_neg (fixed_signed m f)) in *.
  change (imin (fity f)) with (fmin f) in *.
  split; [|split].
  - intros N. specialize (A N). destruct (o_neg (fixed_signed m f) an) as [u| |]; try discriminate. cbn [bind] in *. injection A as ->. reflexivity.
  - intros N. specialize (B N). destruct (o_neg (fixed_signed m f) an) as [u| |]; destruct m; cbn [bind] in *; try discriminate; injection B as ->; reflexivity.
  - intros c. destruct (o_neg (fixed_signed m f) an) as [u| |]; try discriminate. cbn [bind] in *. intros H. injection H as <-. cbn [ang mag].
    specialize (C _ eq_refl). cbn [im re] in C. destruct (o_neg (fixed_signed m f) u) as [v| |]; try discriminate. cbn [bind] in *. injection C as ->. reflexivity.
Qed.

Lemma polar_conj_cart_acc : forall m f, supported f = true -> fsigned f = true -> ffrac f <= fwidth f - 4 ->
  forall p, mixed_pi (fixed_pi m f) = Ok p -> forall Sn d, accurate_sincos f (fval f p) d Sn ->
  forall q, fvalid f (ang q) -> ang q <> fmin f -> (Rabs (fval f (mag q)) * (1 + d) <= fval f (fmax f))%R ->
  exists z, returns (fun fuel => polar_conj_cartesian (fixed_ops m f) (fixed_signed m f) (fixed_wrap_phase m f fuel) Sn q) z /\
  let g := fval f (mag q) in let a := fval f (ang q) in let B := (Rabs g * (d + slip f a) + ulp f)%R in
  (Rabs (fval f (re z) - g * Rtrigo_def.cos a) <= B /\ Rabs (fval f (im z) - - (g * Rtrigo_def.sin a)) <= B)%R.
Proof.
  intros m f Hf S F p Hp Sn d AS q V N Bd. pose proof (supported_fwf f Hf) as W. rewrite fixed_pi_eq in Hp by auto. injection Hp as <-.
  destruct (polar_conj_word m f Hf S q V) as [A [_ _]]. specialize (A N). unfold polar_conj in A.
  destruct (o_neg (fixed_signed m f) (ang q)) as [u| |] eqn:E; try discriminate. cbn [bind] in A. injection A as ->.
  assert (V2 : fvalid f (- ang q)). { apply fvalid_iff in V. apply fvalid_iff. rewrite S in *. rewrite fmin_signed in N by auto. lia. }
  destruct (tc_acc m f W S ltac:(right; lia) Sn d AS (mkP (mag q) (- ang q)) V2 Bd) as [w [[n0 R] [[B1 B2] _]]].
  cbn [ang mag] in *. rewrite fval_opp, cos_neg in B1. rewrite fval_opp, sin_neg in B2.
  assert (SE : slip f (- fval f (ang q)) = slip f (fval f (ang q))) by (unfold slip; rewrite Rabs_Ropp; reflexivity).
  rewrite SE in B1, B2. exists w. split.
  - exists n0. intros k Hk. specialize (R k Hk). unfold ops_tc in R. unfold polar_conj_cartesian. rewrite E. cbn [bind]. exact R.
  - cbv zeta. split; [exact B1|]. rewrite Ropp_mult_distr_r. exact B2.
Qed.

Lemma polar_conj_float : forall prec emax (Hp : FLX.Prec_gt_0 prec) (He : Prec_lt_emax prec emax) (p : Polar (binary_float prec emax)),
  polar_conj float_signed p = Ok (mkP (mag p) (Bopp (ang p))) /\
  (c <- polar_conj float_signed p ;; polar_conj float_signed c) = Ok p.
Proof.
  intros prec emax Hp He p. split; [reflexivity|]. destruct p as [g a]. cbn. rewrite Bopp_involutive. reflexivity.
Qed.
