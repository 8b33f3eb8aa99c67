(** * The magnitude of complex numbers. *)

From Coq Require Import ZArith Reals Lia Lra Psatz List Bool.
From Flocq Require Import Core.Core IEEE754.BinarySingleNaN.
From Flocq Require Import Relative.
From Verif Require Import Base FloatBase Literals Traits Trig IntImpl FixedPrim FixedImpl FloatImpl Complex Spec
  Lemmas ScalarProofs ScalarProofs2 WrapProofs FloatLemmas FloatProofs ComplexProofs2 NiirfFixed2 NiirfFixed4 TrigProofs FloatKit.
Open Scope Z_scope.

Lemma mag_generic : forall T (O : MixedOps T) (Q : MixedSqrt T) (W : MixedPowi T) z,
  cartesian_abs O Q W z = cartesian_mag O Q W z /\ ops_abs O Q W z = cartesian_mag O Q W z /\
  (forall A p, cartesian_to_polar O Q W A z = Ok p -> cartesian_mag O Q W z = Ok (mag p)) /\
  (forall Z0 c, cartesian_mixed_abs O Q W Z0 z = Ok c -> cartesian_mag O Q W z = Ok (re c) /\ mixed_zero Z0 = Ok (im c)).
Proof.
  intros T O Q W z. split; [reflexivity|]. split; [reflexivity|]. split; [intros; eapply mag_to_polar; eauto|].
  intros Z0 c H. unfold cartesian_mixed_abs in H. destruct (cartesian_mag O Q W z) eqn:E; try discriminate. cbn [bind] in H.
  destruct (mixed_zero Z0) eqn:E0; try discriminate. cbn [bind] in H. injection H as <-. auto.
Qed.

Definition fixed_mag (m : mode) (f : fty) (fuel : nat) (z : Cartesian Z) : res Z :=
  cartesian_mag (fixed_ops m f) (fixed_sqrt m f fuel) (fixed_powi m f) z.

Lemma mul_outcome : forall m f a b, (exists r, fx_mul m f a b = Ok r) \/ fx_mul m f a b = Panic POverflow.
Proof. intros. unfold fx_mul, fx_fin, fin. destruct (in_rangeb _ _); [eauto|]. destruct m; eauto. Qed.
Lemma add_outcome : forall m f a b, (exists r, fx_add m f a b = Ok r) \/ fx_add m f a b = Panic POverflow.
Proof. intros. unfold fx_add, fx_fin, fin. destruct (in_rangeb _ _); [eauto|]. destruct m; eauto. Qed.
Lemma fixed_mag_eq : forall m f fuel z, fixed_mag m f fuel z =
  bind (fx_mul m f (re z) (re z)) (fun a => bind (fx_mul m f (im z) (im z)) (fun b => bind (fx_add m f a b) (fun s => mixed_sqrt (fixed_sqrt m f fuel) s))).
Proof. intros. unfold fixed_mag, cartesian_mag. rewrite !sq_eq. reflexivity. Qed.

Lemma fixed_mag_sym : forall m f fuel z, supported f = true -> fsigned f = true -> cvalid (fity f) z ->
  (forall c, cartesian_conj (fixed_signed m f) z = Ok c -> fixed_mag m f fuel c = fixed_mag m f fuel z) /\
  fixed_mag m f fuel (mkC (im z) (re z)) = fixed_mag m f fuel z.
Proof.
  intros m f fuel z Hf S [_ V]. pose proof (supported_fwf f Hf) as W. split.
  - intros c H. unfold cartesian_conj in H. destruct (o_neg (fixed_signed m f) (im z)) as [b| |] eqn:N; try discriminate. cbn [bind] in H. injection H as <-.
    rewrite !fixed_mag_eq. cbn [re im]. cbn [o_neg fixed_signed] in N. unfold fx_neg, fx_fin, fin in N.
    destruct (in_rangeb (fity f) (- im z)) eqn:E; [injection N as <-; unfold fx_mul; rewrite Z.mul_opp_opp; reflexivity|].
    destruct m; [discriminate|]. injection N as <-. apply in_rangeb_false in E. pose proof E as NR. change (~ fvalid f (- im z)) in E. change (fvalid f (im z)) in V.
    rewrite fvalid_iff, S in E, V. replace (wrap (fity f) (- im z)) with (im z); [reflexivity|]. symmetry.
    pose proof (fwf_width f W). apply wrap_unique with (k := -1); auto; [change (fvalid f (im z)); rewrite fvalid_iff, S; auto|].
    cbn [fity iwidth] in *. rewrite (half_le_full (fwidth f)) by lia. lia.
  - rewrite !fixed_mag_eq. cbn [re im]. destruct (mul_outcome m f (re z) (re z)) as [[a Ha]|Ha], (mul_outcome m f (im z) (im z)) as [[b Hb]|Hb]; rewrite Ha, Hb; cbn [bind]; auto.
    unfold fx_add. rewrite Z.add_comm. reflexivity.
Qed.

Lemma sqrt_gap : forall a b d, (0 <= b <= a)%R -> (a <= b + d)%R -> (sqrt b <= sqrt a <= sqrt b + sqrt d)%R.
Proof.
  intros a b d B D. split; [apply sqrt_le_1_alt; lra|]. assert (D0 : (0 <= d)%R) by lra.
  pose proof (sqrt_pos b) as P1. pose proof (sqrt_pos d) as P2.
  apply sqrt_le_1_alt in D. eapply Rle_trans; [exact D|].
  apply Rsqr_incr_0_var; [|lra]. unfold Rsqr. rewrite sqrt_sqrt by lra.
  replace ((sqrt b + sqrt d) * (sqrt b + sqrt d))%R with (sqrt b * sqrt b + sqrt d * sqrt d + 2 * (sqrt b * sqrt d))%R by ring.
  rewrite !sqrt_sqrt by lra. assert (0 <= sqrt b * sqrt d)%R by (apply Rmult_le_pos; auto). lra.
Qed.

Lemma scale_le : forall q v k, (0 < q -> q * v <= k -> v / q <= k / (q * q))%R.
Proof.
  intros q v k Q H. assert (P : (0 < / (q * q))%R) by (apply Rinv_0_lt_compat; nra).
  replace (v / q)%R with (q * v * / (q * q))%R by (field; lra). unfold Rdiv. apply Rmult_le_compat_r; lra.
Qed.
Lemma scale_ge : forall q v k, (0 < q -> k <= q * v + 2 * q -> k / (q * q) <= v / q + 2 * / q)%R.
Proof.
  intros q v k Q H. assert (P : (0 < / (q * q))%R) by (apply Rinv_0_lt_compat; nra).
  replace (v / q + 2 * / q)%R with ((q * v + 2 * q) * / (q * q))%R by (field; lra). unfold Rdiv. apply Rmult_le_compat_r; lra.
Qed.
Lemma fixed_mag_acc : forall m f z, supported f = true -> fsigned f = true -> 2 <= ffrac f <= fwidth f - 4 ->
  let n := (fval f (re z) * fval f (re z) + fval f (im z) * fval f (im z))%R in
  (n <= fval f (fmax f))%R ->
  exists r, returns (fun fuel => fixed_mag m f fuel z) r /\
    (Rabs (fval f r - sqrt n) <= (/ 1000 + 5 * ulp f) * sqrt n + 3 * ulp f + sqrt (2 * ulp f))%R.
Proof.
  intros m f z Hf S F n N. pose proof (supported_fwf f Hf) as W. pose proof (fone_pos f (proj1 W)) as Q. pose proof (fone_IZR_pos f (proj1 W)) as QR.
  set (a := re z) in *. set (b := im z) in *. pose proof (fone_le_max f W) as FM.
  assert (EN : (n = IZR (a * a + b * b) / (IZR (fone f) * IZR (fone f)))%R).
  { unfold n. rewrite !fval_eq by apply W. rewrite plus_IZR, !mult_IZR. field. lra. }
  set (q := IZR (fone f)) in *. set (x := a * a / fone f). set (y := b * b / fone f).
  assert (IQ : (0 < / q)%R) by (apply Rinv_0_lt_compat; auto).
  assert (X : fone f * x <= a * a < fone f * x + fone f) by (pose proof (Z.div_mod (a * a) (fone f) ltac:(lia)) as DM; pose proof (Z.mod_pos_bound (a * a) (fone f) Q) as MB; fold x in DM; clear - DM MB; lia).
  assert (Y : fone f * y <= b * b < fone f * y + fone f) by (pose proof (Z.div_mod (b * b) (fone f) ltac:(lia)) as DM; pose proof (Z.mod_pos_bound (b * b) (fone f) Q) as MB; fold y in DM; clear - DM MB; lia).
  assert (X0 : 0 <= x) by (apply Z.div_pos; nia). assert (Y0 : 0 <= y) by (apply Z.div_pos; nia).
  assert (TOP : x + y <= fmax f).
  { assert (L : (IZR (a * a + b * b) <= IZR (fmax f) * q)%R).
    { rewrite EN, fval_eq in N by apply W. fold q in N. apply Rmult_le_reg_r with (/ q * / q)%R; [apply Rmult_lt_0_compat; auto|].
      replace (IZR (fmax f) * q * (/ q * / q))%R with (IZR (fmax f) / q)%R by (field; lra).
      replace (IZR (a * a + b * b) * (/ q * / q))%R with (IZR (a * a + b * b) / (q * q))%R by (field; lra). exact N. }
    unfold q in L. rewrite <- mult_IZR in L. apply le_IZR in L. apply Z.mul_le_mono_pos_l with (fone f); auto. lia. }
  assert (EX : fx_mul m f a a = fx_fin m f x) by reflexivity. assert (EY : fx_mul m f b b = fx_fin m f y) by reflexivity.
  clearbody x y. rewrite fmax_signed in TOP by auto.
  assert (VX : forall v, 0 <= v <= x + y -> fvalid f v) by (intros v V; rewrite fvalid_iff, S; lia).
  destruct (sqrt_fixed_api m f Hf S F (x + y) (VX (x + y) ltac:(lia)) ltac:(lia)) as (r & R & _ & A).
  exists r. split.
  - destruct R as [n0 R]. exists n0. intros fuel L. rewrite fixed_mag_eq. fold a b. rewrite EX, EY.
    rewrite !fx_fin_ok by (apply VX; lia). cbn [bind]. unfold fx_add. rewrite fx_fin_ok by (apply VX; lia). cbn [bind]. auto.
  - assert (G : (0 <= fval f (x + y) <= n)%R /\ (n <= fval f (x + y) + 2 * ulp f)%R).
    { rewrite EN, ulp_eq, fval_eq by apply W. fold q.
      assert (P : (IZR (fone f * (x + y)) <= IZR (a * a + b * b) <= IZR (fone f * (x + y) + 2 * fone f))%R) by (split; apply IZR_le; lia).
      rewrite !plus_IZR, !mult_IZR, !plus_IZR in P. fold q in P. rewrite !plus_IZR, !mult_IZR in *.
      set (k := (IZR a * IZR a + IZR b * IZR b)%R) in *. set (v := (IZR x + IZR y)%R) in *.
      assert (0 <= v)%R by (unfold v; rewrite <- plus_IZR; apply IZR_le; lia).
      repeat split.
      - apply Rmult_le_pos; lra.
      - apply (scale_le q v k); auto; lra.
      - apply (scale_ge q v k); auto; lra. }
    destruct G as [G1 G2]. pose proof (sqrt_gap _ _ _ G1 G2) as [S1 S2]. set (s := sqrt (fval f (x + y))) in *. set (t := sqrt n) in *.
    assert (U : (0 < ulp f)%R) by (unfold ulp; apply bpow_gt_0).
    apply Rabs_le_inv in A. apply Rabs_le.
    assert (((/ 1000 + 5 * ulp f) * s <= (/ 1000 + 5 * ulp f) * t)%R) by (apply Rmult_le_compat_l; lra). lra.
Qed.
Lemma fixed_mag_zero : forall m f fuel, supported f = true -> fixed_mag m f fuel (mkC 0 0) = Ok 0.
Proof.
  intros m f fuel Hf. pose proof (supported_fwf f Hf) as W. rewrite fixed_mag_eq. cbn [re im]. unfold fx_mul. rewrite Z.div_0_l by (pose proof (fone_pos f (proj1 W)); lia).
  assert (V : fvalid f 0) by (apply (zero_in_range (fity f)); apply fwf_width; auto).
  rewrite !fx_fin_ok by auto. cbn [bind]. unfold fx_add. rewrite fx_fin_ok by auto. cbn [bind]. apply sqrt_zero_api; auto.
Qed.

(** floats: any square root *)
Section Float.
Context {prec emax : Z} {Hp : Prec_gt_0 prec} {He : Prec_lt_emax prec emax}.
Notation float := (binary_float prec emax).
Definition float_mag (m : mode) (libm_sqrt : float -> float) (fuel : nat) (z : Cartesian float) : res float :=
  cartesian_mag float_ops (float_sqrt m libm_sqrt fuel) float_powi z.
Lemma float_mag_eq : forall m sq fuel z, float_mag m sq fuel z = Ok (sq (Bplus mode_NE (Bmult mode_NE (re z) (re z)) (Bmult mode_NE (im z) (im z)))).
Proof. intros. unfold float_mag, cartesian_mag. destruct (powi_small (re z)) as (_ & _ & -> & _). destruct (powi_small (im z)) as (_ & _ & -> & _). reflexivity. Qed.
Lemma float_mag_sym : forall m sq fuel (z : Cartesian float),
  (forall c, cartesian_conj float_signed z = Ok c -> float_mag m sq fuel c = float_mag m sq fuel z) /\
  float_mag m sq fuel (mkC (im z) (re z)) = float_mag m sq fuel z.
Proof.
  intros m sq fuel z. split.
  - intros c H. injection H as <-. rewrite !float_mag_eq. cbn [re im]. rewrite Bmult_opp_l, Bmult_opp_r, Bopp_involutive'. reflexivity.
  - rewrite !float_mag_eq. cbn [re im]. rewrite Bplus_comm. reflexivity.
Qed.
End Float.

(** ** accuracy on floats *)
Section FloatAcc.
Context {prec emax : Z} {Hp : Prec_gt_0 prec} {He : Prec_lt_emax prec emax}.
Notation float := (binary_float prec emax).
Notation rnd := (round radix2 (SpecFloat.fexp prec emax) ZnearestE).
Notation ep := (bpow radix2 (- prec)).
Hypothesis (P24 : 24 <= prec) (E10 : 40 <= emax).

Lemma ep_small : (0 < ep <= / 1000000)%R.
Proof using P24.
  split; [apply bpow_gt_0|]. apply Rle_trans with (bpow radix2 (-20)); [apply bpow_le; lia|].
  change (bpow radix2 (-20)) with (/ IZR (2 ^ 20))%R. change (2 ^ 20) with 1048576. lra.
Qed.
Lemma rnd_rel : forall v, (Rabs (rnd v - v) <= ep * Rabs v + / 2 * bpow radix2 (3 - emax - prec))%R.
Proof using Hp.
  intros v. destruct (error_N_FLT radix2 (3 - emax - prec) prec (prec_gt_0 prec) (fun x => negb (Z.even x)) v) as (e & h & A & B & _ & D).
  replace (rnd v) with (round radix2 (FLT_exp (3 - emax - prec) prec) ZnearestE v).
  2:{ reflexivity. }
  rewrite D. replace (v * (1 + e) + h - v)%R with (e * v + h)%R by ring. eapply Rle_trans; [apply Rabs_triang|]. rewrite Rabs_mult.
  apply Rplus_le_compat; auto. apply Rmult_le_compat_r; [apply Rabs_pos|].
  eapply Rle_trans; [exact A|]. replace (- prec + 1) with (1 + - prec) by ring. rewrite bpow_plus. change (bpow radix2 1) with 2%R. lra.
Qed.

(** the effect of one square, of the sum and of the root *)
Lemma sqrt_near : forall n v d, (0 < n -> 0 <= d <= / 100 -> Rabs (v - n) <= 2 * d * n -> Rabs (sqrt v - sqrt n) <= (d + d * d) * sqrt n)%R.
Proof.
  intros n v d N D H. apply Rabs_le_inv in H. set (s := sqrt n). assert (S : (0 < s)%R) by (apply sqrt_lt_R0; auto).
  assert (SS : (s * s = n)%R) by (apply sqrt_sqrt; lra). apply Rabs_le.
  assert (V : (0 <= v)%R) by nra. set (t := sqrt v). assert (T : (0 <= t)%R) by apply sqrt_pos. assert (TT : (t * t = v)%R) by (apply sqrt_sqrt; auto).
  clearbody s t. subst n v. split.
  - assert ((1 - d - d * d) * s <= t)%R; [|lra]. apply Rsqr_incr_0_var; auto. unfold Rsqr.
    assert (((1 - d - d * d) * s) * ((1 - d - d * d) * s) <= (1 - 2 * d) * (s * s))%R; [|lra].
    replace ((1 - d - d * d) * s * ((1 - d - d * d) * s))%R with ((1 - d - d * d) * (1 - d - d * d) * (s * s))%R by ring.
    apply Rmult_le_compat_r; [nra|]. assert (0 <= d * d <= d)%R by nra. assert (0 <= d * (d * d))%R by nra. nra.
  - assert (t <= (1 + d + d * d) * s)%R; [|lra]. apply Rsqr_incr_0_var; [|nra]. unfold Rsqr.
    assert ((1 + 2 * d) * (s * s) <= ((1 + d + d * d) * s) * ((1 + d + d * d) * s))%R; [|lra].
    replace ((1 + d + d * d) * s * ((1 + d + d * d) * s))%R with ((1 + d + d * d) * (1 + d + d * d) * (s * s))%R by ring.
    apply Rmult_le_compat_r; [nra|]. nra.
Qed.

Lemma float_mag_acc : forall m fuel (z : Cartesian float) sq, (forall x, sq x = Bsqrt mode_NE x) ->
  forall k, 2 * k + 1 < emax ->
  is_finite (re z) = true -> is_finite (im z) = true ->
  let M := Rmax (Rabs (B2R (re z))) (Rabs (B2R (im z))) in
  (bpow radix2 (13 - emax) <= M * M)%R -> (M <= bpow radix2 k)%R ->
  let n := (B2R (re z) * B2R (re z) + B2R (im z) * B2R (im z))%R in
  exists r, float_mag m sq fuel z = Ok r /\ is_finite r = true /\ (Rabs (B2R r - sqrt n) <= 9 / 4 * ep * sqrt n)%R.
Proof using All.
  intros m fuel z sq SQ k K Fa Fb M L U n. pose proof ep_small as EP.
  set (a := B2R (re z)) in *. set (b := B2R (im z)) in *.
  assert (MA : (Rabs a <= M)%R) by apply Rmax_l. assert (MB : (Rabs b <= M)%R) by apply Rmax_r.
  assert (M0 : (0 <= M)%R) by (eapply Rle_trans; [apply Rabs_pos|eauto]).
  assert (SA : (a * a = Rabs a * Rabs a)%R) by (rewrite <- Rabs_mult, Rabs_right; [auto | apply Rle_ge, Rle_0_sqr]).
  assert (SB : (b * b = Rabs b * Rabs b)%R) by (rewrite <- Rabs_mult, Rabs_right; [auto | apply Rle_ge, Rle_0_sqr]).
  assert (A0 : (0 <= a * a)%R) by apply Rle_0_sqr. assert (B0 : (0 <= b * b)%R) by apply Rle_0_sqr.
  pose proof (Rabs_pos a) as PA. pose proof (Rabs_pos b) as PB.
  assert (A1 : (a * a <= M * M)%R) by (rewrite SA; apply Rmult_le_compat; auto).
  assert (B1 : (b * b <= M * M)%R) by (rewrite SB; apply Rmult_le_compat; auto).
  assert (MN : (M * M <= n)%R).
  { unfold n, M. destruct (Rle_dec (Rabs a) (Rabs b)); [rewrite Rmax_right by auto | rewrite Rmax_left by lra]; lra. }
  assert (M2 : (M * M <= bpow radix2 (2 * k))%R).
  { replace (2 * k) with (k + k) by ring. rewrite bpow_plus. apply Rmult_le_compat; auto. }
  assert (KL : 13 - emax <= 2 * k) by (apply (le_bpow radix2); lra).
  assert (TH : (bpow radix2 (3 - emax - prec) <= / 1000 * ep * n)%R).
  { replace (3 - emax - prec) with (- prec + ((13 - emax) + -10)) by ring. rewrite !bpow_plus. change (bpow radix2 (-10)) with (/ 1024)%R. nra. }
  set (th := bpow radix2 (3 - emax - prec)) in *. assert (TH0 : (0 < th)%R) by apply bpow_gt_0.
  destruct (mult_r (re z) (re z) Fa Fa (2 * k)) as [FA VA]; [lia | fold a; rewrite Rabs_right; lra|]. fold a in VA.
  destruct (mult_r (im z) (im z) Fb Fb (2 * k)) as [FB VB]; [lia | fold b; rewrite Rabs_right; lra|]. fold b in VB.
  pose proof (rnd_rel (a * a)) as EA. pose proof (rnd_rel (b * b)) as EB. fold th in EA, EB. rewrite <- VA in EA. rewrite <- VB in EB.
  rewrite Rabs_right with (r := (a * a)%R) in EA by lra. rewrite Rabs_right with (r := (b * b)%R) in EB by lra.
  assert (CA : (Rabs (B2R (Bmult mode_NE (re z) (re z))) <= bpow radix2 (2 * k))%R) by (rewrite VA; apply rnd_le; [rewrite Rabs_right; lra | lia]).
  assert (CB : (Rabs (B2R (Bmult mode_NE (im z) (im z))) <= bpow radix2 (2 * k))%R) by (rewrite VB; apply rnd_le; [rewrite Rabs_right; lra | lia]).
  set (x := Bmult mode_NE (re z) (re z)) in *. set (y := Bmult mode_NE (im z) (im z)) in *.
  destruct (plus_r x y FA FB (2 * k + 1)) as [FS VS]; [lia | |].
  { rewrite (bpow_plus radix2 (2 * k) 1). change (bpow radix2 1) with 2%R. eapply Rle_trans; [apply Rabs_triang|]. lra. }
  pose proof (rnd_rel (B2R x + B2R y)) as ES. fold th in ES. rewrite <- VS in ES.
  set (s := Bplus mode_NE x y) in *.
  apply Rabs_le_inv in EA. apply Rabs_le_inv in EB.
  assert (DXY : (Rabs (B2R x + B2R y - n) <= (1 + / 1000) * ep * n)%R) by (apply Rabs_le; unfold n in *; lra).
  apply Rabs_le_inv in DXY. assert (N0 : (0 < n)%R) by (pose proof (bpow_gt_0 radix2 (13 - emax)); lra).
  assert (EN : (0 <= ep * n <= / 1000000 * n)%R) by (split; [apply Rmult_le_pos | apply Rmult_le_compat_r]; lra).
  rewrite Rabs_right with (r := (B2R x + B2R y)%R) in ES by lra. apply Rabs_le_inv in ES.
  assert (EX : (ep * (B2R x + B2R y) <= (1 + / 500) * (ep * n))%R).
  { replace ((1 + / 500) * (ep * n))%R with (ep * ((1 + / 500) * n))%R by ring. apply Rmult_le_compat_l; lra. }
  assert (DS : (Rabs (B2R s - n) <= 2 * ((1 + / 500) * ep) * n)%R) by (apply Rabs_le; lra).
  pose proof (sqrt_near n (B2R s) ((1 + / 500) * ep) N0 ltac:(lra) DS) as DQ.
  destruct (Bsqrt_correct prec emax _ _ mode_NE s) as (VR & FR & _).
  exists (sq s). rewrite float_mag_eq. split; [reflexivity|]. rewrite SQ.
  assert (POS : (0 < B2R s)%R) by (apply Rabs_le_inv in DS; lra).
  split.
  - rewrite FR. destruct s as [| | |[] ? ? ?]; try discriminate; auto. exfalso. cbn [B2R cond_Zopp] in POS. pose proof (F2R_lt_0 radix2 (Float radix2 (Z.neg m0) e) eq_refl). unfold cond_Zopp in POS. cbn [Z.opp] in POS. lra.
  - rewrite VR. cbn [round_mode]. pose proof (rnd_rel (sqrt (B2R s))) as ER. fold th in ER.
    set (u := sqrt (B2R s)) in *. set (t := sqrt n) in *.
    assert (T0 : (0 < t)%R) by (apply sqrt_lt_R0; auto). assert (U0 : (0 <= u)%R) by apply sqrt_pos.
    assert (TH2 : (th <= / 1000 * ep * t)%R). 
    { assert (T1 : (bpow radix2 (13 - emax) <= t)%R).
      { apply Rsqr_incr_0_var; [|lra]. unfold Rsqr. unfold t. rewrite sqrt_sqrt by lra. eapply Rle_trans; [|apply Rle_trans with (1 := L), MN].
        rewrite <- bpow_plus. apply bpow_le. lia. }
      unfold th. replace (3 - emax - prec) with (- prec + ((13 - emax) + -10)) by ring. rewrite !bpow_plus. change (bpow radix2 (-10)) with (/ 1024)%R.
      rewrite (Rmult_comm (/ 1000)), Rmult_assoc. apply Rmult_le_compat_l; lra. }
    rewrite Rabs_right with (r := u) in ER by lra.
    apply Rabs_le_inv in ER. apply Rabs_le_inv in DQ.
    assert (ET : (0 <= ep * t <= / 1000000 * t)%R) by (split; [apply Rmult_le_pos | apply Rmult_le_compat_r]; lra).
    assert (Q1 : (((1 + / 500) * ep + (1 + / 500) * ep * ((1 + / 500) * ep)) * t <= (1 + / 250) * (ep * t))%R).
    { assert (Q0 : (ep * (ep * t) <= / 1000000 * (ep * t))%R) by (apply Rmult_le_compat_r; lra).
      replace (((1 + / 500) * ep + (1 + / 500) * ep * ((1 + / 500) * ep)) * t)%R with ((1 + / 500) * (ep * t) + (1 + / 500) * (1 + / 500) * (ep * (ep * t)))%R by ring. lra. }
    assert (Q2 : (ep * u <= (1 + / 250) * (ep * t))%R).
    { replace ((1 + / 250) * (ep * t))%R with (ep * ((1 + / 250) * t))%R by ring. apply Rmult_le_compat_l; lra. }
    apply Rabs_le. lra.
Qed.

(** overflow and underflow of the squares *)
Lemma square_over : forall x : float, is_finite x = true -> (bpow radix2 emax <= B2R x * B2R x)%R -> Bmult mode_NE x x = B754_infinity false.
Proof using All.
  intros x F H. pose proof (Bmult_correct prec emax _ _ mode_NE x x) as C. cbn [round_mode] in C.
  rewrite Rlt_bool_false in C.
  - rewrite xorb_nilpotent in C. cbn in C. apply B2SF_inj. exact C.
  - apply abs_round_ge_generic; auto; [apply fexp_correct; auto | apply valid_rnd_N | |].
    + apply generic_format_bpow. unfold SpecFloat.fexp, SpecFloat.emin. pose proof (prec_gt_0 prec). lia.
    + rewrite Rabs_right; [auto|]. apply Rle_ge, Rle_0_sqr.
Qed.
Lemma square_under : forall x : float, is_finite x = true -> (B2R x * B2R x <= bpow radix2 (1 - emax - prec))%R -> Bmult mode_NE x x = B754_zero false.
Proof using All.
  intros x F H. assert (P : (0 <= B2R x * B2R x)%R) by apply Rle_0_sqr.
  pose proof (Bmult_correct prec emax _ _ mode_NE x x) as C. cbn [round_mode] in C.
  assert (E : rnd (B2R x * B2R x) = 0%R).
  { destruct (Req_dec (B2R x * B2R x) 0) as [->|Nz]; [apply round_0, valid_rnd_N|].
    set (v := (B2R x * B2R x)%R) in *. assert (V : Rabs v = v) by (apply Rabs_right; lra).
    assert (ML : Raux.mag radix2 v <= 2 - emax - prec).
    { apply mag_le_bpow; auto. rewrite V. eapply Rle_lt_trans; [exact H|]. apply bpow_lt. lia. }
    apply round_N_small with (ex := Raux.mag radix2 v).
    - split; [apply bpow_mag_le; auto | apply bpow_mag_gt].
    - unfold SpecFloat.fexp, SpecFloat.emin. lia. }
  rewrite E, Rabs_R0, Rlt_bool_true in C by apply bpow_gt_0. destruct C as (C1 & C2 & C3). rewrite F in C2. cbn in C2.
  rewrite xorb_nilpotent in C3. 
  destruct (Bmult mode_NE x x) as [[]| | |s mm e Hb] eqn:Q; try discriminate; auto; cbn in C3; try specialize (C3 eq_refl); try discriminate.
  exfalso. cbn in C1. apply eq_0_F2R in C1. destruct s; discriminate.
Qed.
Lemma Bplus_inf_l : forall y : float, is_nan y = false -> Bsign y = false -> Bplus mode_NE (B754_infinity false) y = B754_infinity false.
Proof. intros [[]|[]| |[] ? ? ?]; cbn; intros; try discriminate; reflexivity. Qed.
Lemma Bmult_sq_sign : forall x : float, is_nan x = false -> is_nan (Bmult mode_NE x x) = false /\ Bsign (Bmult mode_NE x x) = false.
Proof.
  intros x N. pose proof (Bmult_correct prec emax _ _ mode_NE x x) as C. destruct x as [s|s| |s mm e Hb]; try discriminate; try (destruct s; split; reflexivity).
  remember (B754_finite s mm e Hb) as x eqn:X. assert (FX : is_finite x = true) by (rewrite X; reflexivity). clear X N.
  destruct (Rlt_bool _ _); [destruct C as (_ & C2 & C3) | ]; destruct (Bmult mode_NE x x) as [s1|s1| |s1 m1 e1 H1]; rewrite ?FX, ?xorb_nilpotent in *; try discriminate; split; auto.
  injection C as ->. reflexivity.
Qed.
Lemma float_mag_over : forall m fuel (z : Cartesian float) sq, (forall x, sq x = Bsqrt mode_NE x) ->
  is_finite (re z) = true -> is_finite (im z) = true ->
  (bpow radix2 emax <= B2R (re z) * B2R (re z) \/ bpow radix2 emax <= B2R (im z) * B2R (im z))%R ->
  float_mag m sq fuel z = Ok (B754_infinity false).
Proof using All.
  intros m fuel z sq SQ Fa Fb H. rewrite float_mag_eq, SQ.
  assert (N : forall x : float, is_finite x = true -> is_nan x = false) by (intros []; auto; discriminate).
  destruct H as [H|H].
  - rewrite (square_over (re z)) by auto. destruct (Bmult_sq_sign (im z)) as [N1 S1]; auto. rewrite Bplus_inf_l by auto. reflexivity.
  - rewrite Bplus_comm, (square_over (im z)) by auto. destruct (Bmult_sq_sign (re z)) as [N1 S1]; auto. rewrite Bplus_inf_l by auto. reflexivity.
Qed.
Lemma float_mag_under : forall m fuel (z : Cartesian float) sq, (forall x, sq x = Bsqrt mode_NE x) ->
  is_finite (re z) = true -> is_finite (im z) = true ->
  (B2R (re z) * B2R (re z) <= bpow radix2 (1 - emax - prec))%R -> (B2R (im z) * B2R (im z) <= bpow radix2 (1 - emax - prec))%R ->
  float_mag m sq fuel z = Ok (B754_zero false).
Proof using All. intros m fuel z sq SQ Fa Fb A B. rewrite float_mag_eq, SQ, !square_under by auto. reflexivity. Qed.
End FloatAcc.

(** ** fixed point: squares that vanish or overflow *)
Lemma fixed_mag_under : forall m f fuel z, supported f = true -> re z * re z < 2 ^ ffrac f -> im z * im z < 2 ^ ffrac f -> fixed_mag m f fuel z = Ok 0.
Proof.
  intros m f fuel [a b] Hf A B. cbn [re im] in *. pose proof (supported_fwf f Hf) as W. rewrite <- (fixed_mag_zero m f fuel Hf), !fixed_mag_eq. cbn [re im].
  unfold fx_mul. fold (fone f) in A, B. rewrite (Z.div_small (a * a)), (Z.div_small (b * b)), Z.div_0_l by nia. reflexivity.
Qed.
Lemma fixed_mag_over : forall f fuel z, supported f = true -> fsigned f = true -> fvalid f (re z) -> fvalid f (im z) ->
  (fval f (fmax f) + 2 * ulp f < fval f (re z) * fval f (re z) + fval f (im z) * fval f (im z))%R -> fixed_mag Debug f fuel z = Panic POverflow.
Proof.
  intros f fuel [a b] Hf S VA VB H. cbn [re im] in *. pose proof (supported_fwf f Hf) as W. pose proof (fone_pos f (proj1 W)) as Q.
  assert (QR : (0 < IZR (fone f))%R) by (apply IZR_lt; auto).
  assert (H1 : (IZR ((fmax f + 2) * fone f) < IZR (a * a + b * b))%R).
  { rewrite plus_IZR, !mult_IZR, plus_IZR. rewrite ulp_eq, !fval_eq in H by apply W. set (q := IZR (fone f)) in *.
    apply (Rmult_lt_compat_r (q * q)) in H; [|nra].
    replace ((IZR (fmax f) / q + 2 * / q) * (q * q))%R with ((IZR (fmax f) + 2) * q)%R in H by (field; lra).
    replace ((IZR a / q * (IZR a / q) + IZR b / q * (IZR b / q)) * (q * q))%R with (IZR a * IZR a + IZR b * IZR b)%R in H by (field; lra). exact H. }
  apply lt_IZR in H1. rewrite fixed_mag_eq. cbn [re im]. unfold fx_mul.
  pose proof (Z.div_mod (a * a) (fone f) ltac:(lia)) as DA. pose proof (Z.mod_pos_bound (a * a) (fone f) Q) as MA.
  pose proof (Z.div_mod (b * b) (fone f) ltac:(lia)) as DB. pose proof (Z.mod_pos_bound (b * b) (fone f) Q) as MB.
  set (x := a * a / fone f) in *. set (y := b * b / fone f) in *.
  assert (L : fmax f < x + y) by nia. clearbody x y.
  unfold fx_fin, fin. destruct (in_rangeb (fity f) x) eqn:EX; [|reflexivity]. destruct (in_rangeb (fity f) y) eqn:EY; [|reflexivity]. cbn [bind].
  unfold fx_add, fx_fin. rewrite fin_debug_over; [reflexivity|]. change (~ fvalid f (x + y)). rewrite fvalid_iff, S. rewrite fmax_signed in L by auto. lia.
Qed.
