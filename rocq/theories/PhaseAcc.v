(** * Phase accumulators: [phase = (phase + step).mixed_wrap_phase()], any number of times. *)

From Coq Require Import ZArith Reals Lia Lra Psatz Bool List.
From Flocq Require Import Core.Core IEEE754.BinarySingleNaN Relative.
From Verif Require Import Base FloatBase Literals Traits Trig IntImpl FixedPrim FixedImpl FloatImpl Complex Spec
  Lemmas ScalarProofs ScalarProofs2 WrapProofs WrapProofs2 ProdProofs FloatKit FloatWrap FloatPolar.
Import ListNotations.
Open Scope Z_scope.

Notation nco m f fuel := (fun a s => t <- o_add (fixed_ops m f) a s ;; mixed_wrap_phase (fixed_wrap_phase m f fuel) t).

Lemma fval_add : forall f a b, fval f (a + b) = (fval f a + fval f b)%R.
Proof. intros. unfold fval. rewrite plus_IZR. ring. Qed.
Lemma fval_le : forall f a b, 0 <= ffrac f -> (fval f a <= fval f b)%R <-> a <= b.
Proof.
  intros f a b F. unfold fval. pose proof (bpow_gt_0 radix2 (- ffrac f)) as P. split; intros H.
  - apply le_IZR. apply Rmult_le_reg_r with (bpow radix2 (- ffrac f)); auto.
  - apply Rmult_le_compat_r; [lra|]. apply IZR_le; auto.
Qed.
Lemma fval_lt : forall f a b, 0 <= ffrac f -> (fval f a < fval f b)%R <-> a < b.
Proof.
  intros f a b F. unfold fval. pose proof (bpow_gt_0 radix2 (- ffrac f)) as P. split; intros H.
  - apply lt_IZR. apply Rmult_lt_reg_r with (bpow radix2 (- ffrac f)); auto.
  - apply Rmult_lt_compat_r; [lra|]. apply IZR_lt; auto.
Qed.
Lemma fval_neg : forall f a, fval f (- a) = (- fval f a)%R.
Proof. intros. unfold fval. rewrite opp_IZR. ring. Qed.

Lemma nco_fixed : forall m f, supported f = true -> fsigned f = true -> (m = Release \/ ffrac f <= fwidth f - 4) ->
  exists p, mixed_pi (fixed_pi m f) = Ok p /\
  forall steps phi, (- fval f p <= fval f phi < fval f p)%R -> Forall (fun s => (fval f p + Rabs (fval f s) <= fval f (fmax f))%R) steps ->
  exists r, returns (fun fuel => run (nco m f fuel) phi steps) r /\ (- fval f p <= fval f r < fval f p)%R /\
    exists k, (fval f phi + fold_right Rplus 0 (map (fval f) steps) = fval f r + IZR k * (2 * fval f p))%R.
Proof.
  intros m f Hf Sg HM. pose proof (supported_fwf f Hf) as W. pose proof (proj1 W) as F0.
  destruct (fixed_wrap_all m f Hf Sg HM) as (p & Ep & Pp & H). exists p. split; auto.
  induction steps as [|s steps IH]; intros phi Hphi FA.
  - exists phi. split; [exists 0%nat; reflexivity|]. split; auto. exists 0. cbn. ring.
  - inversion FA as [|? ? Hs FA']; subst. 
    assert (V : fvalid f (phi + s)).
    { apply fvalid_iff. rewrite Sg. unfold fmax in Hs. cbn [fity isigned] in Hs. 
      pose proof (Rabs_pos (fval f s)). 
      assert (A : (Rabs (fval f s) = fval f (Z.abs s))%R). { unfold fval. rewrite Rabs_mult, <- abs_IZR, (Rabs_pos_eq (bpow _ _)); [reflexivity|apply bpow_ge_0]. }
      rewrite A in Hs. rewrite <- fval_add in Hs. apply fval_le in Hs; auto. destruct Hphi as [H1 H2]. rewrite <- fval_neg in H1. apply fval_le in H1; auto. apply fval_lt in H2; auto.
      unfold imax, fity in Hs. cbn in Hs. rewrite Sg in Hs. lia. }
    destruct (H (phi + s) V) as (r1 & [n1 R1] & B1 & [k1 K1] & _).
    destruct (IH r1 B1 FA') as (r & [n2 R2] & B & [k K]). exists r. split; [|split; auto].
    + exists (n1 + n2)%nat. intros n Hn. rewrite run_cons.
      change (o_add (fixed_ops m f) phi s) with (fx_fin m f (phi + s)). rewrite fx_fin_ok by auto. cbn [bind].
      rewrite R1 by lia. cbn [bind]. apply R2. lia.
    + exists (k + k1). cbn [map fold_right]. rewrite plus_IZR. rewrite fval_add in K1. lra.
Qed.

(** only the total turn matters *)
Lemma nco_fixed_sum : forall m f, supported f = true -> fsigned f = true -> (m = Release \/ ffrac f <= fwidth f - 4) ->
  exists p, mixed_pi (fixed_pi m f) = Ok p /\
  forall s1 s2 phi psi, (- fval f p <= fval f phi < fval f p)%R -> (- fval f p <= fval f psi < fval f p)%R ->
  Forall (fun s => (fval f p + Rabs (fval f s) <= fval f (fmax f))%R) s1 -> Forall (fun s => (fval f p + Rabs (fval f s) <= fval f (fmax f))%R) s2 ->
  (exists k, fval f phi + fold_right Rplus 0 (map (fval f) s1) - (fval f psi + fold_right Rplus 0 (map (fval f) s2)) = IZR k * (2 * fval f p))%R ->
  exists r, returns (fun fuel => run (nco m f fuel) phi s1) r /\ returns (fun fuel => run (nco m f fuel) psi s2) r.
Proof.
  intros m f Hf Sg HM. pose proof (supported_fwf f Hf) as W. pose proof (proj1 W) as F0.
  destruct (nco_fixed m f Hf Sg HM) as (p & Ep & H). exists p. split; auto. intros s1 s2 phi psi B1 B2 A1 A2 [k K].
  destruct (H s1 phi B1 A1) as (r1 & R1 & C1 & [k1 K1]). destruct (H s2 psi B2 A2) as (r2 & R2 & C2 & [k2 K2]).
  exists r1. split; auto. replace r1 with r2; auto.
  assert (E : (fval f r1 - fval f r2 = IZR (k - k1 + k2) * (2 * fval f p))%R) by (rewrite plus_IZR, minus_IZR; lra).
  set (j := k - k1 + k2) in *. assert (P : (0 < fval f p)%R) by lra.
  assert (J : (-1 < IZR j < 1)%R) by nra. destruct J as [J1 J2]. apply lt_IZR in J1, J2. assert (J0 : j = 0) by lia. rewrite J0 in E.
  assert (EQ : fval f r2 = fval f r1) by lra.
  apply Z.le_antisymm; apply (fval_le f); auto; lra.
Qed.

(** ** floats *)
Notation ncof fuel := (fun a s => t <- o_add float_ops a s ;; mixed_wrap_phase (float_wrap_phase fuel) t).
Section Float.
Context {prec emax : Z} {Hp : Prec_gt_0 prec} {He : Prec_lt_emax prec emax}.
Notation float := (binary_float prec emax).
Notation fexp := (SpecFloat.fexp prec emax).
Notation rnd := (round radix2 fexp ZnearestE).
Hypothesis P24 : 24 <= prec.
Hypothesis E10 : prec + 20 <= emax.
Variable p : float.
Hypothesis PB : (3 <= B2R p <= 22 / 7)%R.
Hypothesis WR : forall phi : float, is_finite phi = true -> (Rabs (B2R phi) <= 4 * B2R p)%R -> exists (r : float) k,
  returns (fun fuel => mixed_wrap_phase (float_wrap_phase fuel) phi) r /\ is_finite r = true /\
  (- B2R p <= B2R r < B2R p)%R /\ B2R r = (B2R phi - IZR k * (2 * B2R p))%R.

Lemma nco_float : forall steps (phi : float), is_finite phi = true -> (- B2R p <= B2R phi < B2R p)%R ->
  Forall (fun s => is_finite s = true /\ (Rabs (B2R s) <= B2R p)%R) steps ->
  exists (r : float) k, returns (fun fuel => run (ncof fuel) phi steps) r /\ is_finite r = true /\ (- B2R p <= B2R r < B2R p)%R /\
  (Rabs (B2R phi + fold_right Rplus 0 (map B2R steps) - (B2R r + IZR k * (2 * B2R p))) <= INR (length steps) * bpow radix2 (2 - prec))%R.
Proof using P24 E10 PB WR.
  induction steps as [|s steps IH]; intros phi Fp Bp FA.
  - exists phi, 0. split; [exists 0%nat; reflexivity|]. split; auto. split; auto. cbn. rewrite Rabs_pos_eq; lra.
  - inversion FA as [|? ? [Fs Bs] FA']; subst.
    assert (B8 : (Rabs (B2R phi + B2R s) <= 2 * B2R p)%R).
    { apply Rabs_le_inv in Bs. apply Rabs_le. lra. }
    assert (B3 : (Rabs (B2R phi + B2R s) <= bpow radix2 3)%R) by (change (bpow radix2 3) with 8%R; lra).
    destruct (plus_r phi s Fp Fs 3 ltac:(lia) B3) as [F1 E1]. pose proof (@rnd_err prec emax _ _ 3 B3 ltac:(lia)) as Er. rewrite <- E1 in Er.
    pose proof (@rnd_le prec emax _ _ 3 B3 ltac:(lia)) as L1. rewrite <- E1 in L1. change (bpow radix2 3) with 8%R in L1.
    destruct (WR (Bplus mode_NE phi s) F1 ltac:(lra)) as (r1 & k1 & [n1 R1] & Fr1 & B1 & K1).
    destruct (IH r1 Fr1 B1 FA') as (r & k & [n2 R2] & Fr & B & K). exists r, (k + k1). split; [|split; [|split]]; auto.
    + exists (n1 + n2)%nat. intros n Hn. rewrite run_cons. change (o_add float_ops phi s) with (Ok (Bplus mode_NE phi s)). cbn [bind].
      rewrite R1 by lia. cbn [bind]. apply R2. lia.
    + cbn [map fold_right length]. rewrite S_INR, plus_IZR. set (S := fold_right Rplus 0%R (map B2R steps)) in *.
      assert (H2 : (/ 2 * bpow radix2 (3 - prec) = bpow radix2 (2 - prec))%R).
      { replace (3 - prec) with (2 - prec + 1) by lia. rewrite bpow_plus. change (bpow radix2 1) with 2%R. lra. }
      rewrite H2 in Er. apply Rabs_le_inv in Er. apply Rabs_le_inv in K. apply Rabs_le. rewrite K1 in K. lra.
Qed.
End Float.

Lemma nco_f32 : exists p : f32, mixed_pi float_pi = Ok p /\ forall steps (phi : f32), is_finite phi = true -> (- B2R p <= B2R phi < B2R p)%R ->
  Forall (fun s => is_finite s = true /\ (Rabs (B2R s) <= B2R p)%R) steps ->
  exists (r : f32) k, returns (fun fuel => run (ncof fuel) phi steps) r /\ is_finite r = true /\ (- B2R p <= B2R r < B2R p)%R /\
  (Rabs (B2R phi + fold_right Rplus 0 (map B2R steps) - (B2R r + IZR k * (2 * B2R p))) <= INR (length steps) * bpow radix2 (-22))%R.
Proof.
  exists f32_pi. split; [reflexivity|]. apply (@nco_float 24 128 _ _); try lia; [apply f32_pi_bounds|].
  intros phi F L. pose proof f32_pi_bounds as PB. destruct (wrap_f32 phi F) as (r & k & R & Fr & _ & E & _).
  { apply Rle_lt_trans with (1 := L). change (bpow radix2 24) with 16777216%R. lra. }
  exists r, k. split; auto. split; auto. split; auto.
  destruct (c10_of 27 wrap_claims_f32) as (p & Ep & _ & _ & Rg). assert (p = f32_pi) by (change (Ok f32_pi = Ok p) in Ep; congruence). subst p.
  destruct R as [n R]. destruct (Rg n phi r (R n (le_n n))) as [[E' _]|[_ [_ E']]]; [rewrite E' in F; discriminate|]. exact E'.
Qed.
Lemma nco_f64 : exists p : f64, mixed_pi float_pi = Ok p /\ forall steps (phi : f64), is_finite phi = true -> (- B2R p <= B2R phi < B2R p)%R ->
  Forall (fun s => is_finite s = true /\ (Rabs (B2R s) <= B2R p)%R) steps ->
  exists (r : f64) k, returns (fun fuel => run (ncof fuel) phi steps) r /\ is_finite r = true /\ (- B2R p <= B2R r < B2R p)%R /\
  (Rabs (B2R phi + fold_right Rplus 0 (map B2R steps) - (B2R r + IZR k * (2 * B2R p))) <= INR (length steps) * bpow radix2 (-51))%R.
Proof.
  exists f64_pi. split; [reflexivity|]. apply (@nco_float 53 1024 _ _); try lia; [apply f64_pi_bounds|].
  intros phi F L. pose proof f64_pi_bounds as PB. destruct (wrap_f64 phi F) as (r & k & R & Fr & _ & E & _).
  { apply Rle_lt_trans with (1 := L). change (bpow radix2 53) with 9007199254740992%R. lra. }
  exists r, k. split; auto. split; auto. split; auto.
  destruct (c10_of 56 wrap_claims_f64) as (p & Ep & _ & _ & Rg). assert (p = f64_pi) by (change (Ok f64_pi = Ok p) in Ep; congruence). subst p.
  destruct R as [n R]. destruct (Rg n phi r (R n (le_n n))) as [[E' _]|[_ [_ E']]]; [rewrite E' in F; discriminate|]. exact E'.
Qed.
