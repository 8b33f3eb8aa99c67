(** * The complex exponential in fixed point: law of exponents, inverse, Euler's identity (proofs for C137). *)

From Coq Require Import ZArith Reals Lra Lia Psatz.
From Flocq Require Import Core.Core.
From Verif Require Import Base FloatBase Traits Trig FixedPrim FixedImpl Complex Spec SpecFilter SpecRotor SpecPolar SpecExp SpecExpFixed
  Lemmas ScalarProofs ScalarProofs2 FilterProofs FloatFilter PolarProofs PolarProofs3 RotorProofs ExpProofs SinReal ConvProofs BlendProofs.
Open Scope Z_scope.

Lemma floor_exp_ok : forall f M, accurate_exp f M (ulp f) (floor_exp f).
Proof.
  intros f M a V H. exists (Int_part (exp (fval f a) / ulp f)). split; [reflexivity|]. unfold fval at 1. change (bpow radix2 (- ffrac f)) with (ulp f).
  assert (U : (0 < ulp f)%R) by apply bpow_gt_0. destruct (base_Int_part (exp (fval f a) / ulp f)) as [A B]. set (i := IZR (Int_part (exp (fval f a) / ulp f))) in *. set (e := exp (fval f a)) in *.
  assert (E : e = (e / ulp f * ulp f)%R) by (field; lra). set (q := (e / ulp f)%R) in *. rewrite E. apply Rabs_le. nra.
Qed.

Section L.
Variables (m : mode) (f : fty).
Hypothesis Hf : supported f = true.
Hypothesis Hs : fsigned f = true.
Variables (Sn : MixedSin Z) (E : MixedExp Z) (b d M dg : R).
Hypothesis HS : accurate_sincos f b d Sn.
Hypothesis HE : accurate_exp f M dg E.
Hypothesis D0 : (0 <= d)%R.
Hypothesis G0 : (0 <= dg)%R.
Notation v := (fval f).
Notation mx := (fval f (fmax f)).
Notation err := (exp_err_fixed f d dg).
Notation ce z := (cartesian_exp (fixed_ops m f) Sn E z).

Lemma exp_one : forall z, fvalid f (re z) -> fvalid f (im z) -> (Rabs (v (im z)) <= b)%R -> (exp (v (re z)) <= M)%R -> ((1 + d) * (exp (v (re z)) + dg) <= mx)%R ->
  exists r, ce z = Ok r /\ (cabs (csub (cval f r) (cexp (cval f z))) <= err (exp (v (re z))))%R.
Proof using Hf Hs HS HE.
  intros z V1 V2 B X F. destruct (HE _ V1 X) as (g & Eg & Ag). destruct (exp_acc m f Hf Hs Sn E d b z g dg HS V2 B Eg Ag F) as (r & Er & A1 & A2).
  exists r. split; auto. unfold exp_err_fixed. apply cabs_two; cbn [cexp cval fst snd]; assumption.
Qed.

Lemma exp_prod_fixed : forall z w, fvalid f (re z) -> fvalid f (im z) -> fvalid f (re w) -> fvalid f (im w) -> (Rabs (v (im z)) <= b)%R -> (Rabs (v (im w)) <= b)%R ->
  let x := exp (v (re z)) in let y := exp (v (re w)) in (x <= M)%R -> (y <= M)%R -> ((1 + d) * (x + dg) <= mx)%R -> ((1 + d) * (y + dg) <= mx)%R ->
  ((x + err x) * (y + err y) + 224 / 100 * ulp f <= mx)%R ->
  exists r, (p <- ce z ;; q <- ce w ;; cartesian_mul (fixed_ops m f) p q) = Ok r /\
  (cabs (csub (cval f r) (cexp (v (re z) + v (re w), v (im z) + v (im w)))) <= err x * (y + err y) + x * err y + 224 / 100 * ulp f)%R.
Proof using Hf Hs HS HE D0 G0.
  intros z w Vz1 Vz2 Vw1 Vw2 Bz Bw x y X Y F1 F2 F3.
  destruct (exp_one z Vz1 Vz2 Bz X F1) as (p & Ep & Ap). destruct (exp_one w Vw1 Vw2 Bw Y F2) as (q & Eq & Aq). fold x in Ap. fold y in Aq.
  assert (XP : (0 < x)%R) by apply exp_pos. assert (YP : (0 < y)%R) by apply exp_pos.
  pose proof (cabs_via (cval f p) (cexp (cval f z))) as Lp. pose proof (cabs_via (cval f q) (cexp (cval f w))) as Lq.
  rewrite cexp_abs in Lp, Lq. cbn [cval fst] in Lp, Lq. fold x in Lp. fold y in Lq.
  assert (P0 : (0 <= cabs (cval f p))%R) by apply sqrt_pos. assert (Q0 : (0 <= cabs (cval f q))%R) by apply sqrt_pos.
  destruct (fixed_mul_near m f Hf Hs p q) as (r & Er & Ar).
  { assert (cabs (cval f p) * cabs (cval f q) <= (x + err x) * (y + err y))%R by (apply Rmult_le_compat; auto; unfold cval in *; lra). lra. }
  exists r. rewrite Ep, Eq. cbn [bind]. split; auto.
  eapply Rle_trans; [apply (csub_tri _ (cmul (cval f p) (cval f q)))|]. 
  change (v (re z)) with (fst (cval f z)). change (v (re w)) with (fst (cval f w)). change (v (im z)) with (snd (cval f z)). change (v (im w)) with (snd (cval f w)). rewrite <- cexp_add.
  pose proof (cmul_diff (cval f p) (cval f q) (cexp (cval f z)) (cexp (cval f w))) as DD. rewrite cexp_abs in DD. change (exp (fst (cval f z))) with x in DD.
  assert (A : (cabs (csub (cval f p) (cexp (cval f z))) * cabs (cval f q) <= err x * (y + err y))%R).
  { apply Rmult_le_compat; auto; [apply sqrt_pos | unfold cval in *; lra]. }
  assert (B : (x * cabs (csub (cval f q) (cexp (cval f w))) <= x * err y)%R) by (apply Rmult_le_compat_l; lra). lra.
Qed.

Lemma exp_law_fixed : forall z w, fvalid f (re z) -> fvalid f (im z) -> fvalid f (re w) -> fvalid f (im w) -> fvalid f (re z + re w) -> fvalid f (im z + im w) ->
  (Rabs (v (im z)) <= b)%R -> (Rabs (v (im w)) <= b)%R -> (Rabs (v (im z) + v (im w)) <= b)%R ->
  let x := exp (v (re z)) in let y := exp (v (re w)) in (x <= M)%R -> (y <= M)%R -> (x * y <= M)%R ->
  ((1 + d) * (x + dg) <= mx)%R -> ((1 + d) * (y + dg) <= mx)%R -> ((1 + d) * (x * y + dg) <= mx)%R ->
  ((x + err x) * (y + err y) + 224 / 100 * ulp f <= mx)%R ->
  exists l r, (p <- ce z ;; q <- ce w ;; cartesian_mul (fixed_ops m f) p q) = Ok l /\ (s <- cartesian_add (fixed_ops m f) z w ;; ce s) = Ok r /\
  (cabs (csub (cval f l) (cval f r)) <= err x * (y + err y) + x * err y + err (x * y) + 224 / 100 * ulp f)%R.
Proof using Hf Hs HS HE D0 G0.
  intros z w Vz1 Vz2 Vw1 Vw2 Vs1 Vs2 Bz Bw Bs x y X Y XY F1 F2 F12 F3.
  destruct (exp_prod_fixed z w Vz1 Vz2 Vw1 Vw2 Bz Bw X Y F1 F2 F3) as (l & El & Al). fold x y in Al.
  assert (VA : forall a c, v (a + c) = (v a + v c)%R) by (intros; unfold fval; rewrite plus_IZR; ring).
  assert (EXY : exp (v (re z + re w)) = (x * y)%R) by (rewrite VA; apply exp_plus).
  destruct (exp_one (mkC (re z + re w) (im z + im w))) as (r & Er & Ar); cbn [re im]; auto.
  - rewrite VA. exact Bs.
  - rewrite EXY. exact XY.
  - rewrite EXY. exact F12.
  - exists l, r. split; auto. split.
    + change (cartesian_add (fixed_ops m f) z w) with (a <- fx_fin m f (re z + re w) ;; c <- fx_fin m f (im z + im w) ;; Ok (mkC a c)). rewrite !fx_fin_ok by auto. cbn [bind]. exact Er.
    + cbn [re im] in Ar. rewrite EXY in Ar. eapply Rle_trans; [apply (csub_tri _ (cexp (v (re z) + v (re w), v (im z) + v (im w))%R))|].
      rewrite (csub_sym _ (cval f r)). unfold cval at 2 in Ar. cbn [re im] in Ar. rewrite !VA in Ar. lra.
Qed.

Lemma exp_inv_fixed : forall z, fvalid f (re z) -> fvalid f (im z) -> fvalid f (- re z) -> fvalid f (- im z) -> (Rabs (v (im z)) <= b)%R ->
  let x := exp (v (re z)) in (x <= M)%R -> (/ x <= M)%R -> ((1 + d) * (x + dg) <= mx)%R -> ((1 + d) * (/ x + dg) <= mx)%R ->
  ((x + err x) * (/ x + err (/ x)) + 224 / 100 * ulp f <= mx)%R ->
  exists r, (p <- ce z ;; n <- cartesian_sub (fixed_ops m f) (mkC 0 0) z ;; q <- ce n ;; cartesian_mul (fixed_ops m f) p q) = Ok r /\
  (cabs (csub (cval f r) (1, 0)) <= err x * (/ x + err (/ x)) + x * err (/ x) + 224 / 100 * ulp f)%R.
Proof using Hf Hs HS HE D0 G0.
  intros z V1 V2 N1 N2 B x X Y F1 F2 F3. assert (VN : forall a, v (- a) = (- v a)%R) by (intros; unfold fval; rewrite opp_IZR; ring).
  assert (EI : exp (v (- re z)) = (/ x)%R) by (rewrite VN; apply exp_Ropp).
  destruct (exp_prod_fixed z (mkC (- re z) (- im z))) as (r & Er & Ar); cbn [re im]; auto; try (rewrite EI; auto).
  - rewrite VN, Rabs_Ropp. exact B.
  - exists r. split.
    + change (cartesian_sub (fixed_ops m f) (mkC 0 0) z) with (a <- fx_fin m f (- re z) ;; c <- fx_fin m f (- im z) ;; Ok (mkC a c)). rewrite !fx_fin_ok by auto. cbn [bind]. exact Er.
    + cbn [re im] in Ar. rewrite EI in Ar. fold x in Ar. rewrite !VN, !Rplus_opp_r in Ar. unfold cexp in Ar. cbn [fst snd] in Ar. rewrite exp_0, cos_0, sin_0, Rmult_1_r, Rmult_0_r in Ar. exact Ar.
Qed.
Lemma euler_fixed : (4 <= b)%R -> (1 <= M)%R -> ((1 + d) * (1 + dg) <= mx)%R ->
  exists p r, mixed_pi (fixed_pi m f) = Ok p /\ ce (mkC 0 p) = Ok r /\ (cabs (csub (cval f r) (-1, 0)) <= err 1 + 71 / 100 * ulp f + / 500000000000000)%R.
Proof using Hf Hs HS HE.
  intros B M1 F. destruct (c50_fixed m f Hf) as [(p & Ep & V & AP) _]. assert (Z0 : v 0 = 0%R) by (unfold fval; ring).
  assert (U1 : (ulp f <= 1)%R) by (unfold ulp; change 1%R with (bpow radix2 0); apply bpow_le; pose proof (supported_fwf f Hf) as W; unfold fwf in W; lia).
  assert (PB : (Rabs (v p) <= b)%R).
  { apply Rabs_le. apply Rabs_le_inv in AP. pose proof PI_4. pose proof PI2_3_2. unfold PI2 in *. destruct pi_bounds as [? ?]. lra. }
  destruct (exp_one (mkC 0 p)) as (r & Er & Ar); cbn [re im]; auto; try (rewrite Z0, exp_0; auto).
  - apply zero_valid; auto.
  - exists p, r. split; auto. split; auto. cbn [re im] in Ar. rewrite Z0, exp_0 in Ar. eapply Rle_trans; [apply (csub_tri _ (cexp (cval f (mkC 0 p))))|].
    replace (cexp (cval f (mkC 0 p))) with (cis (v p)) in * by (unfold cexp, cval, cis; cbn [fst snd re im]; rewrite Z0, exp_0; f_equal; ring).
    pose proof (cis_near (Rtrigo_def.sin (v p)) (Rtrigo_def.cos (v p)) PI (Rabs (v p - PI)) (sin_lipschitz _ _) (cos_lipschitz _ _)) as CN.
    replace (cis PI) with (-1, 0)%R in CN by (unfold cis; rewrite cos_PI, sin_PI; reflexivity). change (Rtrigo_def.cos (v p), Rtrigo_def.sin (v p))%R with (cis (v p)) in CN.
    set (t := Rabs (v p - PI)) in *. assert (U : (0 < ulp f)%R) by apply bpow_gt_0. lra.
Qed.
End L.

Lemma law_example : let f := mkFty true 32 22 in let d := ulp f in let err := exp_err_fixed f d d in
  let z := mkC (2 ^ 22) (2 ^ 21) in let w := mkC (2 ^ 22) (- 2 ^ 23) in let x := exp (fval f (re z)) in let y := exp (fval f (re w)) in
  fvalid f (re z + re w) /\ fvalid f (im z + im w) /\ ((1 + d) * (x + d) <= fval f (fmax f))%R /\ ((1 + d) * (x * y + d) <= fval f (fmax f))%R /\ ((x + err x) * (y + err y) + 224 / 100 * ulp f <= fval f (fmax f))%R.
Proof.
  intros f d err z w x y. assert (U : d = (/ 4194304)%R) by reflexivity.
  assert (X : x = exp 1). { unfold x. f_equal. unfold fval, z. cbn [re]. change (bpow radix2 (- ffrac f)) with (/ 4194304)%R. change (2 ^ 22) with 4194304. lra. }
  assert (Y : y = exp 1) by exact X. pose proof (exp_pos 1) as E0. pose proof exp_le_3 as E3.
  assert (MX : fval f (fmax f) = (2147483647 * / 4194304)%R) by reflexivity.
  split; [cbv; split; discriminate|]. split; [cbv; split; discriminate|]. rewrite MX, X, Y. unfold err, exp_err_fixed. change (ulp f) with d. rewrite U. set (e := exp 1) in *. 
  assert (e * e <= 9)%R by nra. split; [lra|]. split; [lra|].
  set (k := (14143 / 10000 * (e * / 4194304 + (1 + / 4194304) * / 4194304 + / 4194304))%R). assert (0 <= k <= 1)%R by (unfold k; lra). nra.
Qed.
