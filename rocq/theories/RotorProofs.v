(** * Associativity of products and rotation by computed unit numbers. *)

From Coq Require Import ZArith Reals Lia Lra Psatz Bool List.
From Flocq Require Import Core.Core IEEE754.BinarySingleNaN.
From Verif Require Import Base FloatBase Literals Traits Trig IntImpl FixedPrim FixedImpl FloatImpl Complex Spec SpecFilter SpecRotor
  Lemmas FloatLemmas FloatKit ScalarProofs ScalarProofs2 WrapProofs WrapProofs2 SinReal SinFixed SinFloat TrigProofs ComplexProofs3 PolarProofs ProdProofs FilterProofs FloatArith FloatFilter PhaseAcc TrigMore MagMul.
Import ListNotations.
Open Scope Z_scope.

Section Real.
Open Scope R_scope.
Lemma csub_tri : forall x y z, cabs (csub x z) <= cabs (csub x y) + cabs (csub y z).
Proof.
  intros [a b] [c d] [e g]. unfold csub. cbn [fst snd]. replace (a - e) with ((a - c) + (c - e)) by ring. replace (b - g) with ((b - d) + (d - g)) by ring. apply cabs_tri.
Qed.
Lemma csub_sym : forall x y, cabs (csub x y) = cabs (csub y x).
Proof. intros [a b] [c d]. unfold csub, cabs. cbn [fst snd]. f_equal. ring. Qed.
Lemma cabs_via : forall x y, cabs x <= cabs y + cabs (csub x y).
Proof.
  intros [a b] [c d]. unfold csub. cbn [fst snd]. replace (cabs (a, b)) with (cabs (c + (a - c), d + (b - d))) by (f_equal; f_equal; ring). apply cabs_tri.
Qed.
Lemma cabs_diff : forall x y, Rabs (cabs x - cabs y) <= cabs (csub x y).
Proof. intros x y. pose proof (cabs_via x y). pose proof (cabs_via y x). rewrite (csub_sym y x) in H0. apply Rabs_le. lra. Qed.
Lemma cabs_cmul : forall z w, cabs (cmul z w) = cabs z * cabs w.
Proof. exact cabs_mul. Qed.
Lemma cmul_assoc : forall x y z, cmul (cmul x y) z = cmul x (cmul y z).
Proof. intros [a b] [c d] [e g]. unfold cmul. cbn [fst snd]. f_equal; ring. Qed.
Lemma cmul_diff : forall x y z w, cabs (csub (cmul x y) (cmul z w)) <= cabs (csub x z) * cabs y + cabs z * cabs (csub y w).
Proof.
  intros x y z w. eapply Rle_trans; [apply (csub_tri _ (cmul z y))|].
  replace (csub (cmul x y) (cmul z y)) with (cmul (csub x z) y) by (unfold cmul, csub; cbn [fst snd]; f_equal; ring).
  replace (csub (cmul z y) (cmul z w)) with (cmul z (csub y w)) by (unfold cmul, csub; cbn [fst snd]; f_equal; ring).
  rewrite !cabs_cmul. lra.
Qed.
Lemma cis_abs : forall a, cabs (cis a) = 1.
Proof. intros a. unfold cabs, cis. cbn [fst snd]. pose proof (sin2_cos2 a) as H. unfold Rsqr in H. replace (Rtrigo_def.cos a * Rtrigo_def.cos a + Rtrigo_def.sin a * Rtrigo_def.sin a) with 1 by lra. apply sqrt_1. Qed.
Lemma cis_add : forall a b, cmul (cis a) (cis b) = cis (a + b).
Proof. intros a b. unfold cmul, cis. cbn [fst snd]. rewrite cos_plus, sin_plus. f_equal. ring. Qed.
Lemma cis_near : forall s c a d, Rabs (s - Rtrigo_def.sin a) <= d -> Rabs (c - Rtrigo_def.cos a) <= d -> cabs (csub (c, s) (cis a)) <= 14143 / 10000 * d.
Proof. intros s c a d S C. unfold csub, cis. cbn [fst snd]. apply cabs_two; auto. Qed.
End Real.

(** ** fixed *)
Notation g f := (224 / 100 * ulp f)%R.
Lemma fixed_mul_near : forall m f, supported f = true -> fsigned f = true -> forall z w, (cabs (cval f z) * cabs (cval f w) + g f <= fval f (fmax f))%R ->
  exists r, cartesian_mul (fixed_ops m f) z w = Ok r /\ (cabs (csub (cval f r) (cmul (cval f z) (cval f w))) <= g f)%R.
Proof.
  intros m f S Sg z w H. pose proof (supported_fwf f S) as W. assert (U : (0 < ulp f)%R) by apply bpow_gt_0.
  unfold cval in *. set (a := fval f (re z)) in *. set (b := fval f (im z)) in *. set (c := fval f (re w)) in *. set (d := fval f (im w)) in *.
  set (N := (cabs (a, b) * cabs (c, d))%R) in *.
  destruct (cabs_part (a, b) (c, d)) as (P1 & P2 & P3 & P4). cbn [fst snd] in *. fold N in P1, P2, P3, P4.
  pose proof (cabs_mul (a, b) (c, d)) as CM. cbn [fst snd] in CM. fold N in CM.
  pose proof (cabs_fst (a * c - b * d, a * d + b * c)%R) as Q1. pose proof (cabs_snd (a * c - b * d, a * d + b * c)%R) as Q2. rewrite CM in Q1, Q2. cbn [fst snd] in Q1, Q2.
  assert (ED : exists p, cartesian_mul (fixed_ops Debug f) z w = Ok p).
  { rewrite mul_fixed_debug. cbv zeta.
    pose proof (fval_mul f (re z) (re w) (proj1 W)) as M1. pose proof (fval_mul f (im z) (im w) (proj1 W)) as M2. pose proof (fval_mul f (re z) (im w) (proj1 W)) as M3. pose proof (fval_mul f (im z) (re w) (proj1 W)) as M4.
    fold a b c d in M1, M2, M3, M4. apply Rabs_le_inv in P1, P2, P3, P4, Q1, Q2.
    assert (SB : forall x y, fval f (x - y) = (fval f x - fval f y)%R) by (intros; unfold fval; rewrite minus_IZR; ring). assert (SA : forall x y, fval f (x + y) = (fval f x + fval f y)%R) by (intros; unfold fval; rewrite plus_IZR; ring).
    match goal with |- exists p, (if ?t then _ else _) = _ => assert (OK : t = true) end.
    { cbn [forallb]. rewrite !(fval_inj_range f S Sg); try reflexivity; rewrite ?SB, ?SA; apply Rabs_le; lra. }
    rewrite OK. eauto. }
  destruct ED as (p & ED).
  assert (R : cartesian_mul (fixed_ops m f) z w = Ok p /\ (Rabs (fval f (re p) - (a * c - b * d)) <= ulp f)%R /\ (- 2 * ulp f <= fval f (im p) - (a * d + b * c) <= 0)%R).
  { split; [destruct m; auto; apply mul_release_of_debug; auto|]. rewrite mul_fixed_debug in ED. cbv zeta in ED. destruct (forallb _ _) in ED; [|discriminate]. injection ED as <-. cbn [re im].
    pose proof (fval_mul f (re z) (re w) (proj1 W)) as M1. pose proof (fval_mul f (im z) (im w) (proj1 W)) as M2. pose proof (fval_mul f (re z) (im w) (proj1 W)) as M3. pose proof (fval_mul f (im z) (re w) (proj1 W)) as M4.
    fold a b c d in M1, M2, M3, M4. unfold Z.sub. rewrite !fval_add, fval_neg. split; [apply Rabs_le|]; lra. }
  destruct R as (ER & A1 & A2). exists p. split; auto. unfold csub, cmul. cbn [fst snd]. apply Rabs_le_inv in A1.
  apply cabs_le; [lra|]. cbn [fst snd]. set (x := (fval f (re p) - (a * c - b * d))%R) in *. set (y := (fval f (im p) - (a * d + b * c))%R) in *.
  assert (x * x <= ulp f * ulp f)%R by nra. assert (y * y <= 4 * (ulp f * ulp f))%R by nra. nra.
Qed.

Lemma assoc_fixed : forall m f, supported f = true -> fsigned f = true -> forall z w v,
  let A := cabs (cval f z) in let B := cabs (cval f w) in let C := cabs (cval f v) in let M := fval f (fmax f) in
  ((A * B + g f) * (C + 1) <= M)%R -> ((B * C + g f) * (A + 1) <= M)%R ->
  exists l r, (zw <- cartesian_mul (fixed_ops m f) z w ;; cartesian_mul (fixed_ops m f) zw v) = Ok l /\
  (wv <- cartesian_mul (fixed_ops m f) w v ;; cartesian_mul (fixed_ops m f) z wv) = Ok r /\
  (cabs (csub (cval f l) (cval f r)) <= g f * (A + C + 2))%R.
Proof.
  intros m f S Sg z w v A B C M H1 H2. assert (U : (0 < ulp f)%R) by apply bpow_gt_0.
  assert (A0 : (0 <= A)%R) by apply cabs_pos. assert (B0 : (0 <= B)%R) by apply cabs_pos. assert (C0 : (0 <= C)%R) by apply cabs_pos.
  assert (AB : (0 <= A * B)%R) by (apply Rmult_le_pos; auto). assert (BC : (0 <= B * C)%R) by (apply Rmult_le_pos; auto).
  assert (X1 : (0 <= (A * B + g f) * C)%R) by (apply Rmult_le_pos; lra). assert (X2 : (0 <= (B * C + g f) * A)%R) by (apply Rmult_le_pos; lra).
  destruct (fixed_mul_near m f S Sg z w) as (zw & E1 & N1); [fold A B M; lra|].
  destruct (fixed_mul_near m f S Sg w v) as (wv & E2 & N2); [fold B C M; lra|].
  pose proof (cabs_via (cval f zw) (cmul (cval f z) (cval f w))) as V1. rewrite cabs_cmul in V1. fold A B in V1.
  pose proof (cabs_via (cval f wv) (cmul (cval f w) (cval f v))) as V2. rewrite cabs_cmul in V2. fold B C in V2.
  destruct (fixed_mul_near m f S Sg zw v) as (l & E3 & N3).
  { fold C M. assert (cabs (cval f zw) * C <= (A * B + g f) * C)%R by (apply Rmult_le_compat_r; lra). lra. }
  destruct (fixed_mul_near m f S Sg z wv) as (r & E4 & N4).
  { fold A M. assert (A * cabs (cval f wv) <= A * (B * C + g f))%R by (apply Rmult_le_compat_l; lra). lra. }
  exists l, r. rewrite E1, E2. cbn [bind]. rewrite E3, E4. split; auto. split; auto.
  pose proof (cmul_diff (cval f zw) (cval f v) (cmul (cval f z) (cval f w)) (cval f v)) as D1. rewrite csub_self, Rmult_0_r, Rplus_0_r in D1. fold C in D1.
  pose proof (cmul_diff (cval f z) (cmul (cval f w) (cval f v)) (cval f z) (cval f wv)) as D2. rewrite csub_self, Rmult_0_l, Rplus_0_l, (csub_sym (cmul (cval f w) (cval f v))) in D2. fold A in D2.
  rewrite cmul_assoc in D1. pose proof (csub_tri (cval f l) (cmul (cval f zw) (cval f v)) (cval f r)) as T1.
  pose proof (csub_tri (cmul (cval f zw) (cval f v)) (cmul (cval f z) (cmul (cval f w) (cval f v))) (cval f r)) as T2.
  pose proof (csub_tri (cmul (cval f z) (cmul (cval f w) (cval f v))) (cmul (cval f z) (cval f wv)) (cval f r)) as T3.
  rewrite (csub_sym (cmul (cval f z) (cval f wv)) (cval f r)) in T3.
  assert (cabs (csub (cval f zw) (cmul (cval f z) (cval f w))) * C <= g f * C)%R by (apply Rmult_le_compat_r; auto).
  assert (A * cabs (csub (cval f wv) (cmul (cval f w) (cval f v))) <= A * g f)%R by (apply Rmult_le_compat_l; auto). lra.
Qed.

(** computed sine and cosine *)
Notation fixed_sin m f := (Trig.sin (fixed_ops m f) (fixed_signed m f) (fixed_pi m f) (fixed_powi m f)).
Notation fixed_cos m f := (Trig.cos (fixed_ops m f) (fixed_signed m f) (fixed_pi m f) (fixed_powi m f)).
Notation e f := (5 / 1000000 + 7 * ulp f)%R.
Lemma sincos_fixed : forall m f, supported f = true -> fsigned f = true -> ffrac f <= fwidth f - 20 -> forall x, (Rabs (fval f x) <= PI)%R ->
  exists s c, fixed_sin m f x = Ok s /\ returns (fun fuel => fixed_cos m f fuel x) c /\
  (Rabs (fval f s - Rtrigo_def.sin (fval f x)) <= e f)%R /\ (Rabs (fval f c - Rtrigo_def.cos (fval f x)) <= e f)%R.
Proof.
  intros m f Hf S I x X. pose proof (supported_fwf f Hf) as W. pose proof (pi_bits_bounds f W) as PB. pose proof (fone_pos f (proj1 W)) as Q.
  destruct (c19 m f Hf S I) as (p & Ep & XP & A). destruct (c21 m f Hf S I) as (p' & Ep' & B).
  assert (Pe : p = pi_bits f) by (rewrite fixed_pi_eq in Ep by auto; congruence). assert (Pe' : p' = p) by congruence. subst p'.
  pose proof (XP x X) as H. destruct (A x H) as (s & Es & As).
  assert (HZ : Z.abs x <= p) by (rewrite fval_abs, fval_le in H by apply W; exact H).
  assert (V : fvalid f x). { pose proof (room f W I). apply fvalid_iff. rewrite S. lia. }
  destruct (B x V) as (c & Ec & Ac).
  { pose proof (room f W I) as RM. rewrite !fval_eq by apply W. pose proof (fone_IZR_pos f (proj1 W)) as P. unfold Rdiv.
    assert (K : (IZR x + IZR p * / 2 <= IZR (fmax f))%R).
    { rewrite fmax_signed by auto. assert (L : 2 * x + p <= 2 * (2 ^ (fwidth f - 1) - 1)) by lia. apply IZR_le in L. rewrite plus_IZR, !mult_IZR in L. lra. }
    replace (IZR x * / IZR (fone f) + IZR p * / IZR (fone f) * / 2)%R with ((IZR x + IZR p * / 2) * / IZR (fone f))%R by ring.
    apply Rmult_le_compat_r; [apply Rlt_le, Rinv_0_lt_compat; auto|auto]. }
  exists s, c. split; auto. split; auto. assert (U : (0 < ulp f)%R) by apply bpow_gt_0. pose proof pi_bounds as PI1.
  split; [lra|]. eapply Rle_trans; [exact Ac|]. assert (Rabs (fval f x) / 5 * ulp f <= 7 / 10 * ulp f)%R by (apply Rmult_le_compat_r; lra). lra.
Qed.
Notation rotor_fixed m f fuel x := (s <- fixed_sin m f x ;; c <- fixed_cos m f fuel x ;; Ok (mkC c s)).
Lemma rotor_fixed_ok : forall m f, supported f = true -> fsigned f = true -> ffrac f <= fwidth f - 20 -> forall x, (Rabs (fval f x) <= PI)%R ->
  exists w, returns (fun fuel => rotor_fixed m f fuel x) w /\ (cabs (csub (cval f w) (cis (fval f x))) <= 14143 / 10000 * e f)%R.
Proof.
  intros m f Hf S I x X. destruct (sincos_fixed m f Hf S I x X) as (s & c & Es & [n Ec] & As & Ac). exists (mkC c s).
  split; [exists n; intros fuel L; rewrite Es; cbn [bind]; rewrite Ec by auto; reflexivity|]. apply cis_near; auto.
Qed.
Lemma rotate_fixed : forall m f, supported f = true -> fsigned f = true -> ffrac f <= fwidth f - 20 -> forall z x, (Rabs (fval f x) <= PI)%R ->
  let d := (14143 / 10000 * e f)%R in (cabs (cval f z) * (1 + d) + g f <= fval f (fmax f))%R ->
  exists r, returns (fun fuel => w <- rotor_fixed m f fuel x ;; cartesian_mul (fixed_ops m f) z w) r /\
  (cabs (csub (cval f r) (cmul (cval f z) (cis (fval f x)))) <= cabs (cval f z) * d + g f)%R /\
  (Rabs (cabs (cval f r) - cabs (cval f z)) <= cabs (cval f z) * d + g f)%R.
Proof.
  intros m f Hf S I z x X d H. destruct (rotor_fixed_ok m f Hf S I x X) as (w & [n Ew] & Nw). fold d in Nw.
  pose proof (cabs_pos (cval f z)) as Z0. pose proof (cabs_via (cval f w) (cis (fval f x))) as V. rewrite cis_abs in V.
  destruct (fixed_mul_near m f Hf S z w) as (r & E & N).
  { assert (cabs (cval f z) * cabs (cval f w) <= cabs (cval f z) * (1 + d))%R by (apply Rmult_le_compat_l; lra). lra. }
  assert (D : (cabs (csub (cval f r) (cmul (cval f z) (cis (fval f x)))) <= cabs (cval f z) * d + g f)%R).
  { pose proof (csub_tri (cval f r) (cmul (cval f z) (cval f w)) (cmul (cval f z) (cis (fval f x)))) as T.
    pose proof (cmul_diff (cval f z) (cval f w) (cval f z) (cis (fval f x))) as D. rewrite csub_self, Rmult_0_l, Rplus_0_l in D.
    assert (cabs (cval f z) * cabs (csub (cval f w) (cis (fval f x))) <= cabs (cval f z) * d)%R by (apply Rmult_le_compat_l; auto). lra. }
  exists r. split; [exists n; intros fuel L; rewrite Ew by auto; exact E|]. split; auto.
  pose proof (cabs_diff (cval f r) (cmul (cval f z) (cis (fval f x)))) as F. rewrite cabs_cmul, cis_abs, Rmult_1_r in F. lra.
Qed.
Lemma rotor_sum_fixed : forall m f, supported f = true -> fsigned f = true -> ffrac f <= fwidth f - 20 -> forall a b, (Rabs (fval f a) <= PI)%R -> (Rabs (fval f b) <= PI)%R ->
  let d := (14143 / 10000 * e f)%R in
  exists r, returns (fun fuel => u <- rotor_fixed m f fuel a ;; v <- rotor_fixed m f fuel b ;; cartesian_mul (fixed_ops m f) u v) r /\
  (cabs (csub (cval f r) (cis (fval f a + fval f b))) <= d * (2 + d) + g f)%R.
Proof.
  intros m f Hf S I a b Xa Xb d. destruct (rotor_fixed_ok m f Hf S I a Xa) as (u & [n1 Eu] & Nu). destruct (rotor_fixed_ok m f Hf S I b Xb) as (v & [n2 Ev] & Nv). fold d in Nu, Nv.
  pose proof (supported_fwf f Hf) as W. assert (U : (0 < ulp f <= 1)%R). { split; [apply bpow_gt_0|]. change 1%R with (bpow radix2 0). apply bpow_le. pose proof (proj1 W). lia. }
  pose proof (cabs_via (cval f u) (cis (fval f a))) as V1. rewrite cis_abs in V1. pose proof (cabs_via (cval f v) (cis (fval f b))) as V2. rewrite cis_abs in V2.
  assert (FM : (1000 <= fval f (fmax f))%R). { rewrite fval_eq, fmax_signed by (auto; apply W). pose proof (fone_IZR_pos f (proj1 W)) as P. apply Rmult_le_reg_r with (IZR (fone f)); auto. unfold Rdiv. rewrite Rmult_assoc, Rinv_l, Rmult_1_r by lra. rewrite <- mult_IZR. apply IZR_le.
    pose proof (fone_pos f (proj1 W)). pose proof (proj1 W) as W0. assert (2 ^ 19 * fone f <= 2 ^ (fwidth f - 1)). { unfold fone. rewrite <- Z.pow_add_r by lia. apply Z.pow_le_mono_r; lia. } lia. }
  assert (DD : (0 <= d <= 10)%R) by (unfold d; lra).
  pose proof (cabs_pos (cval f u)) as U0. pose proof (cabs_pos (cval f v)) as V0.
  destruct (fixed_mul_near m f Hf S u v) as (r & E & N).
  { assert (cabs (cval f u) * cabs (cval f v) <= 11 * 11)%R by (apply Rmult_le_compat; lra). lra. }
  exists r. split; [exists (max n1 n2); intros fuel L; rewrite Eu by lia; cbn [bind]; rewrite Ev by lia; exact E|].
  pose proof (csub_tri (cval f r) (cmul (cval f u) (cval f v)) (cis (fval f a + fval f b))) as T. rewrite <- cis_add in T at 2.
  pose proof (cmul_diff (cval f u) (cval f v) (cis (fval f a)) (cis (fval f b))) as D. rewrite cis_abs, Rmult_1_l in D. rewrite cis_add in *.
  assert (cabs (csub (cval f u) (cis (fval f a))) * cabs (cval f v) <= d * (1 + d))%R by (apply Rmult_le_compat; try lra; apply cabs_pos). lra.
Qed.

(** ** floats *)
Section Float.
Context {prec emax : Z} {Hp : Prec_gt_0 prec} {He : Prec_lt_emax prec emax}.
Notation float := (binary_float prec emax).
Notation u := (bpow radix2 (- prec)).
Notation eta := (bpow radix2 (3 - emax - prec)).
Notation fv := (@cvalf prec emax).
Hypothesis P5 : 5 <= prec.

Lemma u_small : (0 < u <= / 32)%R.
Proof using P5. split; [apply bpow_gt_0|]. change (/ 32)%R with (bpow radix2 (-5)). apply bpow_le. lia. Qed.
Lemma float_mul_near : forall k, 3 - emax <= 2 * k -> 2 * k + 1 < emax -> forall z w : Cartesian float, cfin z -> cfin w ->
  (cabs (fv z) <= bpow radix2 k)%R -> (cabs (fv w) <= bpow radix2 k)%R ->
  exists r, cartesian_mul float_ops z w = Ok r /\ cfin r /\ (cabs (csub (fv r) (cmul (fv z) (fv w))) <= 3 * u * (cabs (fv z) * cabs (fv w)) + 3 * eta)%R.
Proof using P5.
  intros k K1 K2 z w Fz Fw Nz Nw. pose proof u_small as US.
  destruct (fl_mul z w ltac:(lia) Fz Fw k K1 K2) as (p & E & Fp & A1 & A2).
  { apply Rle_trans with (2 := Nz). apply (cabs_fst (fv z)). }
  { apply Rle_trans with (2 := Nz). apply (cabs_snd (fv z)). }
  { apply Rle_trans with (2 := Nw). apply (cabs_fst (fv w)). }
  { apply Rle_trans with (2 := Nw). apply (cabs_snd (fv w)). }
  exists p. split; auto. split; auto. unfold cvalf, csub, cmul in *. cbn [fst snd] in *.
  set (a := B2R (re z)) in *. set (b := B2R (im z)) in *. set (c := B2R (re w)) in *. set (d := B2R (im w)) in *.
  pose proof (abs_cs a b c d) as C1. pose proof (abs_cs a b d c) as C2.
  replace (cabs (d, c)) with (cabs (c, d)) in C2 by (unfold cabs; cbn [fst snd]; f_equal; ring).
  set (N := (cabs (a, b) * cabs (c, d))%R) in *. assert (N0 : (0 <= N)%R) by (apply Rmult_le_pos; apply cabs_pos).
  assert (EE : (0 < eta)%R) by apply bpow_gt_0. set (D := ((2 * u + u * u) * N + 2 * eta)%R).
  assert (K0 : (0 <= 2 * u + u * u)%R) by nra.
  eapply Rle_trans; [apply (cabs_two _ _ D)|].
  - eapply Rle_trans; [exact A1|]. unfold D. assert ((2 * u + u * u) * (Rabs (a * c) + Rabs (b * d)) <= (2 * u + u * u) * N)%R by (apply Rmult_le_compat_l; auto). lra.
  - eapply Rle_trans; [exact A2|]. unfold D. assert ((2 * u + u * u) * (Rabs (a * d) + Rabs (b * c)) <= (2 * u + u * u) * N)%R by (apply Rmult_le_compat_l; auto). lra.
  - unfold D. assert (u * u <= / 32 * u)%R by nra. assert (u * u * N <= / 32 * u * N)%R by (apply Rmult_le_compat_r; auto).
    assert (0 <= u * N)%R by (apply Rmult_le_pos; lra). lra.
Qed.

Lemma assoc_float : forall k, 0 <= k -> 2 * (2 * k + 1) + 1 < emax -> forall z w v : Cartesian float, cfin z -> cfin w -> cfin v ->
  let A := cabs (fv z) in let B := cabs (fv w) in let C := cabs (fv v) in (A <= bpow radix2 k)%R -> (B <= bpow radix2 k)%R -> (C <= bpow radix2 k)%R ->
  exists l r, (zw <- cartesian_mul float_ops z w ;; cartesian_mul float_ops zw v) = Ok l /\ (wv <- cartesian_mul float_ops w v ;; cartesian_mul float_ops z wv) = Ok r /\
  cfin l /\ cfin r /\ (cabs (csub (fv l) (fv r)) <= 13 * u * (A * B * C) + 4 * eta * (A + C + 2))%R.
Proof using P5.
  intros k K0 K z w v Fz Fw Fv A B C HA HB HC. pose proof u_small as US.
  assert (A0 : (0 <= A)%R) by apply cabs_pos. assert (B0 : (0 <= B)%R) by apply cabs_pos. assert (C0 : (0 <= C)%R) by apply cabs_pos.
  assert (EE : (0 < eta <= / 16)%R). { split; [apply bpow_gt_0|]. change (/ 16)%R with (bpow radix2 (-4)). apply bpow_le. lia. }
  assert (KB : (1 <= bpow radix2 k)%R) by (change 1%R with (bpow radix2 0); apply bpow_le; lia).
  assert (KK : bpow radix2 (2 * k + 1) = (2 * (bpow radix2 k * bpow radix2 k))%R) by (replace (2 * k + 1) with (1 + (k + k)) by lia; rewrite !bpow_plus; reflexivity).
  assert (AB : (0 <= A * B <= bpow radix2 k * bpow radix2 k)%R) by (split; [apply Rmult_le_pos; auto | apply Rmult_le_compat; auto]).
  assert (BC : (0 <= B * C <= bpow radix2 k * bpow radix2 k)%R) by (split; [apply Rmult_le_pos; auto | apply Rmult_le_compat; auto]).
  assert (KL : (bpow radix2 k <= bpow radix2 (2 * k + 1))%R) by (apply bpow_le; lia).
  assert (KS : (1 <= bpow radix2 k * bpow radix2 k)%R) by nra.
  destruct (float_mul_near k ltac:(lia) ltac:(lia) z w Fz Fw HA HB) as (zw & E1 & F1 & N1). fold A B in N1.
  destruct (float_mul_near k ltac:(lia) ltac:(lia) w v Fw Fv HB HC) as (wv & E2 & F2 & N2). fold B C in N2.
  pose proof (cabs_via (fv zw) (cmul (fv z) (fv w))) as V1. rewrite cabs_cmul in V1. fold A B in V1.
  pose proof (cabs_via (fv wv) (cmul (fv w) (fv v))) as V2. rewrite cabs_cmul in V2. fold B C in V2.
  assert (UAB : (0 <= u * (A * B) <= / 32 * (A * B))%R) by (split; [apply Rmult_le_pos; lra | apply Rmult_le_compat_r; lra]).
  assert (UBC : (0 <= u * (B * C) <= / 32 * (B * C))%R) by (split; [apply Rmult_le_pos; lra | apply Rmult_le_compat_r; lra]).
  destruct (float_mul_near (2 * k + 1) ltac:(lia) ltac:(lia) zw v F1 Fv ltac:(lra) ltac:(fold C; lra)) as (l & E3 & F3 & N3). fold C in N3.
  destruct (float_mul_near (2 * k + 1) ltac:(lia) ltac:(lia) z wv Fz F2 ltac:(fold A; lra) ltac:(lra)) as (r & E4 & F4 & N4). fold A in N4.
  exists l, r. rewrite E1, E2. cbn [bind]. rewrite E3, E4. split; auto. split; auto. split; auto. split; auto.
  pose proof (cmul_diff (fv zw) (fv v) (cmul (fv z) (fv w)) (fv v)) as D1. rewrite csub_self, Rmult_0_r, Rplus_0_r in D1. fold C in D1.
  pose proof (cmul_diff (fv z) (cmul (fv w) (fv v)) (fv z) (fv wv)) as D2. rewrite csub_self, Rmult_0_l, Rplus_0_l, (csub_sym (cmul (fv w) (fv v))) in D2. fold A in D2.
  rewrite cmul_assoc in D1. pose proof (csub_tri (fv l) (cmul (fv zw) (fv v)) (fv r)) as T1.
  pose proof (csub_tri (cmul (fv zw) (fv v)) (cmul (fv z) (cmul (fv w) (fv v))) (fv r)) as T2.
  pose proof (csub_tri (cmul (fv z) (cmul (fv w) (fv v))) (cmul (fv z) (fv wv)) (fv r)) as T3.
  rewrite (csub_sym (cmul (fv z) (fv wv)) (fv r)) in T3.
  set (P := (A * B * C)%R). assert (P0 : (0 <= P)%R) by (unfold P; apply Rmult_le_pos; lra).
  assert (Q1 : (cabs (csub (fv zw) (cmul (fv z) (fv w))) * C <= 3 * u * P + 3 * eta * C)%R).
  { apply Rle_trans with ((3 * u * (A * B) + 3 * eta) * C)%R; [apply Rmult_le_compat_r; auto | unfold P; right; ring]. }
  assert (Q2 : (A * cabs (csub (fv wv) (cmul (fv w) (fv v))) <= 3 * u * P + 3 * eta * A)%R).
  { apply Rle_trans with (A * (3 * u * (B * C) + 3 * eta))%R; [apply Rmult_le_compat_l; auto | unfold P; right; ring]. }
  assert (UU : (0 <= u * u <= / 32 * u)%R) by nra. assert (UE : (0 <= u * eta <= / 32 * eta)%R) by (split; [apply Rmult_le_pos; lra | apply Rmult_le_compat_r; lra]).
  assert (UP : (0 <= u * P)%R) by (apply Rmult_le_pos; lra). assert (UUP : (u * u * P <= / 32 * u * P)%R) by (apply Rmult_le_compat_r; lra).
  assert (EC : (u * eta * C <= / 32 * eta * C)%R) by (apply Rmult_le_compat_r; lra). assert (EA : (u * eta * A <= / 32 * eta * A)%R) by (apply Rmult_le_compat_r; lra).
  assert (Q3 : (3 * u * (cabs (fv zw) * C) <= 3 * u * P + 9 * (u * u * P) + 9 * (u * eta * C))%R).
  { apply Rle_trans with (3 * u * ((A * B + (3 * u * (A * B) + 3 * eta)) * C))%R; [|unfold P; right; ring].
    apply Rmult_le_compat_l; [lra|]. apply Rmult_le_compat_r; lra. }
  assert (Q4 : (3 * u * (A * cabs (fv wv)) <= 3 * u * P + 9 * (u * u * P) + 9 * (u * eta * A))%R).
  { apply Rle_trans with (3 * u * (A * (B * C + (3 * u * (B * C) + 3 * eta))))%R; [|unfold P; right; ring].
    apply Rmult_le_compat_l; [lra|]. apply Rmult_le_compat_l; lra. }
  assert (0 <= eta * A)%R by (apply Rmult_le_pos; lra). assert (0 <= eta * C)%R by (apply Rmult_le_pos; lra). lra.
Qed.

(** any computed unit number *)
Lemma rotate_any : 24 <= prec -> forall k, 1 <= k -> 2 * k + 1 < emax -> forall (z : Cartesian float) (s c : float) a, cfin z -> is_finite s = true -> is_finite c = true ->
  (Rabs (B2R s - Rtrigo_def.sin a) <= 5 / 1000000)%R -> (Rabs (B2R c - Rtrigo_def.cos a) <= 5 / 1000000)%R -> (cabs (fv z) <= bpow radix2 k)%R ->
  exists r, cartesian_mul float_ops z (mkC c s) = Ok r /\ cfin r /\
  (cabs (csub (fv r) (cmul (fv z) (cis a))) <= 8 / 1000000 * cabs (fv z) + 3 * eta)%R /\
  (Rabs (cabs (fv r) - cabs (fv z)) <= 8 / 1000000 * cabs (fv z) + 3 * eta)%R.
Proof using P5.
  intros P24 k K1 K2 z s c a Fz Fs Fc As Ac Nz. assert (US : (0 < u <= 6 / 100000000)%R).
  { split; [apply bpow_gt_0|]. apply Rle_trans with (bpow radix2 (-24)); [apply bpow_le; lia|]. change (bpow radix2 (-24)) with (/ 16777216)%R. lra. }
  set (w := mkC c s). pose proof (cis_near _ _ _ _ As Ac) as Nw. change (B2R c, B2R s) with (fv w) in Nw.
  pose proof (cabs_via (fv w) (cis a)) as V. rewrite cis_abs in V. pose proof (cabs_pos (fv z)) as Z0.
  assert (B2 : (2 <= bpow radix2 k)%R) by (change 2%R with (bpow radix2 1); apply bpow_le; lia).
  destruct (float_mul_near k ltac:(lia) K2 z w Fz (conj Fc Fs) Nz ltac:(lra)) as (r & E & Fr & N).
  assert (D : (cabs (csub (fv r) (cmul (fv z) (cis a))) <= 8 / 1000000 * cabs (fv z) + 3 * eta)%R).
  { pose proof (csub_tri (fv r) (cmul (fv z) (fv w)) (cmul (fv z) (cis a))) as T.
    pose proof (cmul_diff (fv z) (fv w) (fv z) (cis a)) as D. rewrite csub_self, Rmult_0_l, Rplus_0_l in D.
    assert (cabs (fv z) * cabs (csub (fv w) (cis a)) <= cabs (fv z) * (14143 / 10000 * (5 / 1000000)))%R by (apply Rmult_le_compat_l; auto).
    assert (cabs (fv z) * cabs (fv w) <= cabs (fv z) * (11 / 10))%R by (apply Rmult_le_compat_l; lra).
    assert (0 <= cabs (fv z) * cabs (fv w))%R by (apply Rmult_le_pos; auto; apply cabs_pos).
    assert (3 * u * (cabs (fv z) * cabs (fv w)) <= 3 * (6 / 100000000) * (cabs (fv z) * cabs (fv w)))%R by (apply Rmult_le_compat_r; lra). lra. }
  exists r. split; auto. split; auto. split; auto.
  pose proof (cabs_diff (fv r) (cmul (fv z) (cis a))) as F. rewrite cabs_cmul, cis_abs, Rmult_1_r in F. lra.
Qed.
Lemma rotor_sum_any : 24 <= prec -> 10 <= emax -> forall (s1 c1 s2 c2 : float) a b, is_finite s1 = true -> is_finite c1 = true -> is_finite s2 = true -> is_finite c2 = true ->
  (Rabs (B2R s1 - Rtrigo_def.sin a) <= 5 / 1000000)%R -> (Rabs (B2R c1 - Rtrigo_def.cos a) <= 5 / 1000000)%R ->
  (Rabs (B2R s2 - Rtrigo_def.sin b) <= 5 / 1000000)%R -> (Rabs (B2R c2 - Rtrigo_def.cos b) <= 5 / 1000000)%R ->
  exists r, cartesian_mul float_ops (mkC c1 s1) (mkC c2 s2) = Ok r /\ cfin r /\ (cabs (csub (fv r) (cis (a + b))) <= 16 / 1000000 + 3 * eta)%R.
Proof using P5.
  intros P24 E10 s1 c1 s2 c2 a b F1 F2 F3 F4 A1 A2 A3 A4. set (z := mkC c1 s1).
  pose proof (cis_near _ _ _ _ A1 A2) as Nw. change (B2R c1, B2R s1) with (fv z) in Nw.
  pose proof (cabs_via (fv z) (cis a)) as V. rewrite cis_abs in V.
  destruct (rotate_any P24 1 ltac:(lia) ltac:(lia) z s2 c2 b (conj F2 F1) F3 F4 A3 A4) as (r & E & Fr & N & _).
  { change (bpow radix2 1) with 2%R. lra. }
  exists r. split; auto. split; auto. rewrite <- cis_add.
  pose proof (csub_tri (fv r) (cmul (fv z) (cis b)) (cmul (cis a) (cis b))) as T.
  pose proof (cmul_diff (fv z) (cis b) (cis a) (cis b)) as D. rewrite csub_self, Rmult_0_r, Rplus_0_r, cis_abs in D. lra.
Qed.
End Float.

Notation flt_sin := (Trig.sin float_ops float_signed float_pi float_powi).
Notation flt_cos := (Trig.cos float_ops float_signed float_pi float_powi).
Notation rotor fuel x := (s <- flt_sin x ;; c <- flt_cos fuel x ;; Ok (mkC c s)).
Notation finite z := (is_finite (re z) = true /\ is_finite (im z) = true).

Lemma sincos_f32 : forall x : f32, is_finite x = true -> (Rabs (B2R x) <= PI)%R -> exists s c : f32, flt_sin x = Ok s /\ (forall fuel, (2 <= fuel)%nat -> flt_cos fuel x = Ok c) /\
  is_finite s = true /\ is_finite c = true /\ (Rabs (B2R s - Rtrigo_def.sin (B2R x)) <= 5 / 1000000)%R /\ (Rabs (B2R c - Rtrigo_def.cos (B2R x)) <= 5 / 1000000)%R.
Proof.
  intros x F X. destruct c22_f32 as (_ & p & Ep & XP & A). destruct c54_f32 as (p' & Ep' & B). rewrite Ep in Ep'. injection Ep' as Ep'. subst p'. pose proof (XP x F X) as H.
  destruct (A x F H) as (s & Es & Fs & As). destruct (B x F H) as (c & Fc & Ac & Ec). exists s, c. repeat split; auto.
Qed.
Lemma sincos_f64 : forall x : f64, is_finite x = true -> (Rabs (B2R x) <= PI)%R -> exists s c : f64, flt_sin x = Ok s /\ (forall fuel, (2 <= fuel)%nat -> flt_cos fuel x = Ok c) /\
  is_finite s = true /\ is_finite c = true /\ (Rabs (B2R s - Rtrigo_def.sin (B2R x)) <= 5 / 1000000)%R /\ (Rabs (B2R c - Rtrigo_def.cos (B2R x)) <= 5 / 1000000)%R.
Proof.
  intros x F X. destruct c22_f64 as (_ & p & Ep & XP & A). destruct c54_f64 as (p' & Ep' & B). rewrite Ep in Ep'. injection Ep' as Ep'. subst p'. pose proof (XP x F X) as H.
  destruct (A x F H) as (s & Es & Fs & As). destruct (B x F H) as (c & Fc & Ac & Ec). exists s, c. repeat split; auto.
Qed.
Lemma rotate_f32 : forall (z : Cartesian f32) (x : f32), finite z -> is_finite x = true -> (Rabs (B2R x) <= PI)%R -> (cabs (cvalf z) <= bpow radix2 63)%R ->
  exists r, returns (fun fuel => w <- rotor fuel x ;; cartesian_mul float_ops z w) r /\ finite r /\
  let t := (8 / 1000000 * cabs (cvalf z) + 3 * bpow radix2 (-149))%R in
  (cabs (csub (cvalf r) (cmul (cvalf z) (cis (B2R x)))) <= t)%R /\ (Rabs (cabs (cvalf r) - cabs (cvalf z)) <= t)%R.
Proof.
  intros z x Fz Fx X N. destruct (sincos_f32 x Fx X) as (s & c & Es & Ec & Fs & Fc & As & Ac).
  destruct (rotate_any (prec := 24) (emax := 128) ltac:(lia) ltac:(lia) 63 ltac:(lia) ltac:(lia) z s c (B2R x) Fz Fs Fc As Ac N) as (r & E & Fr & R).
  exists r. split; [|split; auto]. exists 2%nat. intros fuel L. rewrite Es. cbn [bind]. rewrite Ec by auto. exact E.
Qed.
Lemma rotate_f64 : forall (z : Cartesian f64) (x : f64), finite z -> is_finite x = true -> (Rabs (B2R x) <= PI)%R -> (cabs (cvalf z) <= bpow radix2 511)%R ->
  exists r, returns (fun fuel => w <- rotor fuel x ;; cartesian_mul float_ops z w) r /\ finite r /\
  let t := (8 / 1000000 * cabs (cvalf z) + 3 * bpow radix2 (-1074))%R in
  (cabs (csub (cvalf r) (cmul (cvalf z) (cis (B2R x)))) <= t)%R /\ (Rabs (cabs (cvalf r) - cabs (cvalf z)) <= t)%R.
Proof.
  intros z x Fz Fx X N. destruct (sincos_f64 x Fx X) as (s & c & Es & Ec & Fs & Fc & As & Ac).
  destruct (rotate_any (prec := 53) (emax := 1024) ltac:(lia) ltac:(lia) 511 ltac:(lia) ltac:(lia) z s c (B2R x) Fz Fs Fc As Ac N) as (r & E & Fr & R).
  exists r. split; [|split; auto]. exists 2%nat. intros fuel L. rewrite Es. cbn [bind]. rewrite Ec by auto. exact E.
Qed.
Lemma rotor_sum_f32 : forall a b : f32, is_finite a = true -> is_finite b = true -> (Rabs (B2R a) <= PI)%R -> (Rabs (B2R b) <= PI)%R ->
  exists r, returns (fun fuel => u <- rotor fuel a ;; v <- rotor fuel b ;; cartesian_mul float_ops u v) r /\ finite r /\
  (cabs (csub (cvalf r) (cis (B2R a + B2R b))) <= 17 / 1000000)%R.
Proof.
  intros a b Fa Fb Xa Xb. destruct (sincos_f32 a Fa Xa) as (s1 & c1 & Es1 & Ec1 & F1 & F2 & A1 & A2). destruct (sincos_f32 b Fb Xb) as (s2 & c2 & Es2 & Ec2 & F3 & F4 & A3 & A4).
  destruct (rotor_sum_any (prec := 24) (emax := 128) ltac:(lia) ltac:(lia) ltac:(lia) s1 c1 s2 c2 (B2R a) (B2R b) F1 F2 F3 F4 A1 A2 A3 A4) as (r & E & Fr & R).
  exists r. split; [|split; auto].
  - exists 2%nat. intros fuel L. rewrite Es1. cbn [bind]. rewrite Ec1 by auto. cbn [bind]. rewrite Es2. cbn [bind]. rewrite Ec2 by auto. exact E.
  - eapply Rle_trans; [exact R|]. assert (bpow radix2 (3 - 128 - 24) <= bpow radix2 (-30))%R by (apply bpow_le; lia). change (bpow radix2 (-30)) with (/ 1073741824)%R in H. lra.
Qed.
Lemma rotor_sum_f64 : forall a b : f64, is_finite a = true -> is_finite b = true -> (Rabs (B2R a) <= PI)%R -> (Rabs (B2R b) <= PI)%R ->
  exists r, returns (fun fuel => u <- rotor fuel a ;; v <- rotor fuel b ;; cartesian_mul float_ops u v) r /\ finite r /\
  (cabs (csub (cvalf r) (cis (B2R a + B2R b))) <= 17 / 1000000)%R.
Proof.
  intros a b Fa Fb Xa Xb. destruct (sincos_f64 a Fa Xa) as (s1 & c1 & Es1 & Ec1 & F1 & F2 & A1 & A2). destruct (sincos_f64 b Fb Xb) as (s2 & c2 & Es2 & Ec2 & F3 & F4 & A3 & A4).
  destruct (rotor_sum_any (prec := 53) (emax := 1024) ltac:(lia) ltac:(lia) ltac:(lia) s1 c1 s2 c2 (B2R a) (B2R b) F1 F2 F3 F4 A1 A2 A3 A4) as (r & E & Fr & R).
  exists r. split; [|split; auto].
  - exists 2%nat. intros fuel L. rewrite Es1. cbn [bind]. rewrite Ec1 by auto. cbn [bind]. rewrite Es2. cbn [bind]. rewrite Ec2 by auto. exact E.
  - eapply Rle_trans; [exact R|]. assert (bpow radix2 (3 - 1024 - 53) <= bpow radix2 (-30))%R by (apply bpow_le; lia). change (bpow radix2 (-30)) with (/ 1073741824)%R in H. lra.
Qed.
