(** * Mixers and oscillators over any number of samples. *)

From Coq Require Import ZArith Reals Lia Lra Psatz Bool List.
From Flocq Require Import Core.Core IEEE754.BinarySingleNaN.
From Verif Require Import Base FloatBase Literals Traits Trig IntImpl FixedPrim FixedImpl FloatImpl Complex Spec SpecFilter SpecRotor SpecMixer
  Lemmas FloatLemmas FloatKit ScalarProofs ScalarProofs2 WrapProofs WrapProofs2 SinReal SinFixed SinFloat TrigProofs ComplexProofs ComplexProofs3 PolarProofs ProdProofs FilterProofs FloatArith FloatFilter PhaseAcc TrigMore MagMul RotorProofs.
Import ListNotations.
Open Scope Z_scope.

Notation sumR l := (fold_right Rplus 0%R l).

Section Real.
Open Scope R_scope.
Lemma cis_lip : forall a b, cabs (csub (cis a) (cis b)) <= Rabs (a - b).
Proof.
  intros a b. pose proof (Rabs_pos (a - b)) as A0.
  assert (E : cabs (csub (cis a) (cis b)) = 2 * Rabs (Rtrigo_def.sin ((a - b) / 2))).
  { unfold csub, cis, cabs. cbn [fst snd].
    assert (S : forall v x, 0 <= v -> x = v * v -> sqrt x = v) by (intros v x V ->; apply sqrt_square; auto).
    apply S; [pose proof (Rabs_pos (Rtrigo_def.sin ((a - b) / 2))); lra|].
    replace (2 * Rabs (Rtrigo_def.sin ((a - b) / 2)) * (2 * Rabs (Rtrigo_def.sin ((a - b) / 2)))) with (4 * (Rabs (Rtrigo_def.sin ((a - b) / 2)) * Rabs (Rtrigo_def.sin ((a - b) / 2)))) by ring.
    rewrite <- Rabs_mult, Rabs_pos_eq by nra.
    assert (C2 : 4 * (Rtrigo_def.sin ((a - b) / 2) * Rtrigo_def.sin ((a - b) / 2)) = 2 - 2 * Rtrigo_def.cos (a - b)).
    { replace (a - b) with (2 * ((a - b) / 2)) at 3 by field. rewrite cos_2a_sin. ring. }
    rewrite C2, cos_minus. pose proof (sin2_cos2 a) as H1. pose proof (sin2_cos2 b) as H2. unfold Rsqr in *. lra. }
  rewrite E. pose proof (sin_lipschitz ((a - b) / 2) 0) as L. rewrite sin_0, Rminus_0_r, Rminus_0_r in L.
  assert (Rabs ((a - b) / 2) = Rabs (a - b) / 2) by (unfold Rdiv; rewrite Rabs_mult, (Rabs_pos_eq (/ 2)) by lra; auto). lra.
Qed.
Lemma cis_period : forall a k, cis (a + IZR k * (2 * PI)) = cis a.
Proof.
  assert (N : forall a n, cis (a + IZR (Z.of_nat n) * (2 * PI)) = cis a).
  { intros a n. unfold cis. rewrite <- INR_IZR_INZ. replace (INR n * (2 * PI)) with (2 * INR n * PI) by ring. rewrite cos_period, sin_period. reflexivity. }
  intros a k. destruct (Z_le_dec 0 k) as [K|K].
  - rewrite <- (Z2Nat.id k K). apply N.
  - rewrite <- (N (a + IZR k * (2 * PI)) (Z.to_nat (- k))). rewrite Z2Nat.id by lia. rewrite opp_IZR. f_equal. ring.
Qed.
(** a phase that is right up to [t] and [k] turns of [2 p] points in the right direction up to [t] and [k] times the error of [2 p] *)
Lemma cis_turns : forall Phi a k p t, Rabs (Phi - (a + IZR k * (2 * p))) <= t ->
  cabs (csub (cis a) (cis Phi)) <= t + Rabs (IZR k) * (2 * Rabs (PI - p)).
Proof.
  intros Phi a k p t H. rewrite <- (cis_period a k). eapply Rle_trans; [apply cis_lip|].
  replace (a + IZR k * (2 * PI) - Phi) with (- (Phi - (a + IZR k * (2 * p))) + IZR k * (2 * (PI - p))) by ring.
  eapply Rle_trans; [apply Rabs_triang|]. rewrite Rabs_Ropp, !Rabs_mult, (Rabs_pos_eq 2) by lra. lra.
Qed.
End Real.

(** ** the loop, for any type with a working phase step, rotor and product *)
Section Loop.
Context {T : Type} (P : MixedOps T) (S : MixedNumSigned T) (rot : nat -> T -> res (Cartesian T)) (wrp : nat -> T -> res T)
  (val : T -> R) (cv : Cartesian T -> R * R) (ok : T -> Prop) (okc : Cartesian T -> Prop) (stepok : T -> Prop) (em : R -> R) (p eta d M : R).
Hypothesis Hstep : forall phi s, ok phi -> (- p <= val phi < p)%R -> stepok s ->
  exists t k, returns (fun fuel => a <- o_add P phi s ;; wrp fuel a) t /\ ok t /\ (- p <= val t < p)%R /\ (Rabs (val phi + val s - (val t + IZR k * (2 * p))) <= eta)%R.
Hypothesis Hrot : forall phi, ok phi -> (- p <= val phi < p)%R -> exists w, returns (fun fuel => rot fuel phi) w /\ okc w /\ (cabs (csub (cv w) (cis (val phi))) <= d)%R.
Hypothesis Hmul : forall z w, okc z -> okc w -> (cabs (cv z) <= M)%R -> (cabs (cv w) <= 1 + d)%R ->
  exists r, cartesian_mul P z w = Ok r /\ okc r /\ (cabs (csub (cv r) (cmul (cv z) (cv w))) <= em (cabs (cv z)))%R.

Lemma rot_step : forall phi x, ok phi -> (- p <= val phi < p)%R -> okc x -> (cabs (cv x) <= M)%R ->
  exists y, returns (fun fuel => w <- rot fuel phi ;; cartesian_mul P x w) y /\ okc y /\
  (cabs (csub (cv y) (cmul (cv x) (cis (val phi)))) <= cabs (cv x) * d + em (cabs (cv x)))%R.
Proof using Hrot Hmul.
  intros phi x Ok1 B Ox Mx. destruct (Hrot phi Ok1 B) as (w & [n Ew] & Ow & Nw).
  pose proof (cabs_via (cv w) (cis (val phi))) as V. rewrite cis_abs in V.
  destruct (Hmul x w Ox Ow Mx ltac:(lra)) as (y & Ey & Oy & Ny). exists y. split; [exists n; intros fuel L; rewrite Ew by auto; exact Ey|]. split; auto.
  pose proof (csub_tri (cv y) (cmul (cv x) (cv w)) (cmul (cv x) (cis (val phi)))) as T1.
  pose proof (cmul_diff (cv x) (cv w) (cv x) (cis (val phi))) as D. rewrite csub_self, Rmult_0_l, Rplus_0_l in D.
  assert (cabs (cv x) * cabs (csub (cv w) (cis (val phi))) <= cabs (cv x) * d)%R by (apply Rmult_le_compat_l; [apply cabs_pos|auto]). lra.
Qed.

(** the phase of sample i is within (c + i) eta of the ideal one, up to turns *)
Lemma mixer_phase : forall l phi Psi k0 c, ok phi -> (- p <= val phi < p)%R -> (Rabs (Psi - (val phi + IZR k0 * (2 * p))) <= INR c * eta)%R ->
    Forall (fun sx => stepok (fst sx) /\ okc (snd sx) /\ (cabs (cv (snd sx)) <= M)%R) l ->
    exists ys, returns (fun fuel => mixer P (rot fuel) (wrp fuel) phi l) ys /\ length ys = length l /\ Forall okc ys /\
    forall i s x, nth_error l i = Some (s, x) -> exists y k a, nth_error ys i = Some y /\ (- p <= a < p)%R /\
    (Rabs (Psi + sumR (map (fun sx => val (fst sx)) (firstn i l)) - (a + IZR k * (2 * p))) <= INR (c + i) * eta)%R /\
    (cabs (csub (cv y) (cmul (cv x) (cis a))) <= cabs (cv x) * d + em (cabs (cv x)))%R.
Proof using Hstep Hrot Hmul.
  induction l as [|[s x] l IH]; intros phi Psi k0 c Ok1 B HP HF.
    - exists []. split; [exists 0%nat; reflexivity|]. split; auto. split; auto. intros [|i] s x E; discriminate.
    - inversion HF as [|? ? (Ss & Ox & Mx) HF']; subst. cbn [fst snd] in *.
      destruct (rot_step phi x Ok1 B Ox Mx) as (y & [n1 Ey] & Oy & Ny).
      destruct (Hstep phi s Ok1 B Ss) as (t & k & [n2 Et] & Ot & Bt & Kt).
      destruct (IH t (Psi + val s)%R (k + k0)%Z (Datatypes.S c) Ot Bt) as (ys & [n3 Eys] & L & Fys & H); auto.
      { rewrite S_INR, plus_IZR. replace (Psi + val s - (val t + (IZR k + IZR k0) * (2 * p)))%R with
          ((Psi - (val phi + IZR k0 * (2 * p))) + (val phi + val s - (val t + IZR k * (2 * p))))%R by ring.
        eapply Rle_trans; [apply Rabs_triang|]. lra. }
      exists (y :: ys). split; [|split; [|split]].
      + exists (n1 + n2 + n3)%nat. intros n Hn. cbn [mixer]. specialize (Ey n ltac:(lia)). specialize (Et n ltac:(lia)). specialize (Eys n ltac:(lia)).
        destruct (rot n phi) as [w|?|]; cbn [bind] in *; try discriminate. rewrite Ey. cbn [bind].
        destruct (o_add P phi s) as [a|?|]; cbn [bind] in *; try discriminate. rewrite Et. cbn [bind]. fold (mixer P (rot n) (wrp n)). rewrite Eys. reflexivity.
      + cbn [length]. congruence.
      + constructor; auto.
      + intros [|i] s' x' E.
        * cbn in E. inversion E; subst s' x'. exists y, k0, (val phi). cbn [nth_error firstn map fold_right]. rewrite Nat.add_0_r, Rplus_0_r. auto.
        * cbn [nth_error] in E. destruct (H i s' x' E) as (y' & k' & a & Ey' & Ba & K' & N'). exists y', k', a. cbn [nth_error firstn map fold_right fst].
          replace (c + Datatypes.S i)%nat with (Datatypes.S c + i)%nat by lia. rewrite <- Rplus_assoc. auto.
Qed.
Lemma mixer_loop : forall l phi, ok phi -> (- p <= val phi < p)%R -> Forall (fun sx => stepok (fst sx) /\ okc (snd sx) /\ (cabs (cv (snd sx)) <= M)%R) l ->
  exists ys, returns (fun fuel => mixer P (rot fuel) (wrp fuel) phi l) ys /\ length ys = length l /\ Forall okc ys /\
  forall i s x, nth_error l i = Some (s, x) -> exists y k, nth_error ys i = Some y /\
  let Phi := (val phi + sumR (map (fun sx => val (fst sx)) (firstn i l)))%R in
  (Rabs (Phi - IZR k * (2 * p)) <= p + INR i * eta)%R /\
  (cabs (csub (cv y) (cmul (cv x) (cis Phi))) <= cabs (cv x) * (d + INR i * eta + Rabs (IZR k) * (2 * Rabs (PI - p))) + em (cabs (cv x)))%R.
Proof using Hstep Hrot Hmul.
  intros l phi Ok1 B HF. destruct (mixer_phase l phi (val phi) 0 0%nat Ok1 B) as (ys & R & L & Fys & H); auto.
  { rewrite Rmult_0_l. cbn [INR]. rewrite Rmult_0_l, Rplus_0_r. replace (val phi - val phi)%R with 0%R by ring. rewrite Rabs_R0. lra. }
  exists ys. split; auto. split; auto. split; auto. intros i s x E. destruct (H i s x E) as (y & k & a & Ey & Ba & K & N). exists y, k. split; auto. cbv zeta.
  cbn [plus] in K. set (Phi := (val phi + sumR (map (fun sx => val (fst sx)) (firstn i l)))%R) in *. split.
  - replace (Phi - IZR k * (2 * p))%R with ((Phi - (a + IZR k * (2 * p))) + a)%R by ring. eapply Rle_trans; [apply Rabs_triang|].
    assert (Rabs a <= p)%R by (apply Rabs_le; lra). lra.
  - pose proof (cis_turns Phi a k p _ K) as CT. pose proof (csub_tri (cv y) (cmul (cv x) (cis a)) (cmul (cv x) (cis Phi))) as T1.
    pose proof (cmul_diff (cv x) (cis a) (cv x) (cis Phi)) as D. rewrite csub_self, Rmult_0_l, Rplus_0_l in D.
    assert (cabs (cv x) * cabs (csub (cis a) (cis Phi)) <= cabs (cv x) * (INR i * eta + Rabs (IZR k) * (2 * Rabs (PI - p))))%R by (apply Rmult_le_compat_l; [apply cabs_pos|auto]). lra.
Qed.

(** there and back *)
Hypothesis Hd : (0 <= d)%R.
Hypothesis Hem : forall a, (0 <= a)%R -> (0 <= em a)%R.
Hypothesis Hemm : forall a b, (0 <= a <= b)%R -> (em a <= em b)%R.
Hypothesis Hconj : forall w, okc w -> (cabs (cv w) <= 1 + d)%R -> exists c, cartesian_conj S w = Ok c /\ okc c /\ cv c = (fst (cv w), - snd (cv w))%R.
Let wide (a : R) := (a * (1 + d) + em a)%R.

Lemma back_loop : forall l phi, ok phi -> (- p <= val phi < p)%R -> Forall (fun sx => stepok (fst sx) /\ okc (snd sx) /\ (wide (cabs (cv (snd sx))) <= M)%R) l ->
  exists ys zs, returns (fun fuel => mixer P (rot fuel) (wrp fuel) phi l) ys /\
  returns (fun fuel => mixer P (counter S (rot fuel)) (wrp fuel) phi (combine (map fst l) ys)) zs /\ length zs = length l /\
  forall i s x, nth_error l i = Some (s, x) -> exists z, nth_error zs i = Some z /\
  (cabs (csub (cv z) (cv x)) <= cabs (cv x) * (d * (2 + d)) + em (cabs (cv x)) * (1 + d) + em (wide (cabs (cv x))))%R.
Proof using Hstep Hrot Hmul Hd Hem Hemm Hconj.
  induction l as [|[s x] l IH]; intros phi Ok1 B HF.
  - exists [], []. split; [exists 0%nat; reflexivity|]. split; [exists 0%nat; reflexivity|]. split; auto. intros [|i] s x E; discriminate.
  - inversion HF as [|? ? (Ss & Ox & Mx) HF']; subst. cbn [fst snd] in *. pose proof (cabs_pos (cv x)) as X0. pose proof (Hem _ X0) as E0. unfold wide in Mx.
    assert (XD : (0 <= cabs (cv x) * d)%R) by (apply Rmult_le_pos; auto).
    destruct (Hrot phi Ok1 B) as (w & [n1 Ew] & Ow & Nw).
    assert (V : (1 - d <= cabs (cv w) <= 1 + d)%R).
    { pose proof (cabs_diff (cv w) (cis (val phi))) as D. rewrite cis_abs in D. apply Rabs_le_inv in D. lra. }
    destruct (Hmul x w Ox Ow ltac:(lra) ltac:(lra)) as (y & Ey & Oy & Ny).
    destruct (Hconj w Ow ltac:(lra)) as (wc & Ec & Oc & Vc).
    assert (AC : cabs (cv wc) = cabs (cv w)) by (rewrite Vc; unfold cabs; cbn [fst snd]; f_equal; ring).
    assert (Ay : (cabs (cv y) <= wide (cabs (cv x)))%R).
    { pose proof (cabs_via (cv y) (cmul (cv x) (cv w))) as A. rewrite cabs_cmul in A. unfold wide.
      assert (cabs (cv x) * cabs (cv w) <= cabs (cv x) * (1 + d))%R by (apply Rmult_le_compat_l; lra). lra. }
    destruct (Hmul y wc Oy Oc ltac:(unfold wide in *; lra) ltac:(lra)) as (z & Ez & Oz & Nz).
    destruct (Hstep phi s Ok1 B Ss) as (t & k & [n2 Et] & Ot & Bt & Kt).
    destruct (IH t Ot Bt HF') as (ys & zs & [n3 Eys] & [n4 Ezs] & L & H).
    exists (y :: ys), (z :: zs). split; [|split; [|split]].
    + exists (n1 + n2 + n3)%nat. intros n Hn. cbn [mixer]. rewrite Ew by lia. cbn [bind]. rewrite Ey. cbn [bind]. specialize (Et n ltac:(lia)).
      destruct (o_add P phi s) as [a|?|]; cbn [bind] in *; try discriminate. rewrite Et. cbn [bind]. fold (mixer P (rot n) (wrp n)). rewrite Eys by lia. reflexivity.
    + exists (n1 + n2 + n4)%nat. intros n Hn. cbn [mixer map combine fst]. unfold counter at 1. rewrite Ew by lia. cbn [bind]. rewrite Ec. cbn [bind]. rewrite Ez. cbn [bind]. specialize (Et n ltac:(lia)).
      destruct (o_add P phi s) as [a|?|]; cbn [bind] in *; try discriminate. rewrite Et. cbn [bind]. fold (mixer P (counter S (rot n)) (wrp n)). rewrite Ezs by lia. reflexivity.
    + cbn [length]. congruence.
    + intros [|i] s' x' E; cbn [nth_error] in *; [|eauto]. inversion E; subst s' x'. exists z. split; auto.
      assert (WW : cmul (cv w) (cv wc) = (cabs (cv w) * cabs (cv w), 0)%R).
      { rewrite Vc. unfold cmul, cabs. cbn [fst snd]. rewrite sqrt_sqrt by (pose proof (Rle_0_sqr (fst (cv w))); pose proof (Rle_0_sqr (snd (cv w))); unfold Rsqr in *; lra). f_equal; ring. }
      pose proof (csub_tri (cv z) (cmul (cv y) (cv wc)) (cv x)) as T1.
      pose proof (csub_tri (cmul (cv y) (cv wc)) (cmul (cmul (cv x) (cv w)) (cv wc)) (cv x)) as T2.
      pose proof (cmul_diff (cv y) (cv wc) (cmul (cv x) (cv w)) (cv wc)) as D. rewrite csub_self, Rmult_0_r, Rplus_0_r, AC in D.
      assert (D1 : (cabs (csub (cv y) (cmul (cv x) (cv w))) * cabs (cv w) <= em (cabs (cv x)) * (1 + d))%R) by (apply Rmult_le_compat; try lra; apply cabs_pos).
      assert (D2 : (cabs (csub (cmul (cmul (cv x) (cv w)) (cv wc)) (cv x)) <= cabs (cv x) * (d * (2 + d)))%R).
      { rewrite cmul_assoc, WW. replace (csub (cmul (cv x) (cabs (cv w) * cabs (cv w), 0)%R) (cv x)) with (cmul (cv x) (cabs (cv w) * cabs (cv w) - 1, 0)%R) by (unfold csub, cmul; cbn [fst snd]; f_equal; ring).
        rewrite cabs_cmul. apply Rmult_le_compat_l; auto. unfold cabs at 1. cbn [fst snd]. rewrite Rmult_0_l, Rplus_0_r. match goal with |- (sqrt (?q * ?q) <= _)%R => change (q * q)%R with (Rsqr q) end. rewrite sqrt_Rsqr_abs. apply Rabs_le.
        assert (0 <= cabs (cv w))%R by apply cabs_pos. split; nra. }
      pose proof (Hemm (cabs (cv y)) (wide (cabs (cv x))) ltac:(split; [apply cabs_pos|auto])) as D3. lra.
Qed.
End Loop.

(** ** fixed point *)
Notation rotor_fixed m f fuel x := (s <- fixed_sin m f x ;; c <- fixed_cos m f fuel x ;; Ok (mkC c s)).
Notation err f := (14143 / 10000 * (5 / 1000000 + 7 * ulp f))%R.
Section Fixed.
Context (m : mode) (f : fty) (Hf : supported f = true) (Sg : fsigned f = true) (I : ffrac f <= fwidth f - 20).
Notation p := (fval f (pi_bits f)).
Let W := supported_fwf f Hf.

Lemma sincos_fixed_p : forall x, (Rabs (fval f x) <= p)%R ->
  exists s c, fixed_sin m f x = Ok s /\ returns (fun fuel => fixed_cos m f fuel x) c /\
  (Rabs (fval f s - Rtrigo_def.sin (fval f x)) <= 5 / 1000000 + 7 * ulp f)%R /\ (Rabs (fval f c - Rtrigo_def.cos (fval f x)) <= 5 / 1000000 + 7 * ulp f)%R.
Proof using Hf Sg I W.
  intros x H. pose proof (pi_bits_bounds f W) as PB. pose proof (fone_pos f (proj1 W)) as Q.
  destruct (c19 m f Hf Sg I) as (q & Ep & _ & A). destruct (c21 m f Hf Sg I) as (p' & Ep' & B).
  assert (Pe : q = pi_bits f) by (rewrite fixed_pi_eq in Ep by auto; congruence). assert (Pe' : p' = q) by congruence. subst p' q.
  destruct (A x H) as (s & Es & As).
  assert (HZ : Z.abs x <= pi_bits f) by (rewrite fval_abs, fval_le in H by apply W; exact H).
  assert (V : fvalid f x). { pose proof (room f W I). apply fvalid_iff. rewrite Sg. lia. }
  destruct (B x V) as (c & Ec & Ac).
  { pose proof (room f W I) as RM. rewrite !fval_eq by apply W. pose proof (fone_IZR_pos f (proj1 W)) as P. unfold Rdiv.
    assert (K : (IZR x + IZR (pi_bits f) * / 2 <= IZR (fmax f))%R).
    { rewrite fmax_signed by auto. assert (L : 2 * x + pi_bits f <= 2 * (2 ^ (fwidth f - 1) - 1)) by lia. apply IZR_le in L. rewrite plus_IZR, !mult_IZR in L. lra. }
    replace (IZR x * / IZR (fone f) + IZR (pi_bits f) * / IZR (fone f) * / 2)%R with ((IZR x + IZR (pi_bits f) * / 2) * / IZR (fone f))%R by ring.
    apply Rmult_le_compat_r; [apply Rlt_le, Rinv_0_lt_compat; auto|auto]. }
  exists s, c. split; auto. split; auto. assert (U : (0 < ulp f)%R) by apply bpow_gt_0.
  assert (P4 : (p <= 4)%R).
  { rewrite fval_eq by apply W. pose proof (fone_IZR_pos f (proj1 W)) as P. apply Rmult_le_reg_r with (IZR (fone f)); auto. unfold Rdiv. rewrite Rmult_assoc, Rinv_l, Rmult_1_r by lra.
    rewrite <- mult_IZR. apply IZR_le. lia. }
  split; [lra|]. eapply Rle_trans; [exact Ac|]. assert (Rabs (fval f x) / 5 * ulp f <= 8 / 10 * ulp f)%R by (apply Rmult_le_compat_r; lra). lra.
Qed.
Lemma rot_fixed : forall x, (- p <= fval f x < p)%R -> exists w, returns (fun fuel => rotor_fixed m f fuel x) w /\ True /\ (cabs (csub (cval f w) (cis (fval f x))) <= err f)%R.
Proof using Hf Sg I W.
  intros x X. destruct (sincos_fixed_p x) as (s & c & Es & [n Ec] & As & Ac); [apply Rabs_le; lra|]. exists (mkC c s).
  split; [exists n; intros fuel L; rewrite Es; cbn [bind]; rewrite Ec by auto; reflexivity|]. split; auto. apply cis_near; auto.
Qed.
Lemma step_fixed : forall phi s, True -> (- p <= fval f phi < p)%R -> (p + Rabs (fval f s) <= fval f (fmax f))%R ->
  exists t k, returns (fun fuel => a <- o_add (fixed_ops m f) phi s ;; mixed_wrap_phase (fixed_wrap_phase m f fuel) a) t /\ True /\ (- p <= fval f t < p)%R /\
  (Rabs (fval f phi + fval f s - (fval f t + IZR k * (2 * p))) <= 0)%R.
Proof using Hf Sg I W.
  intros phi s _ B Ss. destruct (nco_fixed m f Hf Sg ltac:(right; lia)) as (q & Eq & H). assert (q = pi_bits f) by (rewrite fixed_pi_eq in Eq by auto; congruence). subst q.
  destruct (H [s] phi B ltac:(auto)) as (t & [n R] & Bt & k & K). exists t, k. split; [|split; [|split]]; auto.
  - exists n. intros j J. specialize (R j J). rewrite run_cons in R. cbv beta in R. 
    destruct (o_add (fixed_ops m f) phi s) as [a|?|]; cbn [bind] in *; try discriminate. destruct (mixed_wrap_phase (fixed_wrap_phase m f j) a) as [b|?|]; cbn [bind run fold_left] in *; auto.
  - cbn [map fold_right] in K. replace (fval f phi + fval f s - (fval f t + IZR k * (2 * p)))%R with 0%R by lra. rewrite Rabs_R0. lra.
Qed.
Notation g := (224 / 100 * ulp f)%R.
Notation M := ((fval f (fmax f) - g) / (1 + err f))%R.
Lemma err_pos : (0 < err f)%R.
Proof using. assert (U : (0 < ulp f)%R) by apply bpow_gt_0. lra. Qed.
Lemma to_M : forall a, (a * (1 + err f) + g <= fval f (fmax f))%R <-> (a <= M)%R.
Proof using.
  intros a. pose proof err_pos as E. set (D := (1 + err f)%R). set (N := (fval f (fmax f) - g)%R). assert (D0 : (0 < D)%R) by (unfold D; lra).
  replace (a * D + g <= fval f (fmax f))%R with (a * D + g <= N + g)%R by (unfold N; f_equal; ring). split; intros H.
  - apply Rmult_le_reg_r with D; auto. unfold Rdiv. rewrite (Rmult_assoc N (/ D) D), Rinv_l, Rmult_1_r by lra. lra.
  - apply Rmult_le_compat_r with (r := D) in H; [|lra]. unfold Rdiv in H. rewrite (Rmult_assoc N (/ D) D), Rinv_l, Rmult_1_r in H by lra. lra.
Qed.
Lemma mul_fixed_M : forall z w, True -> True -> (cabs (cval f z) <= M)%R -> (cabs (cval f w) <= 1 + err f)%R ->
  exists r, cartesian_mul (fixed_ops m f) z w = Ok r /\ True /\ (cabs (csub (cval f r) (cmul (cval f z) (cval f w))) <= g)%R.
Proof using Hf Sg.
  intros z w _ _ Hz Hw. apply to_M in Hz. pose proof (cabs_pos (cval f z)) as Z0. destruct (fixed_mul_near m f Hf Sg z w) as (r & E & N).
  { assert (cabs (cval f z) * cabs (cval f w) <= cabs (cval f z) * (1 + err f))%R by (apply Rmult_le_compat_l; lra). lra. }
  eauto.
Qed.
Lemma conj_fixed : forall w, True -> (cabs (cval f w) <= 1 + err f)%R ->
  exists c, cartesian_conj (fixed_signed m f) w = Ok c /\ True /\ cval f c = (fst (cval f w), - snd (cval f w))%R.
Proof using Hf Sg I W.
  intros w _ H. pose proof (cabs_snd (cval f w)) as A. cbn [cval snd] in A.
  assert (U : (0 < ulp f <= 1)%R). { split; [apply bpow_gt_0|]. change 1%R with (bpow radix2 0). apply bpow_le. pose proof (proj1 W). lia. }
  assert (B : fvalid f (- im w)).
  { assert (R : in_rangeb (fity f) (- im w) = true); [|unfold in_rangeb in R; unfold fvalid, in_range; lia].
    apply (fval_inj_range f Hf Sg). rewrite fval_neg, Rabs_Ropp. unfold cval in *. cbn [fst snd] in *.
    apply Rle_trans with 12%R; [lra|]. rewrite fval_eq by apply W. pose proof (fone_IZR_pos f (proj1 W)) as P. apply Rmult_le_reg_r with (IZR (fone f)); auto. unfold Rdiv. rewrite Rmult_assoc, Rinv_l, Rmult_1_r by lra.
    rewrite <- mult_IZR. apply IZR_le. rewrite fmax_signed by auto. pose proof (room f W I). pose proof (fone_pos f (proj1 W)). lia. }
  exists (mkC (re w) (- im w)). split; [|split; auto].
  - unfold cartesian_conj. cbn [o_neg fixed_signed]. unfold fx_neg. rewrite fx_fin_ok by auto. reflexivity.
  - unfold cval. cbn [re im fst snd]. rewrite fval_neg. reflexivity.
Qed.
End Fixed.

Notation mix_fixed m f fuel := (mixer (fixed_ops m f) (fun x => rotor_fixed m f fuel x) (mixed_wrap_phase (fixed_wrap_phase m f fuel))).
Notation unmix_fixed m f fuel := (mixer (fixed_ops m f) (counter (fixed_signed m f) (fun x => rotor_fixed m f fuel x)) (mixed_wrap_phase (fixed_wrap_phase m f fuel))).
Notation gg f := (224 / 100 * ulp f)%R.
Lemma mix_fixed_all : forall m f, supported f = true -> fsigned f = true -> ffrac f <= fwidth f - 20 ->
  exists pb, mixed_pi (fixed_pi m f) = Ok pb /\ let p := fval f pb in let d := err f in
  forall l phi, (- p <= fval f phi < p)%R ->
  Forall (fun sx => (p + Rabs (fval f (fst sx)) <= fval f (fmax f) /\ cabs (cval f (snd sx)) * (1 + d) + gg f <= fval f (fmax f))%R) l ->
  exists ys, returns (fun fuel => mix_fixed m f fuel phi l) ys /\ length ys = length l /\
  forall i s x, nth_error l i = Some (s, x) -> exists y k, nth_error ys i = Some y /\
  let Phi := (fval f phi + sumR (map (fun sx => fval f (fst sx)) (firstn i l)))%R in
  (Rabs (Phi - IZR k * (2 * p)) <= p)%R /\
  (cabs (csub (cval f y) (cmul (cval f x) (cis Phi))) <= cabs (cval f x) * (d + Rabs (IZR k) * (2 * Rabs (PI - p))) + gg f)%R.
Proof.
  intros m f Hf Sg I. pose proof (supported_fwf f Hf) as W. exists (pi_bits f). split; [apply fixed_pi_eq; auto|]. cbv zeta. intros l phi B HF.
  destruct (mixer_loop (fixed_ops m f) (fun fuel x => rotor_fixed m f fuel x) (fun fuel => mixed_wrap_phase (fixed_wrap_phase m f fuel)) (fval f) (cval f) (fun _ => True) (fun _ => True)
    (fun s => (fval f (pi_bits f) + Rabs (fval f s) <= fval f (fmax f))%R) (fun _ => gg f) (fval f (pi_bits f)) 0 (err f) ((fval f (fmax f) - gg f) / (1 + err f))
    (step_fixed m f Hf Sg I) (fun phi _ B => rot_fixed m f Hf Sg I phi B) (mul_fixed_M m f Hf Sg) l phi Logic.I B) as (ys & R & L & _ & H).
  { eapply Forall_impl; [|exact HF]. intros [s x] [A1 A2]. cbn [fst snd] in *. split; auto. split; auto. apply to_M. exact A2. }
  exists ys. split; auto. split; auto. intros i s x E. destruct (H i s x E) as (y & k & Ey & K & N). exists y, k. split; auto. cbv zeta in *.
  rewrite Rmult_0_r, Rplus_0_r in K, N. split; auto.
Qed.
Lemma back_fixed_all : forall m f, supported f = true -> fsigned f = true -> ffrac f <= fwidth f - 20 ->
  exists pb, mixed_pi (fixed_pi m f) = Ok pb /\ let p := fval f pb in let d := err f in
  forall l phi, (- p <= fval f phi < p)%R ->
  Forall (fun sx => (p + Rabs (fval f (fst sx)) <= fval f (fmax f) /\ (cabs (cval f (snd sx)) * (1 + d) + gg f) * (1 + d) + gg f <= fval f (fmax f))%R) l ->
  exists ys zs, returns (fun fuel => mix_fixed m f fuel phi l) ys /\ returns (fun fuel => unmix_fixed m f fuel phi (combine (map fst l) ys)) zs /\ length zs = length l /\
  forall i s x, nth_error l i = Some (s, x) -> exists z, nth_error zs i = Some z /\
  (cabs (csub (cval f z) (cval f x)) <= cabs (cval f x) * (d * (2 + d)) + gg f * (2 + d))%R.
Proof.
  intros m f Hf Sg I. pose proof (supported_fwf f Hf) as W. exists (pi_bits f). split; [apply fixed_pi_eq; auto|]. cbv zeta. intros l phi B HF.
  assert (U : (0 < ulp f)%R) by apply bpow_gt_0.
  destruct (back_loop (fixed_ops m f) (fixed_signed m f) (fun fuel x => rotor_fixed m f fuel x) (fun fuel => mixed_wrap_phase (fixed_wrap_phase m f fuel)) (fval f) (cval f) (fun _ => True) (fun _ => True)
    (fun s => (fval f (pi_bits f) + Rabs (fval f s) <= fval f (fmax f))%R) (fun _ => gg f) (fval f (pi_bits f)) 0 (err f) ((fval f (fmax f) - gg f) / (1 + err f))
    (step_fixed m f Hf Sg I) (fun phi _ B => rot_fixed m f Hf Sg I phi B) (mul_fixed_M m f Hf Sg) ltac:(lra) ltac:(intros; lra) ltac:(intros; lra) (conj_fixed m f Hf Sg I) l phi Logic.I B) as (ys & zs & R1 & R2 & L & H).
  { eapply Forall_impl; [|exact HF]. intros [s x] [A1 A2]. cbn [fst snd] in *. split; auto. split; auto. apply to_M. exact A2. }
  exists ys, zs. split; auto. split; auto. split; auto. intros i s x E. destruct (H i s x E) as (z & Ez & N). exists z. split; auto. cbv beta zeta in *. lra.
Qed.

(** the stored pi is never pi: no integer lies between [lo 2^F] and [hi 2^F] *)
Lemma pi_off : forall f, supported f = true -> ffrac f <= 59 -> fval f (pi_bits f) <> PI.
Proof.
  intros f Hf F59 E. pose proof (supported_fwf f Hf) as W. rewrite fval_eq in E by apply W. pose proof (fone_IZR_pos f (proj1 W)) as Q. pose proof pi_bounds as PB.
  assert (E' : (IZR (pi_bits f) = PI * IZR (fone f))%R) by (rewrite <- E; field; lra).
  assert (L : (3141592653589793238 * fone f < pi_bits f * 1000000000000000000 < 3141592653589793239 * fone f)%Z).
  { split; apply lt_IZR; rewrite !mult_IZR, E'; nra. }
  unfold fone in L. set (b := pi_bits f) in *. clearbody b. pose proof (proj1 W) as F0. set (F := ffrac f) in *. clearbody F.
  assert (C : forallb (fun n => let q := 2 ^ Z.of_nat n in (3141592653589793238 * q / 1000000000000000000 =? (3141592653589793239 * q - 1) / 1000000000000000000)) (seq 0 60) = true) by (vm_compute; reflexivity).
  rewrite forallb_forall in C. specialize (C (Z.to_nat F) ltac:(apply in_seq; lia)). cbv zeta in C. rewrite Z2Nat.id in C by lia. apply Z.eqb_eq in C.
  set (q := 2 ^ F) in *. clearbody q.
  pose proof (Z.div_mod (3141592653589793238 * q) 1000000000000000000 ltac:(lia)) as D1. pose proof (Z.mod_pos_bound (3141592653589793238 * q) 1000000000000000000 ltac:(lia)).
  pose proof (Z.div_mod (3141592653589793239 * q - 1) 1000000000000000000 ltac:(lia)) as D2. pose proof (Z.mod_pos_bound (3141592653589793239 * q - 1) 1000000000000000000 ltac:(lia)). lia.
Qed.

Lemma firstn_repeat_S : forall (A : Type) (a : A) n j, firstn n (repeat a (n + j)) = repeat a n.
Proof. induction n as [|n IH]; intros j; [reflexivity|]. cbn [plus repeat firstn]. f_equal. apply IH. Qed.
Lemma nth_repeat_S : forall (A : Type) (a : A) n j, nth_error (repeat a (n + S j)) n = Some a.
Proof. induction n as [|n IH]; intros j; [reflexivity|]. cbn [plus repeat nth_error]. apply IH. Qed.
Lemma sum_repeat : forall (A : Type) (h : A -> R) a n, sumR (map h (repeat a n)) = (INR n * h a)%R.
Proof. induction n as [|n IH]; [cbn; ring|]. rewrite S_INR. cbn [repeat map fold_right]. rewrite IH. ring. Qed.

(** many turns of a wrong pi add up to half a turn *)
Lemma half_turn_off : forall p, (p <> PI)%R -> (Rabs (PI - p) <= / 50)%R -> exists j : nat, (Rtrigo_def.cos (INR (2 * j) * p) <= - (9 / 10))%R.
Proof.
  intros p NE D. set (e := Rabs (PI - p)) in *. assert (E0 : (0 < e)%R) by (apply Rabs_pos_lt; lra). pose proof PI_RGT_0 as PP.
  assert (EQ : (PI = PI / (2 * e) * (2 * e))%R) by (field; lra).
  assert (Q : (0 < PI / (2 * e))%R) by (apply Rdiv_lt_0_compat; lra).
  destruct (archimed (PI / (2 * e))) as [A1 A2]. set (v := (PI / (2 * e))%R) in *. set (z := up v) in *.
  assert (Z1 : (0 < z)%Z) by (apply lt_IZR; lra). exists (Z.to_nat (z - 1)).
  assert (Ej : INR (Z.to_nat (z - 1)) = (IZR z - 1)%R) by (rewrite INR_IZR_INZ, Z2Nat.id, minus_IZR by lia; reflexivity).
  rewrite mult_INR, Ej. change (INR 2) with 2%R. set (j := (IZR z - 1)%R) in *. assert (V1 : (j <= v)%R) by (unfold j; lra). assert (V2 : (v < j + 1)%R) by (unfold j; lra).
  clearbody v. assert (B1 : (2 * j * e <= PI)%R) by (rewrite EQ; nra). assert (B2 : (PI < 2 * j * e + 2 * e)%R) by (rewrite EQ; nra).
  assert (C : Rtrigo_def.cos (2 * j * p) = Rtrigo_def.cos (2 * j * e)).
  { assert (PJ : forall a, Rtrigo_def.cos (2 * j * PI + a) = Rtrigo_def.cos a).
    { intros a. pose proof (cis_period a (z - 1)) as CP. unfold cis in CP. rewrite minus_IZR in CP. fold j in CP. pose proof (f_equal fst CP) as X. cbn [fst] in X.
      replace (2 * j * PI + a)%R with (a + j * (2 * PI))%R by ring. exact X. }
    unfold e, Rabs. destruct (Rcase_abs (PI - p)) as [S|S].
    - replace (2 * j * p)%R with (2 * j * PI + 2 * j * (- (PI - p)))%R by ring. apply PJ.
    - replace (2 * j * p)%R with (2 * j * PI + - (2 * j * (PI - p)))%R by ring. rewrite PJ. apply cos_neg. }
  rewrite C. replace (2 * j * e)%R with (- (PI - 2 * j * e) + PI)%R by ring. rewrite neg_cos, cos_neg.
  pose proof (cis_lip (PI - 2 * j * e) 0) as L. rewrite Rminus_0_r in L.
  pose proof (cabs_fst (csub (cis (PI - 2 * j * e)) (cis 0))) as F1. change (fst (csub (cis (PI - 2 * j * e)) (cis 0))) with (Rtrigo_def.cos (PI - 2 * j * e) - Rtrigo_def.cos 0)%R in F1. rewrite cos_0 in F1.
  assert (Rabs (PI - 2 * j * e) <= 2 * e)%R by (apply Rabs_le; lra).
  assert (X : (Rabs (Rtrigo_def.cos (PI - 2 * j * e) - 1) <= / 25)%R) by lra. apply Rabs_le_inv in X. lra.
Qed.

Lemma osc_drift : forall m f, supported f = true -> fsigned f = true -> 8 <= ffrac f <= fwidth f - 20 ->
  exists pb, mixed_pi (fixed_pi m f) = Ok pb /\ exists n ys y,
  returns (fun fuel => mix_fixed m f fuel 0 (repeat (pb, mkC (fone f) 0) (n + 1))) ys /\ nth_error ys n = Some y /\
  (9 / 10 <= fval f (re y))%R /\ (Rtrigo_def.cos (INR n * fval f pb) <= - (9 / 10))%R.
Proof.
  intros m f Hf Sg [F8 I]. pose proof (supported_fwf f Hf) as W. exists (pi_bits f). split; [apply fixed_pi_eq; auto|].
  pose proof (pi_bits_bounds f W) as PB. pose proof (fone_pos f (proj1 W)) as Q. pose proof (room f W I) as RM. pose proof (fone_IZR_pos f (proj1 W)) as QR.
  assert (U : (0 < ulp f <= / 256)%R). { split; [apply bpow_gt_0|]. change (/ 256)%R with (bpow radix2 (-8)). apply bpow_le. lia. }
  set (p := fval f (pi_bits f)).
  assert (P34 : (3 <= p <= 4)%R).
  { unfold p. rewrite fval_eq by apply W. split; apply Rmult_le_reg_r with (IZR (fone f)); auto; unfold Rdiv; rewrite (Rmult_assoc _ (/ IZR (fone f))), Rinv_l, Rmult_1_r by lra; rewrite <- mult_IZR; apply IZR_le; lia. }
  assert (FM : (100 <= fval f (fmax f))%R).
  { rewrite fval_eq by apply W. apply Rmult_le_reg_r with (IZR (fone f)); auto. unfold Rdiv. rewrite Rmult_assoc, Rinv_l, Rmult_1_r by lra. rewrite <- mult_IZR. apply IZR_le. rewrite fmax_signed by auto. lia. }
  assert (V1 : fval f (fone f) = 1%R) by (rewrite fval_eq by apply W; field; lra). assert (V0 : fval f 0 = 0%R) by (unfold fval; ring).
  assert (CV : cval f (mkC (fone f) 0) = (1, 0)%R) by (unfold cval; cbn [re im]; rewrite V1, V0; reflexivity).
  assert (C1 : cabs (1, 0)%R = 1%R) by (unfold cabs; cbn [fst snd]; replace (1 * 1 + 0 * 0)%R with 1%R by ring; apply sqrt_1).
  assert (F59 : ffrac f <= 59). { pose proof (supported_inv f Hf). lia. }
  destruct (half_turn_off p (pi_off f Hf F59)) as (j & Hj).
  { pose proof (pi_real f W) as PR. unfold p. rewrite fval_eq by apply W. replace (PI - IZR (pi_bits f) / IZR (fone f))%R with (- ((IZR (pi_bits f) - PI * IZR (fone f)) / IZR (fone f)))%R by (field; lra).
    rewrite Rabs_Ropp. unfold Rdiv. rewrite Rabs_mult, (Rabs_pos_eq (/ IZR (fone f))) by (left; apply Rinv_0_lt_compat; auto).
    apply Rmult_le_reg_r with (IZR (fone f)); auto. rewrite Rmult_assoc, Rinv_l, Rmult_1_r by lra.
    assert (256 <= IZR (fone f))%R by (apply IZR_le; unfold fone; change 256 with (2 ^ 8); apply Z.pow_le_mono_r; lia). lra. }
  exists (2 * j)%nat.
  destruct (mixer_phase (fixed_ops m f) (fun fuel x => rotor_fixed m f fuel x) (fun fuel => mixed_wrap_phase (fixed_wrap_phase m f fuel)) (fval f) (cval f) (fun _ => True) (fun _ => True)
    (fun s => (fval f (pi_bits f) + Rabs (fval f s) <= fval f (fmax f))%R) (fun _ => gg f) (fval f (pi_bits f)) 0 (err f) ((fval f (fmax f) - gg f) / (1 + err f))
    (step_fixed m f Hf Sg I) (fun phi _ B => rot_fixed m f Hf Sg I phi B) (mul_fixed_M m f Hf Sg) (repeat (pi_bits f, mkC (fone f) 0) (2 * j + 1)) 0 0%R 0 0%nat Logic.I) as (ys & R & L & _ & H).
  { rewrite V0. fold p. lra. }
  { rewrite V0. cbn [INR]. replace (0 - (0 + 0 * (2 * fval f (pi_bits f))))%R with 0%R by ring. rewrite Rabs_R0. lra. }
  { apply Forall_forall. intros sx E. apply repeat_spec in E. subst sx. cbn [fst snd]. split; [|split; auto].
    - fold p. rewrite Rabs_pos_eq by lra. lra.
    - rewrite CV, C1. apply to_M. lra. }
  destruct (H (2 * j)%nat (pi_bits f) (mkC (fone f) 0)) as (y & k & a & Ey & Ba & K & N); [apply (nth_repeat_S _ _ _ 0)|].
  exists ys, y. split; auto. split; auto. split; auto.
  rewrite firstn_repeat_S, (sum_repeat _ (fun sx => fval f (fst sx))) in K. cbn [fst] in K. rewrite Rmult_0_r, mult_INR in K. fold p in K, Ba. change (INR 2) with 2%R in K.
  assert (A0 : a = 0%R).
  { apply Rabs_le_inv in K. assert (X : a = (IZR (Z.of_nat j - k) * (2 * p))%R) by (rewrite minus_IZR, <- INR_IZR_INZ; lra).
    set (i := Z.of_nat j - k) in *. assert (J : (-1 < IZR i < 1)%R) by (split; nra). destruct J as [J1 J2]. apply lt_IZR in J1, J2. replace i with 0 in X by lia. rewrite X. ring. }
  subst a. rewrite CV, C1 in N. pose proof (cabs_fst (csub (cval f y) (cmul (1, 0)%R (cis 0)))) as F1. change (fst (csub (cval f y) (cmul (1, 0)%R (cis 0)))) with (fval f (re y) - (1 * Rtrigo_def.cos 0 - 0 * Rtrigo_def.sin 0))%R in F1.
  rewrite cos_0, sin_0 in F1. apply Rabs_le_inv in F1. lra.
Qed.

(** ** floats *)
Notation mix_float fuel := (mixer float_ops (fun x => rotor fuel x) (mixed_wrap_phase (float_wrap_phase fuel))).
Notation unmix_float fuel := (mixer float_ops (counter float_signed (fun x => rotor fuel x)) (mixed_wrap_phase (float_wrap_phase fuel))).
Section Float.
Context {prec emax : Z} {Hp : Prec_gt_0 prec} {He : Prec_lt_emax prec emax}.
Notation float := (binary_float prec emax).
Notation u := (bpow radix2 (- prec)).
Notation eta := (bpow radix2 (3 - emax - prec)).
Notation fv := (@cvalf prec emax).
Hypothesis P24 : 24 <= prec.
Variables (k0 e0 : Z).
Hypothesis K1 : 1 <= k0.
Hypothesis K2 : 2 * k0 + 1 < emax.
Variable p : float.
Hypothesis SC : forall x : float, is_finite x = true -> (Rabs (B2R x) <= B2R p)%R -> exists s c : float, flt_sin x = Ok s /\ (forall fuel, (2 <= fuel)%nat -> flt_cos fuel x = Ok c) /\
  is_finite s = true /\ is_finite c = true /\ (Rabs (B2R s - Rtrigo_def.sin (B2R x)) <= 5 / 1000000)%R /\ (Rabs (B2R c - Rtrigo_def.cos (B2R x)) <= 5 / 1000000)%R.
Hypothesis NC : forall steps (phi : float), is_finite phi = true -> (- B2R p <= B2R phi < B2R p)%R ->
  Forall (fun s => is_finite s = true /\ (Rabs (B2R s) <= B2R p)%R) steps ->
  exists (r : float) k, returns (fun fuel => run (fun a s => t <- o_add float_ops a s ;; mixed_wrap_phase (float_wrap_phase fuel) t) phi steps) r /\ is_finite r = true /\ (- B2R p <= B2R r < B2R p)%R /\
  (Rabs (B2R phi + fold_right Rplus 0 (map B2R steps) - (B2R r + IZR k * (2 * B2R p))) <= INR (length steps) * bpow radix2 e0)%R.
Notation d := (14143 / 10000 * (5 / 1000000))%R.
Notation em a := (2 / 10000000 * a + 3 * eta)%R.

Lemma step_float : forall phi s : float, is_finite phi = true -> (- B2R p <= B2R phi < B2R p)%R -> is_finite s = true /\ (Rabs (B2R s) <= B2R p)%R ->
  exists t k, returns (fun fuel => a <- o_add float_ops phi s ;; mixed_wrap_phase (float_wrap_phase fuel) a) t /\ is_finite t = true /\ (- B2R p <= B2R t < B2R p)%R /\
  (Rabs (B2R phi + B2R s - (B2R t + IZR k * (2 * B2R p))) <= bpow radix2 e0)%R.
Proof using NC.
  intros phi s F B Ss. destruct (NC [s] phi F B ltac:(auto)) as (t & k & [n R] & Ft & Bt & K). exists t, k. split; [|split; [|split]]; auto.
  - exists n. intros j J. specialize (R j J). rewrite run_cons in R. cbv beta in R. 
    destruct (o_add float_ops phi s) as [a|?|]; cbn [bind] in *; try discriminate. destruct (mixed_wrap_phase (float_wrap_phase j) a) as [b|?|]; cbn [bind run fold_left] in *; auto.
  - cbn [map fold_right length INR] in K. rewrite Rplus_0_r, Rmult_1_l in K. exact K.
Qed.
Lemma rot_float : forall x : float, is_finite x = true -> (- B2R p <= B2R x < B2R p)%R -> exists w, returns (fun fuel => rotor fuel x) w /\ finite w /\ (cabs (csub (fv w) (cis (B2R x))) <= d)%R.
Proof using SC.
  intros x F X. destruct (SC x F) as (s & c & Es & Ec & Fs & Fc & As & Ac); [apply Rabs_le; lra|]. exists (mkC c s).
  split; [exists 2%nat; intros fuel L; rewrite Es; cbn [bind]; rewrite Ec by auto; reflexivity|]. split; [split; auto|]. apply cis_near; auto.
Qed.
Lemma mul_float_M : forall z w : Cartesian float, finite z -> finite w -> (cabs (fv z) <= bpow radix2 k0)%R -> (cabs (fv w) <= 1 + d)%R ->
  exists r, cartesian_mul float_ops z w = Ok r /\ finite r /\ (cabs (csub (fv r) (cmul (fv z) (fv w))) <= em (cabs (fv z)))%R.
Proof using P24 K1 K2.
  intros z w Fz Fw Hz Hw. pose proof (cabs_pos (fv z)) as Z0. pose proof (cabs_pos (fv w)) as W0.
  assert (US : (0 < u <= 6 / 100000000)%R).
  { split; [apply bpow_gt_0|]. apply Rle_trans with (bpow radix2 (-24)); [apply bpow_le; lia|]. change (bpow radix2 (-24)) with (/ 16777216)%R. lra. }
  assert (B2 : (2 <= bpow radix2 k0)%R) by (change 2%R with (bpow radix2 1); apply bpow_le; lia).
  assert (P5 : 5 <= prec) by lia. assert (K3 : 3 - emax <= 2 * k0) by lia.
  destruct (float_mul_near P5 k0 K3 K2 z w Fz Fw Hz ltac:(lra)) as (r & E & Fr & N). exists r. split; auto. split; auto.
  eapply Rle_trans; [exact N|]. apply Rplus_le_compat_r. assert (A1 : (cabs (fv z) * cabs (fv w) <= cabs (fv z) * (11 / 10))%R) by (apply Rmult_le_compat_l; lra).
  apply Rle_trans with (3 * (6 / 100000000) * (cabs (fv z) * cabs (fv w)))%R; [|lra]. apply Rmult_le_compat_r; [apply Rmult_le_pos; auto|lra].
Qed.
Lemma conj_float_v : forall w : Cartesian float, finite w -> (cabs (fv w) <= 1 + d)%R ->
  exists c, cartesian_conj float_signed w = Ok c /\ finite c /\ fv c = (fst (fv w), - snd (fv w))%R.
Proof using.
  intros w [F1 F2] _. exists (mkC (re w) (Bopp (im w))). split; [reflexivity|]. split; [split; auto; cbn [im]; rewrite is_finite_Bopp; auto|].
  unfold cvalf. cbn [re im fst snd]. rewrite B2R_Bopp. reflexivity.
Qed.

Lemma mix_float_all : forall l (phi : float), is_finite phi = true -> (- B2R p <= B2R phi < B2R p)%R ->
  Forall (fun sx => (is_finite (fst sx) = true /\ Rabs (B2R (fst sx)) <= B2R p)%R /\ finite (snd sx) /\ (cabs (fv (snd sx)) <= bpow radix2 k0)%R) l ->
  exists ys, returns (fun fuel => mix_float fuel phi l) ys /\ length ys = length l /\ Forall (fun y => finite y) ys /\
  forall i s x, nth_error l i = Some (s, x) -> exists y k, nth_error ys i = Some y /\
  let Phi := (B2R phi + sumR (map (fun sx => B2R (fst sx)) (firstn i l)))%R in
  (Rabs (Phi - IZR k * (2 * B2R p)) <= B2R p + INR i * bpow radix2 e0)%R /\
  (cabs (csub (fv y) (cmul (fv x) (cis Phi))) <= cabs (fv x) * (8 / 1000000 + INR i * bpow radix2 e0 + Rabs (IZR k) * (2 * Rabs (PI - B2R p))) + 3 * eta)%R.
Proof using P24 K1 K2 SC NC.
  intros l phi F B HF.
  destruct (mixer_loop float_ops (fun fuel x => rotor fuel x) (fun fuel => mixed_wrap_phase (float_wrap_phase fuel)) B2R fv (fun x => is_finite x = true) (fun w => finite w)
    (fun s => is_finite s = true /\ (Rabs (B2R s) <= B2R p)%R) (fun a => em a) (B2R p) (bpow radix2 e0) d (bpow radix2 k0)
    step_float rot_float mul_float_M l phi F B HF) as (ys & R & L & Fy & H).
  exists ys. split; auto. split; auto. split; auto. intros i s x E. destruct (H i s x E) as (y & k & Ey & K & N). exists y, k. split; auto. cbv zeta in *. split; auto.
  pose proof (cabs_pos (fv x)) as X0. eapply Rle_trans; [exact N|]. lra.
Qed.
Lemma back_float_all : forall l (phi : float), is_finite phi = true -> (- B2R p <= B2R phi < B2R p)%R ->
  Forall (fun sx => (is_finite (fst sx) = true /\ Rabs (B2R (fst sx)) <= B2R p)%R /\ finite (snd sx) /\ (cabs (fv (snd sx)) <= bpow radix2 (k0 - 1))%R) l ->
  exists ys zs, returns (fun fuel => mix_float fuel phi l) ys /\ returns (fun fuel => unmix_float fuel phi (combine (map fst l) ys)) zs /\ length zs = length l /\
  forall i s x, nth_error l i = Some (s, x) -> exists z, nth_error zs i = Some z /\
  (cabs (csub (fv z) (fv x)) <= 15 / 1000000 * cabs (fv x) + 7 * eta)%R.
Proof using P24 K1 K2 SC NC.
  intros l phi F B HF. assert (E0 : (0 < eta <= / 16)%R). { split; [apply bpow_gt_0|]. change (/ 16)%R with (bpow radix2 (-4)). apply bpow_le. lia. }
  destruct (back_loop float_ops float_signed (fun fuel x => rotor fuel x) (fun fuel => mixed_wrap_phase (float_wrap_phase fuel)) B2R fv (fun x => is_finite x = true) (fun w => finite w)
    (fun s => is_finite s = true /\ (Rabs (B2R s) <= B2R p)%R) (fun a => em a) (B2R p) (bpow radix2 e0) d (bpow radix2 k0)
    step_float rot_float mul_float_M ltac:(lra) ltac:(intros; lra) ltac:(intros; lra) conj_float_v l phi F B) as (ys & zs & R1 & R2 & L & H).
  { eapply Forall_impl; [|exact HF]. intros [s x] (A1 & A2 & A3). cbn [fst snd] in *. split; auto. split; auto. cbv beta.
    assert (D2 : (bpow radix2 k0 = 2 * bpow radix2 (k0 - 1))%R) by (replace k0 with (1 + (k0 - 1)) at 1 by ring; rewrite bpow_plus; reflexivity).
    assert (1 <= bpow radix2 (k0 - 1))%R by (change 1%R with (bpow radix2 0); apply bpow_le; lia). pose proof (cabs_pos (fv x)). lra. }
  exists ys, zs. split; auto. split; auto. split; auto. intros i s x E. destruct (H i s x E) as (z & Ez & N). exists z. split; auto. cbv beta zeta in *.
  pose proof (cabs_pos (fv x)) as X0. eapply Rle_trans; [exact N|]. lra.
Qed.
End Float.

Lemma sc_f32 : exists p : f32, mixed_pi float_pi = Ok p /\ forall x : f32, is_finite x = true -> (Rabs (B2R x) <= B2R p)%R -> exists s c : f32, flt_sin x = Ok s /\ (forall fuel, (2 <= fuel)%nat -> flt_cos fuel x = Ok c) /\
  is_finite s = true /\ is_finite c = true /\ (Rabs (B2R s - Rtrigo_def.sin (B2R x)) <= 5 / 1000000)%R /\ (Rabs (B2R c - Rtrigo_def.cos (B2R x)) <= 5 / 1000000)%R.
Proof.
  destruct c22_f32 as (_ & p & Ep & XP & A). destruct c54_f32 as (p' & Ep' & B). rewrite Ep in Ep'. injection Ep' as Ep'. subst p'. exists p. split; auto. intros x F H.
  destruct (A x F H) as (s & Es & Fs & As). destruct (B x F H) as (c & Fc & Ac & Ec). exists s, c. repeat split; auto.
Qed.
Lemma sc_f64 : exists p : f64, mixed_pi float_pi = Ok p /\ forall x : f64, is_finite x = true -> (Rabs (B2R x) <= B2R p)%R -> exists s c : f64, flt_sin x = Ok s /\ (forall fuel, (2 <= fuel)%nat -> flt_cos fuel x = Ok c) /\
  is_finite s = true /\ is_finite c = true /\ (Rabs (B2R s - Rtrigo_def.sin (B2R x)) <= 5 / 1000000)%R /\ (Rabs (B2R c - Rtrigo_def.cos (B2R x)) <= 5 / 1000000)%R.
Proof.
  destruct c22_f64 as (_ & p & Ep & XP & A). destruct c54_f64 as (p' & Ep' & B). rewrite Ep in Ep'. injection Ep' as Ep'. subst p'. exists p. split; auto. intros x F H.
  destruct (A x F H) as (s & Es & Fs & As). destruct (B x F H) as (c & Fc & Ac & Ec). exists s, c. repeat split; auto.
Qed.
Lemma mix_f32 : exists p : f32, mixed_pi float_pi = Ok p /\ forall l (phi : f32), is_finite phi = true -> (- B2R p <= B2R phi < B2R p)%R ->
  Forall (fun sx : f32 * Cartesian f32 => (is_finite (fst sx) = true /\ Rabs (B2R (fst sx)) <= B2R p)%R /\ finite (snd sx) /\ (cabs (cvalf (snd sx)) <= bpow radix2 63)%R) l ->
  exists ys, returns (fun fuel => mix_float fuel phi l) ys /\ length ys = length l /\ Forall (fun y => finite y) ys /\
  forall i s x, nth_error l i = Some (s, x) -> exists y k, nth_error ys i = Some y /\
  let Phi := (B2R phi + sumR (map (fun sx : f32 * Cartesian f32 => B2R (fst sx)) (firstn i l)))%R in
  (Rabs (Phi - IZR k * (2 * B2R p)) <= B2R p + INR i * bpow radix2 (-22))%R /\
  (cabs (csub (cvalf y) (cmul (cvalf x) (cis Phi))) <= cabs (cvalf x) * (8 / 1000000 + INR i * bpow radix2 (-22) + Rabs (IZR k) * (2 * Rabs (PI - B2R p))) + 3 * bpow radix2 (-149))%R.
Proof.
  destruct sc_f32 as (p & Ep & SC). destruct nco_f32 as (p' & Ep' & NC). rewrite Ep in Ep'. injection Ep' as Ep'. subst p'. exists p. split; auto.
  exact (mix_float_all (prec := 24) (emax := 128) ltac:(lia) 63 (-22) ltac:(lia) ltac:(lia) p SC NC).
Qed.
Lemma mix_f64 : exists p : f64, mixed_pi float_pi = Ok p /\ forall l (phi : f64), is_finite phi = true -> (- B2R p <= B2R phi < B2R p)%R ->
  Forall (fun sx : f64 * Cartesian f64 => (is_finite (fst sx) = true /\ Rabs (B2R (fst sx)) <= B2R p)%R /\ finite (snd sx) /\ (cabs (cvalf (snd sx)) <= bpow radix2 511)%R) l ->
  exists ys, returns (fun fuel => mix_float fuel phi l) ys /\ length ys = length l /\ Forall (fun y => finite y) ys /\
  forall i s x, nth_error l i = Some (s, x) -> exists y k, nth_error ys i = Some y /\
  let Phi := (B2R phi + sumR (map (fun sx : f64 * Cartesian f64 => B2R (fst sx)) (firstn i l)))%R in
  (Rabs (Phi - IZR k * (2 * B2R p)) <= B2R p + INR i * bpow radix2 (-51))%R /\
  (cabs (csub (cvalf y) (cmul (cvalf x) (cis Phi))) <= cabs (cvalf x) * (8 / 1000000 + INR i * bpow radix2 (-51) + Rabs (IZR k) * (2 * Rabs (PI - B2R p))) + 3 * bpow radix2 (-1074))%R.
Proof.
  destruct sc_f64 as (p & Ep & SC). destruct nco_f64 as (p' & Ep' & NC). rewrite Ep in Ep'. injection Ep' as Ep'. subst p'. exists p. split; auto.
  exact (mix_float_all (prec := 53) (emax := 1024) ltac:(lia) 511 (-51) ltac:(lia) ltac:(lia) p SC NC).
Qed.
Lemma back_f32 : exists p : f32, mixed_pi float_pi = Ok p /\ forall l (phi : f32), is_finite phi = true -> (- B2R p <= B2R phi < B2R p)%R ->
  Forall (fun sx : f32 * Cartesian f32 => (is_finite (fst sx) = true /\ Rabs (B2R (fst sx)) <= B2R p)%R /\ finite (snd sx) /\ (cabs (cvalf (snd sx)) <= bpow radix2 62)%R) l ->
  exists ys zs, returns (fun fuel => mix_float fuel phi l) ys /\ returns (fun fuel => unmix_float fuel phi (combine (map fst l) ys)) zs /\ length zs = length l /\
  forall i s x, nth_error l i = Some (s, x) -> exists z, nth_error zs i = Some z /\ (cabs (csub (cvalf z) (cvalf x)) <= 15 / 1000000 * cabs (cvalf x) + 7 * bpow radix2 (-149))%R.
Proof.
  destruct sc_f32 as (p & Ep & SC). destruct nco_f32 as (p' & Ep' & NC). rewrite Ep in Ep'. injection Ep' as Ep'. subst p'. exists p. split; auto.
  exact (back_float_all (prec := 24) (emax := 128) ltac:(lia) 63 (-22) ltac:(lia) ltac:(lia) p SC NC).
Qed.
Lemma back_f64 : exists p : f64, mixed_pi float_pi = Ok p /\ forall l (phi : f64), is_finite phi = true -> (- B2R p <= B2R phi < B2R p)%R ->
  Forall (fun sx : f64 * Cartesian f64 => (is_finite (fst sx) = true /\ Rabs (B2R (fst sx)) <= B2R p)%R /\ finite (snd sx) /\ (cabs (cvalf (snd sx)) <= bpow radix2 510)%R) l ->
  exists ys zs, returns (fun fuel => mix_float fuel phi l) ys /\ returns (fun fuel => unmix_float fuel phi (combine (map fst l) ys)) zs /\ length zs = length l /\
  forall i s x, nth_error l i = Some (s, x) -> exists z, nth_error zs i = Some z /\ (cabs (csub (cvalf z) (cvalf x)) <= 15 / 1000000 * cabs (cvalf x) + 7 * bpow radix2 (-1074))%R.
Proof.
  destruct sc_f64 as (p & Ep & SC). destruct nco_f64 as (p' & Ep' & NC). rewrite Ep in Ep'. injection Ep' as Ep'. subst p'. exists p. split; auto.
  exact (back_float_all (prec := 53) (emax := 1024) ltac:(lia) 511 (-51) ltac:(lia) ltac:(lia) p SC NC).
Qed.
