(** * Angles of products and phase differences. *)

From Coq Require Import ZArith Reals Lia Lra Psatz Bool List.
From Flocq Require Import Core.Core IEEE754.BinarySingleNaN.
From Verif Require Import SinReal Base FloatBase Literals Traits Trig IntImpl FixedPrim FixedImpl FloatImpl Complex Spec SpecAngle SpecFilter SpecRotor SpecFourier SpecUnit SpecPhase SpecPolar SpecFloatPolar
  Lemmas FloatLemmas FloatKit ScalarProofs ScalarProofs2 WrapProofs WrapProofs2 ComplexProofs3 PolarProofs AtanReal AtanProofs ProdProofs FilterProofs FloatProofs FloatArith FloatFilter PhaseAcc MagMul RotorProofs UnitProofs.
Import ListNotations.
Open Scope Z_scope.

Section Real.
Open Scope R_scope.
Lemma cis_lip : forall a b, cabs (csub (cis a) (cis b)) <= Rabs (a - b).
Proof.
  intros a b. apply cabs_le; [apply Rabs_pos|]. unfold csub, cis. cbn [fst snd]. rewrite <- Rabs_mult, (Rabs_pos_eq ((a - b) * (a - b))) by apply Rle_0_sqr.
  set (h := (a - b) / 2). pose proof (sin2_cos2 a) as S1. pose proof (sin2_cos2 b) as S2. unfold Rsqr in S1, S2. pose proof (cos_minus a b) as CM.
  assert (E : Rtrigo_def.cos (a - b) = 1 - 2 * (Rtrigo_def.sin h * Rtrigo_def.sin h)) by (replace (a - b) with (2 * h) by (unfold h; field); rewrite cos_2a_sin; ring).
  pose proof (SinReal.sin_lipschitz h 0) as L. rewrite sin_0, !Rminus_0_r in L.
  assert (Rtrigo_def.sin h * Rtrigo_def.sin h <= h * h). { replace (Rtrigo_def.sin h * Rtrigo_def.sin h) with (Rabs (Rtrigo_def.sin h) * Rabs (Rtrigo_def.sin h)) by (rewrite <- Rabs_mult; apply Rabs_pos_eq, Rle_0_sqr).
    replace (h * h) with (Rabs h * Rabs h) by (rewrite <- Rabs_mult; apply Rabs_pos_eq, Rle_0_sqr). apply Rmult_le_compat; auto; apply Rabs_pos. }
  replace ((a - b) * (a - b)) with (4 * (h * h)) by (unfold h; field). nra.
Qed.
Lemma angle_unit : forall x y th, is_angle y x th -> cunit (x, y) = cis th.
Proof.
  intros x y th (_ & rho & R0 & -> & ->). assert (E : cabs (rho * Rtrigo_def.cos th, rho * Rtrigo_def.sin th) = rho).
  { unfold cabs. cbn [fst snd]. pose proof (sin2_cos2 th) as S. unfold Rsqr in S.
    replace (rho * Rtrigo_def.cos th * (rho * Rtrigo_def.cos th) + rho * Rtrigo_def.sin th * (rho * Rtrigo_def.sin th)) with (rho * rho * (Rtrigo_def.sin th * Rtrigo_def.sin th + Rtrigo_def.cos th * Rtrigo_def.cos th)) by ring.
    rewrite S, Rmult_1_r. apply sqrt_square. lra. }
  unfold cunit. rewrite E. cbn [fst snd]. unfold cis. f_equal; field; lra.
Qed.
Lemma cabs_nz : forall x y, 0 < cabs (x, y) -> x <> 0 \/ y <> 0.
Proof. intros x y H. destruct (Req_dec x 0) as [->|]; auto. destruct (Req_dec y 0) as [->|]; auto. unfold cabs in H. cbn [fst snd] in H. rewrite Rmult_0_l, Rplus_0_r, sqrt_0 in H. lra. Qed.
Lemma cunit_mul : forall z w, 0 < cabs z -> 0 < cabs w -> cunit (cmul z w) = cmul (cunit z) (cunit w).
Proof. intros z w Z W. unfold cunit. rewrite cabs_cmul. unfold cmul. cbn [fst snd]. f_equal; field; lra. Qed.
Lemma cunit_diff : forall z w, 0 < cabs z -> 0 < cabs w -> cabs (csub (cunit z) (cunit w)) <= 2 * cabs (csub z w) / cabs w.
Proof.
  intros z w Z W. pose proof (csub_tri (cunit z) (fst z / cabs w, snd z / cabs w) (cunit w)) as T.
  rewrite (csub_sym (cunit z) (fst z / cabs w, snd z / cabs w)), unit_near in T by auto. pose proof (cabs_diff z w) as D.
  assert (E : cabs (csub (fst z / cabs w, snd z / cabs w) (cunit w)) = cabs (csub z w) / cabs w).
  { apply Rsqr_inj; [apply cabs_pos|apply Rmult_le_pos; [apply cabs_pos|left; apply Rinv_0_lt_compat; auto]|]. unfold Rsqr. rewrite cabs_sq.
    replace (cabs (csub z w) / cabs w * (cabs (csub z w) / cabs w)) with (cabs (csub z w) * cabs (csub z w) / (cabs w * cabs w)) by (field; lra). rewrite cabs_sq. unfold csub, cunit. cbn [fst snd]. field. lra. }
  rewrite E in T. assert (Rabs (cabs z - cabs w) / cabs w <= cabs (csub z w) / cabs w) by (apply Rmult_le_compat_r; [left; apply Rinv_0_lt_compat; auto|auto]).
  unfold Rdiv in *. lra.
Qed.
Lemma cconj_abs : forall z, cabs (cconj z) = cabs z.
Proof. intros. unfold cabs, cconj. cbn [fst snd]. f_equal. ring. Qed.
Lemma cis_neg : forall a, cis (- a) = cconj (cis a).
Proof. intros. unfold cis, cconj. cbn [fst snd]. rewrite cos_neg, sin_neg. reflexivity. Qed.
Lemma cunit_conj : forall z, cunit (cconj z) = cconj (cunit z).
Proof. intros. unfold cunit. rewrite cconj_abs. unfold cconj. cbn [fst snd]. f_equal. unfold Rdiv. ring. Qed.
Lemma cconj_diff : forall z w, cabs (csub (cconj z) (cconj w)) = cabs (csub z w).
Proof. intros. unfold cabs, csub, cconj. cbn [fst snd]. f_equal. ring. Qed.

(** directions of z, w and of p, near the product, known up to e1, e2, e3 *)
Lemma dir_mul : forall z w p a b c e1 e2 e3 g, 0 < cabs z -> 0 < cabs w -> 0 < cabs p ->
  cabs (csub (cis a) (cunit z)) <= e1 -> cabs (csub (cis b) (cunit w)) <= e2 -> cabs (csub (cis c) (cunit p)) <= e3 -> cabs (csub p (cmul z w)) <= g ->
  cabs (csub (cis c) (cis (a + b))) <= e1 + e2 + e3 + 2 * g / (cabs z * cabs w).
Proof.
  intros z w p a b c e1 e2 e3 g Z W P H1 H2 H3 HG. assert (ZW : 0 < cabs (cmul z w)) by (rewrite cabs_cmul; apply Rmult_lt_0_compat; auto).
  pose proof (csub_tri (cis c) (cunit p) (cis (a + b))) as T1. pose proof (csub_tri (cunit p) (cunit (cmul z w)) (cis (a + b))) as T2.
  pose proof (cunit_diff p (cmul z w) P ZW) as D1. rewrite cunit_mul in T2, D1 by auto. rewrite <- cis_add in *.
  pose proof (cmul_diff (cunit z) (cunit w) (cis a) (cis b)) as D2. rewrite cunit_abs, cis_abs in D2 by auto. rewrite (csub_sym (cunit z)), (csub_sym (cunit w)) in D2.
  rewrite cabs_cmul in D1. assert (2 * cabs (csub p (cmul z w)) / (cabs z * cabs w) <= 2 * g / (cabs z * cabs w)).
  { apply Rmult_le_compat_r; [left; apply Rinv_0_lt_compat, Rmult_lt_0_compat; auto|lra]. }
  lra.
Qed.
End Real.

(** ** fixed *)
Lemma fmax_two : forall f, supported f = true -> fsigned f = true -> (2 <= fval f (fmax f))%R.
Proof.
  intros f Hf S. pose proof (supported_fwf f Hf) as W. rewrite fval_eq, fmax_signed by (auto; apply W). pose proof (fone_IZR_pos f (proj1 W)) as P.
  apply Rmult_le_reg_r with (IZR (fone f)); auto. unfold Rdiv. rewrite Rmult_assoc, Rinv_l, Rmult_1_r by lra. rewrite <- mult_IZR. apply IZR_le.
  pose proof (fone_pos f (proj1 W)). unfold fwf in W. assert (2 ^ 2 * fone f <= 2 ^ (fwidth f - 1)). { unfold fone. rewrite <- Z.pow_add_r by lia. apply Z.pow_le_mono_r; lia. } lia.
Qed.
Lemma cabs_valid : forall f z, supported f = true -> fsigned f = true -> (cabs (cval f z) <= fval f (fmax f))%R -> cvalid (fity f) z.
Proof.
  intros f z Hf S H. pose proof (supported_fwf f Hf) as W. split; apply in_rangeb_spec, fval_inj_range; auto; (eapply Rle_trans; [|exact H]); [apply (cabs_fst (cval f z))|apply (cabs_snd (cval f z))].
Qed.
Lemma conj_fixed : forall m f z, supported f = true -> fsigned f = true -> (cabs (cval f z) <= fval f (fmax f))%R ->
  exists q, cartesian_conj (fixed_signed m f) z = Ok q /\ cval f q = cconj (cval f z).
Proof.
  intros m f z Hf S H. pose proof (supported_fwf f Hf) as W. exists (mkC (re z) (- im z)). split.
  - unfold cartesian_conj. cbn [fixed_signed o_neg]. unfold fx_neg. rewrite fx_fin_ok; auto. apply in_rangeb_spec, fval_inj_range; auto. unfold fval. rewrite opp_IZR, Ropp_mult_distr_l_reverse, Rabs_Ropp.
    eapply Rle_trans; [|exact H]. apply (cabs_snd (cval f z)).
  - unfold cval, cconj. cbn [re im fst snd]. f_equal. unfold fval. rewrite opp_IZR. ring.
Qed.

Section Fixed.
Variables (m : mode) (f : fty) (ang : Z -> Z -> res Z) (ok : Cartesian Z -> Prop) (E : R -> R) (E3 : R).
Hypotheses (Hf : supported f = true) (S : fsigned f = true).
Hypothesis dir : forall v, cvalid (fity f) v -> (0 < cabs (cval f v))%R -> ok v ->
  exists a, ang (im v) (re v) = Ok a /\ (cabs (csub (cis (fval f a)) (cunit (cval f v))) <= E (cabs (cval f v)))%R.
Variables z w : Cartesian Z.
Notation A := (cabs (cval f z)).
Notation B := (cabs (cval f w)).
Hypotheses (A0 : (0 < A <= fval f (fmax f))%R) (B0 : (0 < B <= fval f (fmax f))%R) (okA : ok z) (okB : ok w).
Hypotheses (PG : (g f < A * B)%R) (PM : (A * B + g f <= fval f (fmax f))%R).

Lemma sum_fixed : (forall p, cartesian_mul (fixed_ops m f) z w = Ok p -> (Rabs (cabs (cval f p) - A * B) <= g f)%R -> ok p /\ (E (cabs (cval f p)) <= E3)%R) ->
  exists p a b c, cartesian_mul (fixed_ops m f) z w = Ok p /\ ang (im z) (re z) = Ok a /\ ang (im w) (re w) = Ok b /\ ang (im p) (re p) = Ok c /\
  (cabs (csub (cis (fval f c)) (cis (fval f a + fval f b))) <= E A + E B + E3 + 2 * g f / (A * B))%R.
Proof using Hf S dir A0 B0 okA okB PG PM.
  intros okP. assert (U : (0 < ulp f)%R) by apply bpow_gt_0.
  destruct (fixed_mul_near m f Hf S z w PM) as (p & EM & N). pose proof (cabs_diff (cval f p) (cmul (cval f z) (cval f w))) as D. rewrite cabs_cmul in D.
  destruct (okP p EM ltac:(lra)) as [okp Ep]. assert (D2 := D). apply Rabs_le_inv in D2.
  destruct (dir z (cabs_valid f z Hf S ltac:(lra)) ltac:(lra) okA) as (a & Ea & Da). destruct (dir w (cabs_valid f w Hf S ltac:(lra)) ltac:(lra) okB) as (b & Eb & Db).
  destruct (dir p (cabs_valid f p Hf S ltac:(lra)) ltac:(lra) okp) as (c & Ec & Dc).
  exists p, a, b, c. repeat (split; [assumption|]). apply (dir_mul (cval f z) (cval f w) (cval f p)); auto; lra.
Qed.
Lemma diff_fixed : (forall q p, cartesian_conj (fixed_signed m f) z = Ok q -> cartesian_mul (fixed_ops m f) w q = Ok p -> (Rabs (cabs (cval f p) - A * B) <= g f)%R -> ok p /\ (E (cabs (cval f p)) <= E3)%R) ->
  exists q p a b c, cartesian_conj (fixed_signed m f) z = Ok q /\ cartesian_mul (fixed_ops m f) w q = Ok p /\
  ang (im z) (re z) = Ok a /\ ang (im w) (re w) = Ok b /\ ang (im p) (re p) = Ok c /\
  (cabs (csub (cis (fval f c)) (cis (fval f b - fval f a))) <= E A + E B + E3 + 2 * g f / (A * B))%R.
Proof using Hf S dir A0 B0 okA okB PG PM.
  intros okP. assert (U : (0 < ulp f)%R) by apply bpow_gt_0.
  destruct (conj_fixed m f z Hf S ltac:(lra)) as (q & Eq & Vq). assert (Q : cabs (cval f q) = A) by (rewrite Vq; apply cconj_abs).
  destruct (fixed_mul_near m f Hf S w q) as (p & EM & N); [rewrite Q; lra|]. pose proof (cabs_diff (cval f p) (cmul (cval f w) (cval f q))) as D. rewrite cabs_cmul, Q in D.
  destruct (okP q p Eq EM) as [okp Ep]; [rewrite (Rmult_comm A); lra|]. assert (D2 := D). apply Rabs_le_inv in D2.
  destruct (dir z (cabs_valid f z Hf S ltac:(lra)) ltac:(lra) okA) as (a & Ea & Da). destruct (dir w (cabs_valid f w Hf S ltac:(lra)) ltac:(lra) okB) as (b & Eb & Db).
  destruct (dir p (cabs_valid f p Hf S ltac:(lra)) ltac:(lra) okp) as (c & Ec & Dc).
  exists q, p, a, b, c. repeat (split; [assumption|]). rewrite (Rmult_comm A).
  assert (Dq : (cabs (csub (cis (- fval f a)) (cunit (cval f q))) <= E A)%R) by (rewrite Vq, cis_neg, cunit_conj, cconj_diff; exact Da).
  pose proof (dir_mul (cval f w) (cval f q) (cval f p) (fval f b) (- fval f a) (fval f c) (E B) (E A) E3 (g f) ltac:(lra) ltac:(lra) ltac:(lra) Db Dq ltac:(lra) N) as H. rewrite Q in H. unfold Rminus. lra.
Qed.
End Fixed.

Lemma angle_ex : forall z, (0 < cabs z)%R -> is_angle (snd z) (fst z) (angle (snd z) (fst z)).
Proof. intros [x y] H. cbn [fst snd]. apply angle_spec. apply cabs_nz in H. tauto. Qed.
Lemma dir_fixed_oracle : forall f A e v, accurate_atan2_at f e A (im v) (re v) -> (0 < cabs (cval f v))%R ->
  exists a, mixed_atan2 A (im v) (re v) = Ok a /\ (cabs (csub (cis (fval f a)) (cunit (cval f v))) <= e)%R.
Proof.
  intros f A e v HA P. pose proof (angle_ex _ P) as I. cbn [cval fst snd] in I. destruct (HA _ I) as (a & Ea & _ & Da). exists a. split; auto.
  change (cval f v) with (fval f (re v), fval f (im v)). rewrite (angle_unit _ _ _ I). eapply Rle_trans; [apply cis_lip|exact Da].
Qed.
Notation poly_err f N := (492 / 100000 + (3 + 10 / (N * N)) * ulp f)%R.
Lemma cabs_max : forall x y, (Rmax (Rabs x) (Rabs y) <= cabs (x, y) /\ cabs (x, y) * cabs (x, y) <= 2 * (Rmax (Rabs x) (Rabs y) * Rmax (Rabs x) (Rabs y)))%R.
Proof.
  intros x y. split; [apply Rmax_lub; [apply (cabs_fst (x, y))|apply (cabs_snd (x, y))]|]. rewrite cabs_sq. cbn [fst snd].
  pose proof (Rmax_l (Rabs x) (Rabs y)) as L. pose proof (Rmax_r (Rabs x) (Rabs y)) as M. pose proof (Rabs_pos x). pose proof (Rabs_pos y).
  replace (x * x)%R with (Rabs x * Rabs x)%R by (rewrite <- Rabs_mult; apply Rabs_pos_eq, Rle_0_sqr). replace (y * y)%R with (Rabs y * Rabs y)%R by (rewrite <- Rabs_mult; apply Rabs_pos_eq, Rle_0_sqr).
  assert (Rabs x * Rabs x <= Rmax (Rabs x) (Rabs y) * Rmax (Rabs x) (Rabs y))%R by (apply Rmult_le_compat; auto). assert (Rabs y * Rabs y <= Rmax (Rabs x) (Rabs y) * Rmax (Rabs x) (Rabs y))%R by (apply Rmult_le_compat; auto). lra.
Qed.
Lemma dir_fixed : forall m f, supported f = true -> fsigned f = true -> forall v, let N := cabs (cval f v) in (32 * ulp f <= N * N)%R -> (3 / 2 * (N * N) <= fval f (fmax f))%R ->
  exists a, fixed_atan2_poly m f (im v) (re v) = Ok a /\ (cabs (csub (cis (fval f a)) (cunit (cval f v))) <= poly_err f N)%R.
Proof.
  intros m f Hf S v N H1 H2. assert (U : (0 < ulp f)%R) by apply bpow_gt_0. pose proof (cabs_pos (cval f v)) as N0. fold N in N0.
  assert (NP : (0 < N)%R) by nra. pose proof (angle_ex _ NP) as I. cbn [cval fst snd] in I.
  destruct (cabs_max (fval f (re v)) (fval f (im v))) as [M1 M2]. change (cabs (fval f (re v), fval f (im v))) with N in M1, M2. set (M := Rmax _ _) in *.
  assert (M0 : (0 <= M)%R) by (apply Rle_trans with (Rabs (fval f (re v))); [apply Rabs_pos|apply Rmax_l]). assert (MM : (M * M <= N * N)%R) by (apply Rmult_le_compat; auto).
  destruct (c24 m f Hf S (im v) (re v) _ ltac:(fold M; lra) ltac:(fold M; lra) I) as (a & Ea & Da). fold M in Da. exists a. split; auto.
  change (cval f v) with (fval f (re v), fval f (im v)). rewrite (angle_unit _ _ _ I). eapply Rle_trans; [apply cis_lip|]. eapply Rle_trans; [exact Da|].
  assert (5 / (M * M) <= 10 / (N * N))%R. { apply Rmult_le_reg_r with (M * M)%R; [lra|]. unfold Rdiv. rewrite Rmult_assoc, Rinv_l by lra. apply Rmult_le_reg_r with (N * N)%R; [nra|].
    replace (10 * / (N * N) * (M * M) * (N * N))%R with (10 * (M * M))%R by (field; lra). lra. }
  apply Rplus_le_compat_l. apply Rmult_le_compat_r; lra.
Qed.

Section FixedThm.
Variables (m : mode) (f : fty) (z w : Cartesian Z).
Hypotheses (Hf : supported f = true) (S : fsigned f = true).
Notation A := (cabs (cval f z)).
Notation B := (cabs (cval f w)).
Notation P := (A * B)%R.
Notation tol := (1476 / 100000 + (9 + 10 / (A * A) + 10 / (B * B) + 13 / (P * P) + 448 / 100 / P) * ulp f)%R.

Section H.
Hypotheses (A1 : (32 * ulp f <= A * A)%R) (A2 : (3 / 2 * (A * A) <= fval f (fmax f))%R) (B1 : (32 * ulp f <= B * B)%R) (B2 : (3 / 2 * (B * B) <= fval f (fmax f))%R).
Hypotheses (P1 : (40 * ulp f <= P * P)%R) (P2 : (23 * ulp f <= P)%R) (P3 : (3 / 2 * ((P + g f) * (P + g f)) <= fval f (fmax f))%R).

Lemma small_fmax : forall x, (0 <= x)%R -> (3 / 2 * (x * x) <= fval f (fmax f))%R -> (x <= fval f (fmax f))%R.
Proof using Hf S. intros x X H. pose proof (fmax_two f Hf S). destruct (Rle_or_lt x 1); [lra|]. nra. Qed.
Lemma P_near : forall q, (Rabs (q - P) <= g f)%R -> ((0 < q /\ 32 * ulp f <= q * q /\ 3 / 2 * (q * q) <= fval f (fmax f)) /\ poly_err f q <= 492 / 100000 + (3 + 13 / (P * P)) * ulp f)%R.
Proof using Hf S P1 P2 P3.
  intros q Q. assert (U : (0 < ulp f)%R) by apply bpow_gt_0. apply Rabs_le_inv in Q. set (p := P) in *.
  assert (Q1 : (9 / 10 * p <= q)%R) by lra. assert (QQ : (81 / 100 * (p * p) <= q * q)%R) by (replace (81 / 100 * (p * p))%R with ((9 / 10 * p) * (9 / 10 * p))%R by field; apply Rmult_le_compat; lra).
  assert (q * q <= (p + g f) * (p + g f))%R by (apply Rmult_le_compat; lra).
  split; [repeat split; lra|]. apply Rplus_le_compat_l, Rmult_le_compat_r; [lra|]. apply Rplus_le_compat_l.
  apply Rmult_le_reg_r with (q * q)%R; [lra|]. unfold Rdiv. rewrite Rmult_assoc, Rinv_l by lra. apply Rmult_le_reg_r with (p * p)%R; [nra|].
  replace (13 * / (p * p) * (q * q) * (p * p))%R with (13 * (q * q))%R by (field; nra). lra.
Qed.
Lemma AB_pos : (0 < A /\ 0 < B /\ 0 < P)%R.
Proof using A1 B1 P2. assert (U : (0 < ulp f)%R) by apply bpow_gt_0. pose proof (cabs_pos (cval f z)). pose proof (cabs_pos (cval f w)). assert (0 < A)%R by nra. assert (0 < B)%R by nra. repeat split; auto. apply Rmult_lt_0_compat; auto. Qed.
Notation okr q := (32 * ulp f <= q * q /\ 3 / 2 * (q * q) <= fval f (fmax f))%R.
Lemma dir_poly : forall v, cvalid (fity f) v -> (0 < cabs (cval f v))%R -> okr (cabs (cval f v)) ->
  exists a, fixed_atan2_poly m f (im v) (re v) = Ok a /\ (cabs (csub (cis (fval f a)) (cunit (cval f v))) <= poly_err f (cabs (cval f v)))%R.
Proof using Hf S. intros v _ _ [H1 H2]. apply dir_fixed; auto. Qed.

Lemma product_angle_fixed : exists p a b c, cartesian_mul (fixed_ops m f) z w = Ok p /\
  fixed_atan2_poly m f (im z) (re z) = Ok a /\ fixed_atan2_poly m f (im w) (re w) = Ok b /\ fixed_atan2_poly m f (im p) (re p) = Ok c /\
  (cabs (csub (cis (fval f c)) (cis (fval f a + fval f b))) <= tol)%R.
Proof using Hf S A1 A2 B1 B2 P1 P2 P3.
  assert (U : (0 < ulp f)%R) by apply bpow_gt_0. destruct AB_pos as (A0 & B0 & P0).
  destruct (sum_fixed m f (fixed_atan2_poly m f) (fun v => okr (cabs (cval f v))) (fun q => poly_err f q) (492 / 100000 + (3 + 13 / (P * P)) * ulp f) Hf S dir_poly z w) as (p & a & b & c & H1 & H2 & H3 & H4 & H5); auto.
  - split; auto. apply small_fmax; lra.
  - split; auto. apply small_fmax; lra.
  - lra.
  - apply small_fmax; lra.
  - intros q _ Q. destruct (P_near _ Q) as [(_ & X1 & X2) X3]. tauto.
  - exists p, a, b, c. repeat (split; [assumption|]). eapply Rle_trans; [exact H5|]. right. field. lra.
Qed.
Lemma phase_diff_fixed : exists q p a b c, cartesian_conj (fixed_signed m f) z = Ok q /\ cartesian_mul (fixed_ops m f) w q = Ok p /\
  fixed_atan2_poly m f (im z) (re z) = Ok a /\ fixed_atan2_poly m f (im w) (re w) = Ok b /\ fixed_atan2_poly m f (im p) (re p) = Ok c /\
  (cabs (csub (cis (fval f c)) (cis (fval f b - fval f a))) <= tol)%R.
Proof using Hf S A1 A2 B1 B2 P1 P2 P3.
  assert (U : (0 < ulp f)%R) by apply bpow_gt_0. destruct AB_pos as (A0 & B0 & P0).
  destruct (diff_fixed m f (fixed_atan2_poly m f) (fun v => okr (cabs (cval f v))) (fun q => poly_err f q) (492 / 100000 + (3 + 13 / (P * P)) * ulp f) Hf S dir_poly z w) as (q & p & a & b & c & H0 & H1 & H2 & H3 & H4 & H5); auto.
  - split; auto. apply small_fmax; lra.
  - split; auto. apply small_fmax; lra.
  - lra.
  - apply small_fmax; lra.
  - intros ? x _ _ Q. destruct (P_near _ Q) as [(_ & X1 & X2) X3]. tauto.
  - exists q, p, a, b, c. repeat (split; [assumption|]). eapply Rle_trans; [exact H5|]. right. field. lra.
Qed.
End H.

Section Or.
Variables (At : MixedAtan Z) (e : R).
Hypotheses (HZ : accurate_atan2_at f e At (im z) (re z)) (HW : accurate_atan2_at f e At (im w) (re w)).
Hypotheses (A0 : (A <= fval f (fmax f))%R) (B0 : (B <= fval f (fmax f))%R) (PG : (g f < P)%R) (PM : (P + g f <= fval f (fmax f))%R).
Lemma pos2 : (0 < A /\ 0 < B)%R.
Proof using PG. assert (U : (0 < ulp f)%R) by apply bpow_gt_0. pose proof (cabs_pos (cval f z)). pose proof (cabs_pos (cval f w)). split; apply Rnot_le_lt; intros H1; nra. Qed.
Lemma dir_or : forall v, cvalid (fity f) v -> (0 < cabs (cval f v))%R -> accurate_atan2_at f e At (im v) (re v) -> exists a, mixed_atan2 At (im v) (re v) = Ok a /\ (cabs (csub (cis (fval f a)) (cunit (cval f v))) <= e)%R.
Proof using. intros v V P H. apply dir_fixed_oracle; auto. Qed.
Lemma product_arg_fixed : (forall p, cartesian_mul (fixed_ops m f) z w = Ok p -> accurate_atan2_at f e At (im p) (re p)) ->
  exists p a b c, cartesian_mul (fixed_ops m f) z w = Ok p /\ cartesian_arg At z = Ok a /\ cartesian_arg At w = Ok b /\ cartesian_arg At p = Ok c /\
  (cabs (csub (cis (fval f c)) (cis (fval f a + fval f b))) <= 3 * e + 448 / 100 * ulp f / P)%R.
Proof using Hf S HZ HW A0 B0 PG PM.
  intros HP. destruct pos2 as [a0 b0]. destruct (sum_fixed m f (mixed_atan2 At) (fun v => accurate_atan2_at f e At (im v) (re v)) (fun _ => e) e Hf S dir_or z w) as (p & a & b & c & H1 & H2 & H3 & H4 & H5); auto.
  - intros. split; [eauto|lra].
  - exists p, a, b, c. unfold cartesian_arg. repeat (split; [assumption|]). eapply Rle_trans; [exact H5|]. right. field. lra.
Qed.
Lemma phase_diff_arg_fixed : (forall q p, cartesian_conj (fixed_signed m f) z = Ok q -> cartesian_mul (fixed_ops m f) w q = Ok p -> accurate_atan2_at f e At (im p) (re p)) ->
  exists q p a b c, cartesian_conj (fixed_signed m f) z = Ok q /\ cartesian_mul (fixed_ops m f) w q = Ok p /\
  cartesian_arg At z = Ok a /\ cartesian_arg At w = Ok b /\ cartesian_arg At p = Ok c /\
  (cabs (csub (cis (fval f c)) (cis (fval f b - fval f a))) <= 3 * e + 448 / 100 * ulp f / P)%R.
Proof using Hf S HZ HW A0 B0 PG PM.
  intros HP. destruct pos2 as [a0 b0]. destruct (diff_fixed m f (mixed_atan2 At) (fun v => accurate_atan2_at f e At (im v) (re v)) (fun _ => e) e Hf S dir_or z w) as (q & p & a & b & c & H0 & H1 & H2 & H3 & H4 & H5); auto.
  - intros. split; [eauto|lra].
  - exists q, p, a, b, c. unfold cartesian_arg. repeat (split; [assumption|]). eapply Rle_trans; [exact H5|]. right. field. lra.
Qed.
End Or.
End FixedThm.

(** ** floats *)
Section Float.
Context {prec emax : Z} {Hp : Prec_gt_0 prec} {He : Prec_lt_emax prec emax}.
Notation float := (binary_float prec emax).
Notation u := (bpow radix2 (- prec)).
Notation fv := (@cvalf prec emax).
Hypotheses (P24 : 24 <= prec) (E40 : 40 <= emax).
Notation h := (emax / 2).

Lemma half_le : 2 * h <= emax < 2 * h + 2.
Proof using. pose proof (Z.div_mod emax 2 ltac:(lia)). pose proof (Z.mod_pos_bound emax 2 ltac:(lia)). lia. Qed.
Lemma conj_float : forall z : Cartesian float, cfin z -> exists q, cartesian_conj float_signed z = Ok q /\ cfin q /\ fv q = cconj (fv z).
Proof using.
  intros z [F1 F2]. exists (mkC (re z) (Bopp (im z))). split; [reflexivity|]. split; [split; cbn; auto; rewrite is_finite_Bopp; auto|].
  unfold cvalf, cconj. cbn [re im fst snd]. rewrite B2R_Bopp. reflexivity.
Qed.
Lemma mul_float_u : forall z w : Cartesian float, cfin z -> cfin w -> let P := (cabs (fv z) * cabs (fv w))%R in
  (cabs (fv z) <= bpow radix2 (h - 4))%R -> (cabs (fv w) <= bpow radix2 (h - 4))%R -> (bpow radix2 (5 - h) <= P)%R ->
  exists p, cartesian_mul float_ops z w = Ok p /\ cfin p /\ (cabs (csub (fv p) (cmul (fv z) (fv w))) <= 4 * u * P)%R.
Proof using P24 E40.
  intros z w Fz Fw P Hz Hw HP. pose proof half_le as HL.
  destruct (float_mul_near (prec := prec) (emax := emax) ltac:(lia) (h - 4) ltac:(lia) ltac:(lia) z w Fz Fw Hz Hw) as (p & E & F & N). exists p. split; auto. split; auto.
  eapply Rle_trans; [exact N|]. fold P. assert (3 * bpow radix2 (3 - emax - prec) <= u * P)%R; [|lra].
  apply Rle_trans with (bpow radix2 2 * bpow radix2 (3 - emax - prec))%R; [apply Rmult_le_compat_r; [apply bpow_ge_0|change (bpow radix2 2) with 4%R; lra]|].
  rewrite <- bpow_plus. apply Rle_trans with (u * bpow radix2 (5 - h))%R; [rewrite <- bpow_plus; apply bpow_le; lia|]. apply Rmult_le_compat_l; [apply bpow_ge_0|auto].
Qed.

Section Any.
Variables (ang : float -> float -> res float) (d : R).
Hypothesis dir : forall v, cfin v -> (bpow radix2 (4 - h) <= cabs (fv v) <= bpow radix2 (h - 3))%R ->
  exists a, ang (im v) (re v) = Ok a /\ is_finite a = true /\ (cabs (csub (cis (B2R a)) (cunit (fv v))) <= d)%R.
Variables z w : Cartesian float.
Hypotheses (Fz : cfin z) (Fw : cfin w).
Notation A := (cabs (fv z)).
Notation B := (cabs (fv w)).
Hypotheses (HA : (bpow radix2 (4 - h) <= A <= bpow radix2 (h - 4))%R) (HB : (bpow radix2 (4 - h) <= B <= bpow radix2 (h - 4))%R).
Hypothesis HP : (bpow radix2 (5 - h) <= A * B <= bpow radix2 (h - 4))%R.

Lemma u_tiny : (0 < u <= / 16777216)%R.
Proof using P24. split; [apply bpow_gt_0|]. change (/ 16777216)%R with (bpow radix2 (-24)). apply bpow_le. lia. Qed.
Lemma rel_near : forall q, (Rabs (q - A * B) <= 4 * u * (A * B))%R -> (bpow radix2 (4 - h) <= q <= bpow radix2 (h - 3))%R.
Proof using HP P24.
  intros q Q. pose proof u_tiny as U. apply Rabs_le_inv in Q. set (p := (A * B)%R) in *. assert (P0 : (0 < p)%R) by (pose proof (bpow_gt_0 radix2 (5 - h)); lra).
  assert (4 * u * p <= / 4 * p)%R by (apply Rmult_le_compat_r; lra). replace (5 - h) with (1 + (4 - h)) in HP by lia. replace (h - 3) with (1 + (h - 4)) by lia.
  rewrite bpow_plus in HP. rewrite (bpow_plus radix2 1 (h - 4)). change (bpow radix2 1) with 2%R in *. lra.
Qed.
Lemma up : (bpow radix2 (h - 4) <= bpow radix2 (h - 3))%R.
Proof using. apply bpow_le. lia. Qed.
Lemma posf : (0 < A /\ 0 < B /\ 0 < A * B)%R.
Proof using HA HB. pose proof (bpow_gt_0 radix2 (4 - h)). assert (0 < A)%R by lra. assert (0 < B)%R by lra. repeat split; auto. apply Rmult_lt_0_compat; auto. Qed.

Lemma sum_float : exists p a b c, cartesian_mul float_ops z w = Ok p /\ ang (im z) (re z) = Ok a /\ ang (im w) (re w) = Ok b /\ ang (im p) (re p) = Ok c /\
  is_finite a = true /\ is_finite b = true /\ is_finite c = true /\ (cabs (csub (cis (B2R c)) (cis (B2R a + B2R b))) <= 3 * d + 8 * u)%R.
Proof using P24 E40 dir Fz Fw HA HB HP.
  destruct posf as (A0 & B0 & P0). pose proof up as UP. destruct (mul_float_u z w Fz Fw ltac:(lra) ltac:(lra) ltac:(lra)) as (p & E & Fp & N).
  pose proof (cabs_diff (fv p) (cmul (fv z) (fv w))) as D. rewrite cabs_cmul in D. pose proof (rel_near (cabs (fv p)) ltac:(lra)) as RP.
  destruct (dir z Fz ltac:(lra)) as (a & Ea & Fa & Da). destruct (dir w Fw ltac:(lra)) as (b & Eb & Fb & Db). destruct (dir p Fp RP) as (c & Ec & Fc & Dc).
  exists p, a, b, c. repeat (split; [assumption|]). assert (0 < cabs (fv p))%R by (pose proof (bpow_gt_0 radix2 (4 - h)); lra).
  eapply Rle_trans; [apply (dir_mul (fv z) (fv w) (fv p) _ _ _ d d d (4 * u * (A * B))); auto|]. right. field. lra.
Qed.
Lemma diff_float : exists q p a b c, cartesian_conj float_signed z = Ok q /\ cartesian_mul float_ops w q = Ok p /\
  ang (im z) (re z) = Ok a /\ ang (im w) (re w) = Ok b /\ ang (im p) (re p) = Ok c /\
  is_finite a = true /\ is_finite b = true /\ is_finite c = true /\ (cabs (csub (cis (B2R c)) (cis (B2R b - B2R a))) <= 3 * d + 8 * u)%R.
Proof using P24 E40 dir Fz Fw HA HB HP.
  destruct posf as (A0 & B0 & P0). pose proof up as UP. destruct (conj_float z Fz) as (q & Eq & Fq & Vq). assert (Q : cabs (fv q) = A) by (rewrite Vq; apply cconj_abs).
  destruct (mul_float_u w q Fw Fq ltac:(lra) ltac:(lra)) as (p & E & Fp & N); [rewrite Q, Rmult_comm; lra|]. rewrite Q in N.
  pose proof (cabs_diff (fv p) (cmul (fv w) (fv q))) as D. rewrite cabs_cmul, Q in D. pose proof (rel_near (cabs (fv p)) ltac:(rewrite (Rmult_comm A B); lra)) as RP.
  destruct (dir z Fz ltac:(lra)) as (a & Ea & Fa & Da). destruct (dir w Fw ltac:(lra)) as (b & Eb & Fb & Db). destruct (dir p Fp RP) as (c & Ec & Fc & Dc).
  exists q, p, a, b, c. repeat (split; [assumption|]). assert (0 < cabs (fv p))%R by (pose proof (bpow_gt_0 radix2 (4 - h)); lra).
  assert (Dq : (cabs (csub (cis (- B2R a)) (cunit (fv q))) <= d)%R) by (rewrite Vq, cis_neg, cunit_conj, cconj_diff; exact Da).
  eapply Rle_trans; [apply (dir_mul (fv w) (fv q) (fv p) (B2R b) (- B2R a) (B2R c) d d d (4 * u * (B * A))); auto; lra|]. rewrite Q. right. field. lra.
Qed.
End Any.

Lemma dir_float : @atan_claims prec emax _ _ -> forall v : Cartesian float, cfin v -> (bpow radix2 (4 - h) <= cabs (fv v) <= bpow radix2 (h - 3))%R ->
  exists a, float_atan2_poly (im v) (re v) = Ok a /\ is_finite a = true /\ (cabs (csub (cis (B2R a)) (cunit (fv v))) <= 492 / 100000)%R.
Proof using.
  intros C v [F1 F2] N. assert (NP : (0 < cabs (fv v))%R) by (pose proof (bpow_gt_0 radix2 (4 - h)); lra). pose proof (angle_ex _ NP) as I. cbn [cvalf fst snd] in I.
  destruct (cabs_max (B2R (re v)) (B2R (im v))) as [M1 M2]. change (cabs (B2R (re v), B2R (im v))) with (cabs (fv v)) in M1, M2.
  destruct (C (im v) (re v) F2 F1 (angle (B2R (im v)) (B2R (re v)))) as (a & Ea & Fa & Da).
  - set (M := Rmax _ _) in *. split; [|lra]. assert (M0 : (0 <= M)%R) by (apply Rle_trans with (Rabs (B2R (re v))); [apply Rabs_pos|apply Rmax_l]).
    replace (4 - h) with (1 + (3 - h)) in N by lia. rewrite bpow_plus in N. change (bpow radix2 1) with 2%R in N. set (b := bpow radix2 (3 - h)) in *. assert (0 < b)%R by apply bpow_gt_0.
    apply Rnot_lt_le. intros L. assert (M * M <= b * b)%R by (apply Rmult_le_compat; lra). assert ((2 * b) * (2 * b) <= cabs (fv v) * cabs (fv v))%R by (apply Rmult_le_compat; lra). nra.
  - exact I.
  - exists a. split; auto. split; auto. change (fv v) with (B2R (re v), B2R (im v)). rewrite (angle_unit _ _ _ I). eapply Rle_trans; [apply cis_lip|exact Da].
Qed.
Lemma dir_float_oracle : forall (At : MixedAtan float) d, accurate_atan2_float d At -> forall v : Cartesian float, cfin v -> (bpow radix2 (4 - h) <= cabs (fv v) <= bpow radix2 (h - 3))%R ->
  exists a, mixed_atan2 At (im v) (re v) = Ok a /\ is_finite a = true /\ (cabs (csub (cis (B2R a)) (cunit (fv v))) <= d)%R.
Proof using.
  intros At d C v [F1 F2] N. assert (NP : (0 < cabs (fv v))%R) by (pose proof (bpow_gt_0 radix2 (4 - h)); lra). pose proof (angle_ex _ NP) as I. cbn [cvalf fst snd] in I.
  destruct (C (im v) (re v) _ F2 F1 I) as (a & Ea & Fa & Da). exists a. split; auto. split; auto.
  change (fv v) with (B2R (re v), B2R (im v)). rewrite (angle_unit _ _ _ I). destruct Da as [Da|(_ & T & Da)]; [eapply Rle_trans; [apply cis_lip|exact Da]|].
  rewrite T. replace (cis PI) with (cis (- PI)) by (unfold cis; rewrite cos_neg, sin_neg, sin_PI, Ropp_0; reflexivity).
  eapply Rle_trans; [apply cis_lip|]. replace (B2R a - - PI)%R with (B2R a + PI)%R by ring. exact Da.
Qed.
End Float.

Notation phase_range A e := (bpow radix2 (4 - e / 2) <= A <= bpow radix2 (e / 2 - 4))%R.
Definition product_angle p e {Hp : Prec_gt_0 p} {He : Prec_lt_emax p e} (t : R) : Prop := forall z w : Cartesian (binary_float p e), cfin z -> cfin w ->
  let A := cabs (cvalf z) in let B := cabs (cvalf w) in phase_range A e -> phase_range B e -> (bpow radix2 (5 - e / 2) <= A * B <= bpow radix2 (e / 2 - 4))%R ->
  exists p a b c, cartesian_mul float_ops z w = Ok p /\ float_atan2_poly (im z) (re z) = Ok a /\ float_atan2_poly (im w) (re w) = Ok b /\ float_atan2_poly (im p) (re p) = Ok c /\
  (cabs (csub (cis (B2R c)) (cis (B2R a + B2R b))) <= t)%R.
Definition phase_diff p e {Hp : Prec_gt_0 p} {He : Prec_lt_emax p e} (t : R) : Prop := forall z w : Cartesian (binary_float p e), cfin z -> cfin w ->
  let A := cabs (cvalf z) in let B := cabs (cvalf w) in phase_range A e -> phase_range B e -> (bpow radix2 (5 - e / 2) <= A * B <= bpow radix2 (e / 2 - 4))%R ->
  exists q p a b c, cartesian_conj float_signed z = Ok q /\ cartesian_mul float_ops w q = Ok p /\
  float_atan2_poly (im z) (re z) = Ok a /\ float_atan2_poly (im w) (re w) = Ok b /\ float_atan2_poly (im p) (re p) = Ok c /\
  (cabs (csub (cis (B2R c)) (cis (B2R b - B2R a))) <= t)%R.
Lemma poly_float : forall p e {Hp : Prec_gt_0 p} {He : Prec_lt_emax p e}, 24 <= p -> 40 <= e -> @atan_claims p e _ _ -> product_angle p e (1477 / 100000) /\ phase_diff p e (1477 / 100000).
Proof.
  intros p e Hp He P E C. pose proof (u_tiny (prec := p) P) as U. split; intros z w Fz Fw A B HA HB HP.
  - destruct (sum_float P E float_atan2_poly _ (dir_float C) z w Fz Fw HA HB HP) as (q & a & b & c & H1 & H2 & H3 & H4 & _ & _ & _ & H5). exists q, a, b, c. repeat (split; [assumption|]). lra.
  - destruct (diff_float P E float_atan2_poly _ (dir_float C) z w Fz Fw HA HB HP) as (q & r & a & b & c & H0 & H1 & H2 & H3 & H4 & _ & _ & _ & H5). exists q, r, a, b, c. repeat (split; [assumption|]). lra.
Qed.
Lemma product_angle_f32 : product_angle 24 128 (1477 / 100000).
Proof. apply poly_float; [lia|lia|exact atan_f32]. Qed.
Lemma product_angle_f64 : product_angle 53 1024 (1477 / 100000).
Proof. apply poly_float; [lia|lia|exact atan_f64]. Qed.
Lemma phase_diff_f32 : phase_diff 24 128 (1477 / 100000).
Proof. apply poly_float; [lia|lia|exact atan_f32]. Qed.
Lemma phase_diff_f64 : phase_diff 53 1024 (1477 / 100000).
Proof. apply poly_float; [lia|lia|exact atan_f64]. Qed.
Lemma phase_arg_float : forall p e {Hp : Prec_gt_0 p} {He : Prec_lt_emax p e}, 24 <= p -> 40 <= e -> forall (At : MixedAtan (binary_float p e)) d, accurate_atan2_float d At ->
  forall z w : Cartesian (binary_float p e), cfin z -> cfin w ->
  let A := cabs (cvalf z) in let B := cabs (cvalf w) in phase_range A e -> phase_range B e -> (bpow radix2 (5 - e / 2) <= A * B <= bpow radix2 (e / 2 - 4))%R ->
  exists q s r a b c k, cartesian_mul float_ops z w = Ok s /\ cartesian_conj float_signed z = Ok q /\ cartesian_mul float_ops w q = Ok r /\
  cartesian_arg At z = Ok a /\ cartesian_arg At w = Ok b /\ cartesian_arg At s = Ok c /\ cartesian_arg At r = Ok k /\
  (cabs (csub (cis (B2R c)) (cis (B2R a + B2R b))) <= 3 * d + 8 * bpow radix2 (- p))%R /\ (cabs (csub (cis (B2R k)) (cis (B2R b - B2R a))) <= 3 * d + 8 * bpow radix2 (- p))%R.
Proof.
  intros p e Hp He P E At d C z w Fz Fw A B HA HB HP.
  destruct (sum_float P E (mixed_atan2 At) _ (dir_float_oracle At d C) z w Fz Fw HA HB HP) as (s & a & b & c & H1 & H2 & H3 & H4 & _ & _ & _ & H5).
  destruct (diff_float P E (mixed_atan2 At) _ (dir_float_oracle At d C) z w Fz Fw HA HB HP) as (q & r & a' & b' & k & K0 & K1 & K2 & K3 & K4 & _ & _ & _ & K5).
  assert (Ea : a' = a) by congruence. assert (Eb : b' = b) by congruence. subst a' b'.
  exists q, s, r, a, b, c, k. unfold cartesian_arg. repeat (split; [assumption|]). assumption.
Qed.
