(** * Proofs about arbitrary complex formulas. *)

From Coq Require Import ZArith Reals Lia Lra List Bool.
From Flocq Require Import Core.Core IEEE754.BinarySingleNaN.
From Verif Require Import Base FloatBase Traits IntImpl FixedPrim FixedImpl FloatImpl Complex Spec SpecFilter SpecRotor SpecFourier SpecPhase SpecCFormula SpecProfile
  Lemmas ScalarProofs ScalarProofs2 ProfileProofs WideProofs FilterProofs FloatFilter FloatLemmas FloatArith RotorProofs FourierProofs FftProofs AngleProofs ComplexProofs FirProofs FormulaProofs.
Import ListNotations.
Open Scope Z_scope.

Section Real.
Open Scope R_scope.
Lemma cabs_near : forall a x e, cabs (csub a x) <= e -> cabs a <= cabs x + e.
Proof. intros a x e H. pose proof (cabs_via a x). lra. Qed.
Lemma cnear_step : forall r p v e1 e2, cabs (csub r p) <= e2 -> cabs (csub p v) <= e1 -> cabs (csub r v) <= e1 + e2.
Proof. intros r p v e1 e2 H K. pose proof (csub_tri r p v). lra. Qed.
Lemma cadd_diff : forall a b x y, cabs (csub (cadd a b) (cadd x y)) <= cabs (csub a x) + cabs (csub b y).
Proof. intros a b x y. replace (csub (cadd a b) (cadd x y)) with (fst (csub a x) + fst (csub b y), snd (csub a x) + snd (csub b y)) by (unfold cadd, csub; cbn [fst snd]; f_equal; ring). destruct (csub a x), (csub b y). apply cabs_tri. Qed.
Lemma cneg_abs : forall z, cabs (- fst z, - snd z) = cabs z.
Proof. intros [a b]. unfold cabs. cbn [fst snd]. f_equal. ring. Qed.
Lemma csub_diff : forall a b x y, cabs (csub (csub a b) (csub x y)) <= cabs (csub a x) + cabs (csub b y).
Proof.
  intros a b x y. rewrite <- (cneg_abs (csub b y)). replace (csub (csub a b) (csub x y)) with (fst (csub a x) + - fst (csub b y), snd (csub a x) + - snd (csub b y)) by (unfold csub; cbn [fst snd]; f_equal; ring).
  destruct (csub a x), (csub b y). apply cabs_tri.
Qed.
Lemma cconj_abs : forall z, cabs (cconj z) = cabs z.
Proof. intros [a b]. unfold cabs, cconj. cbn [fst snd]. f_equal. ring. Qed.
Lemma cconj_diff : forall a x, cabs (csub (cconj a) (cconj x)) = cabs (csub a x).
Proof. intros a x. rewrite <- (cconj_abs (csub a x)). f_equal. unfold csub, cconj. cbn [fst snd]. f_equal. ring. Qed.
Lemma cmul_near : forall a b x y ea eb, cabs (csub a x) <= ea -> cabs (csub b y) <= eb -> let p := cabs x * eb + cabs y * ea + ea * eb in
  cabs (csub (cmul a b) (cmul x y)) <= p /\ cabs a * cabs b <= cabs x * cabs y + p.
Proof.
  intros a b x y ea eb A B p. pose proof (cabs_near _ _ _ A) as NA. pose proof (cabs_near _ _ _ B) as NB. pose proof (cabs_pos a). pose proof (cabs_pos b). pose proof (cabs_pos x). pose proof (cabs_pos y).
  pose proof (cabs_pos (csub a x)). pose proof (cabs_pos (csub b y)). split.
  - eapply Rle_trans; [apply cmul_diff|].
    assert (cabs (csub a x) * cabs b <= ea * (cabs y + eb)) by (apply Rmult_le_compat; lra). assert (cabs x * cabs (csub b y) <= cabs x * eb) by (apply Rmult_le_compat_l; lra). unfold p. lra.
  - assert (cabs a * cabs b <= (cabs x + ea) * (cabs y + eb)) by (apply Rmult_le_compat; lra). unfold p. lra.
Qed.
End Real.

Section Any.
Context {T : Type} (O : MixedOps T) (N : MixedNumSigned T) (val : Cartesian T -> R * R) (ok : Cartesian T -> Prop) (u : crounding) (top : R).
Hypothesis mono_sum : forall a b, (0 <= a <= b)%R -> (c_sum u a <= c_sum u b)%R.
Hypothesis mono_prod : forall a b, (0 <= a <= b)%R -> (c_prod u a <= c_prod u b)%R.
Hypothesis Hadd : forall a b, ok a -> ok b -> let v := cadd (val a) (val b) in (cabs v + c_sum u (cabs v) <= top)%R ->
  exists r, cartesian_add O a b = Ok r /\ ok r /\ (cabs (csub (val r) v) <= c_sum u (cabs v))%R.
Hypothesis Hsub : forall a b, ok a -> ok b -> let v := csub (val a) (val b) in (cabs v + c_sum u (cabs v) <= top)%R ->
  exists r, cartesian_sub O a b = Ok r /\ ok r /\ (cabs (csub (val r) v) <= c_sum u (cabs v))%R.
Hypothesis Hmul : forall a b, ok a -> ok b -> let v := (cabs (val a) * cabs (val b))%R in (v + c_prod u v <= top)%R ->
  exists r, cartesian_mul O a b = Ok r /\ ok r /\ (cabs (csub (val r) (cmul (val a) (val b))) <= c_prod u v)%R.
Hypothesis Hconj : forall a, ok a -> (cabs (val a) <= top)%R -> exists r, cartesian_conj N a = Ok r /\ ok r /\ val r = cconj (val a).
Variables (env : nat -> Cartesian T) (x : nat -> R * R) (d : nat -> R).
Hypothesis Henv : forall i, ok (env i) /\ (cabs (csub (val (env i)) (x i)) <= d i)%R.
Theorem ccompute_near : forall e, csafe x u d top e -> exists r, ccompute O N env e = Ok r /\ ok r /\ (cabs (csub (val r) (cvalue x e)) <= cslack x u d e)%R.
Proof using All.
  induction e as [i|a IHa b IHb|a IHa b IHb|a IHa b IHb|a IHa]; cbn [csafe]; intros HS.
  - exists (env i). split; [reflexivity|]. apply Henv.
  - destruct HS as (Sa & Sb & Sv). destruct (IHa Sa) as (r & Er & Vr & Br). destruct (IHb Sb) as (s & Es & Vs & Bs). cbn [cvalue cslack ccompute] in Sv |- *. rewrite Er, Es. cbn [bind].
    pose proof (cadd_diff (val r) (val s) (cvalue x a) (cvalue x b)) as P. set (p := (cslack x u d a + cslack x u d b)%R) in *.
    assert (P' : (cabs (csub (cadd (val r) (val s)) (cadd (cvalue x a) (cvalue x b))) <= p)%R) by (unfold p; lra).
    pose proof (mono_sum _ _ (conj (cabs_pos _) (cabs_near _ _ _ P'))) as MP. pose proof (cabs_near _ _ _ P') as AP. destruct (Hadd r s Vr Vs) as (q & Eq & Vq & Bq); [lra|].
    exists q. split; [exact Eq|]. split; [exact Vq|]. eapply cnear_step; [|exact P']. lra.
  - destruct HS as (Sa & Sb & Sv). destruct (IHa Sa) as (r & Er & Vr & Br). destruct (IHb Sb) as (s & Es & Vs & Bs). cbn [cvalue cslack ccompute] in Sv |- *. rewrite Er, Es. cbn [bind].
    pose proof (csub_diff (val r) (val s) (cvalue x a) (cvalue x b)) as P. set (p := (cslack x u d a + cslack x u d b)%R) in *.
    assert (P' : (cabs (csub (csub (val r) (val s)) (csub (cvalue x a) (cvalue x b))) <= p)%R) by (unfold p; lra).
    pose proof (mono_sum _ _ (conj (cabs_pos _) (cabs_near _ _ _ P'))) as MP. pose proof (cabs_near _ _ _ P') as AP. destruct (Hsub r s Vr Vs) as (q & Eq & Vq & Bq); [lra|].
    exists q. split; [exact Eq|]. split; [exact Vq|]. eapply cnear_step; [|exact P']. lra.
  - destruct HS as (Sa & Sb & Sv). destruct (IHa Sa) as (r & Er & Vr & Br). destruct (IHb Sb) as (s & Es & Vs & Bs). cbn [cvalue cslack ccompute] in Sv |- *. rewrite Er, Es. cbn [bind].
    rewrite cabs_cmul in Sv. destruct (cmul_near _ _ _ _ _ _ Br Bs) as [P' AP].
    set (p := (cabs (cvalue x a) * cslack x u d b + cabs (cvalue x b) * cslack x u d a + cslack x u d a * cslack x u d b)%R) in *.
    assert (Q0 : (0 <= cabs (val r) * cabs (val s))%R) by (apply Rmult_le_pos; apply cabs_pos).
    pose proof (mono_prod _ _ (conj Q0 AP)) as MP. destruct (Hmul r s Vr Vs) as (q & Eq & Vq & Bq); [lra|].
    exists q. split; [exact Eq|]. split; [exact Vq|]. eapply cnear_step; [|exact P']. lra.
  - destruct HS as (Sa & Sv). destruct (IHa Sa) as (r & Er & Vr & Br). cbn [cvalue cslack ccompute]. rewrite Er. cbn [bind]. pose proof (cabs_near _ _ _ Br) as AP.
    destruct (Hconj r Vr) as (q & Eq & Vq & Bq); [lra|]. exists q. split; [exact Eq|]. split; [exact Vq|]. rewrite Bq, cconj_diff. exact Br.
Qed.
End Any.

Theorem cformula_fixed : forall m f, supported f = true -> fsigned f = true -> forall env x d, (forall i, (cabs (csub (cval f (env i)) (x i)) <= d i)%R) ->
  forall e, csafe x (cround_fixed (ulp f)) d (fval f (fmax f)) e ->
  exists r, ccompute (fixed_ops m f) (fixed_signed m f) env e = Ok r /\ (cabs (csub (cval f r) (cvalue x e)) <= cslack x (cround_fixed (ulp f)) d e)%R.
Proof.
  intros m f Hf Sg env x d HE e HS. assert (U : (0 < ulp f)%R) by apply bpow_gt_0.
  assert (K : exists r, ccompute (fixed_ops m f) (fixed_signed m f) env e = Ok r /\ True /\ (cabs (csub (cval f r) (cvalue x e)) <= cslack x (cround_fixed (ulp f)) d e)%R).
  2:{ destruct K as (r & E & _ & B). eauto. }
  refine (ccompute_near (fixed_ops m f) (fixed_signed m f) (cval f) (fun _ => True) (cround_fixed (ulp f)) (fval f (fmax f)) _ _ _ _ _ _ env x d (fun i => conj I (HE i)) e HS);
    cbn beta delta [c_sum c_prod cround_fixed] iota; try (intros; lra).
  - intros a b _ _ v H. destruct (add_fixed_near m f Hf Sg a b) as (r & E & B); [fold v; lra|]. exists r. split; [exact E|]. split; auto. fold v in B. rewrite B, csub_self. lra.
  - intros a b _ _ v H. destruct (sub_fixed_near m f Hf Sg a b) as (r & E & B); [fold v; lra|]. exists r. split; [exact E|]. split; auto. fold v in B. rewrite B, csub_self. lra.
  - intros a b _ _ v H. destruct (fixed_mul_near m f Hf Sg a b) as (r & E & B); [fold v; lra|]. exists r. auto.
  - intros a _ H. destruct (conj_fixed m f a Hf Sg H) as (r & E & B). exists r. auto.
Qed.

Section Flt.
Context {prec emax : Z} {Hp : Prec_gt_0 prec} {He : Prec_lt_emax prec emax}.
Notation float := (binary_float prec emax).
Notation rnd := (round radix2 (SpecFloat.fexp prec emax) ZnearestE).
Notation u := (bpow radix2 (- prec)).
Notation eta := (bpow radix2 (3 - emax - prec)).
Notation top := (bpow radix2 emax - bpow radix2 (emax - prec))%R.
Notation fv := (@cvalf prec emax).
Notation cfin z := (is_finite (re z) = true /\ is_finite (im z) = true).
Hypothesis P5 : 5 <= prec.

Lemma cabs_le2 : forall a b A B, (Rabs a <= A)%R -> (Rabs b <= B)%R -> (cabs (a, b) <= cabs (A, B))%R.
Proof using.
  intros a b A B HA HB. unfold cabs. cbn [fst snd]. apply sqrt_le_1_alt. pose proof (Rabs_pos a). pose proof (Rabs_pos b).
  assert (S : forall t, (t * t = Rabs t * Rabs t)%R) by (intros t; rewrite <- Rabs_mult, Rabs_pos_eq; [reflexivity|nra]). rewrite (S a), (S b).
  apply Rplus_le_compat; apply Rmult_le_compat; lra.
Qed.
Lemma scaled_two : forall a b c d k t, (0 <= k)%R -> (0 <= t)%R -> (Rabs a <= k * Rabs c + t)%R -> (Rabs b <= k * Rabs d + t)%R -> (cabs (a, b) <= k * cabs (c, d) + 14143 / 10000 * t)%R.
Proof using.
  intros a b c d k t K T A B. eapply Rle_trans; [apply (cabs_le2 _ _ _ _ A B)|].
  eapply Rle_trans; [apply (cabs_tri (k * Rabs c) (k * Rabs d) t t)|]. apply Rplus_le_compat.
  - unfold cabs. cbn [fst snd]. replace (k * Rabs c * (k * Rabs c) + k * Rabs d * (k * Rabs d))%R with ((k * k) * (Rabs c * Rabs c + Rabs d * Rabs d))%R by ring.
    rewrite sqrt_mult_alt, sqrt_square by nra. rewrite <- !Rabs_mult, !Rabs_pos_eq by nra. lra.
  - apply cabs_two; rewrite Rabs_pos_eq; lra.
Qed.
Lemma fl_add_top : forall a b : Cartesian float, cfin a -> cfin b -> let v := cadd (fv a) (fv b) in (cabs v + (u * cabs v + eta) <= top)%R ->
  exists r, cartesian_add float_ops a b = Ok r /\ cfin r /\ (cabs (csub (fv r) v) <= u * cabs v + eta)%R.
Proof using.
  intros a b [F1 F2] [G1 G2] v H. assert (U : (0 < u)%R) by apply bpow_gt_0. assert (E : (0 < eta)%R) by apply bpow_gt_0.
  pose proof (cabs_fst v) as V1. pose proof (cabs_snd v) as V2.
  assert (U1 : (u * Rabs (fst v) <= u * cabs v)%R) by (apply Rmult_le_compat_l; lra). assert (U2 : (u * Rabs (snd v) <= u * cabs v)%R) by (apply Rmult_le_compat_l; lra).
  destruct (rnd_top (prec := prec) (emax := emax) (fst v)) as [L1 B1]; [lra|]. destruct (rnd_top (prec := prec) (emax := emax) (snd v)) as [L2 B2]; [lra|].
  destruct (plus_ok (re a) (re b) F1 G1 L1) as [K1 W1]. destruct (plus_ok (im a) (im b) F2 G2 L2) as [K2 W2].
  eexists. split; [reflexivity|]. cbn [re im]. split; [auto|]. unfold csub at 1, cvalf at 1 2. cbn [re im fst snd]. rewrite W1, W2.
  eapply Rle_trans; [apply (scaled_two _ _ (fst v) (snd v) u (/ 2 * eta)); try lra; [exact B1|exact B2]|]. rewrite <- surjective_pairing. lra.
Qed.
Lemma fl_sub_top : forall a b : Cartesian float, cfin a -> cfin b -> let v := csub (fv a) (fv b) in (cabs v + (u * cabs v + eta) <= top)%R ->
  exists r, cartesian_sub float_ops a b = Ok r /\ cfin r /\ (cabs (csub (fv r) v) <= u * cabs v + eta)%R.
Proof using.
  intros a b [F1 F2] [G1 G2] v H. assert (U : (0 < u)%R) by apply bpow_gt_0. assert (E : (0 < eta)%R) by apply bpow_gt_0.
  pose proof (cabs_fst v) as V1. pose proof (cabs_snd v) as V2.
  assert (U1 : (u * Rabs (fst v) <= u * cabs v)%R) by (apply Rmult_le_compat_l; lra). assert (U2 : (u * Rabs (snd v) <= u * cabs v)%R) by (apply Rmult_le_compat_l; lra).
  destruct (rnd_top (prec := prec) (emax := emax) (fst v)) as [L1 B1]; [lra|]. destruct (rnd_top (prec := prec) (emax := emax) (snd v)) as [L2 B2]; [lra|].
  destruct (minus_ok (re a) (re b) F1 G1 L1) as [K1 W1]. destruct (minus_ok (im a) (im b) F2 G2 L2) as [K2 W2].
  eexists. split; [reflexivity|]. cbn [re im]. split; [auto|]. unfold csub at 1, cvalf at 1 2. cbn [re im fst snd]. rewrite W1, W2.
  eapply Rle_trans; [apply (scaled_two _ _ (fst v) (snd v) u (/ 2 * eta)); try lra; [exact B1|exact B2]|]. rewrite <- surjective_pairing. lra.
Qed.
Lemma mult_top : forall (a b : float), is_finite a = true -> is_finite b = true -> let v := (B2R a * B2R b)%R in (Rabs v + (u * Rabs v + / 2 * eta) <= top)%R ->
  is_finite (Bmult mode_NE a b) = true /\ (Rabs (B2R (Bmult mode_NE a b) - v) <= u * Rabs v + / 2 * eta)%R.
Proof using.
  intros a b Fa Fb v H. destruct (rnd_top _ H) as [L B]. pose proof (Bmult_correct prec emax _ _ mode_NE a b) as C. cbn [round_mode] in C. rewrite Rlt_bool_true in C by exact L.
  destruct C as (V & F & _). rewrite Fa, Fb in F. split; [exact F|]. rewrite V. exact B.
Qed.
(** one component of a product *)
Lemma part_top : forall (a b c d : float) N, is_finite a = true -> is_finite b = true -> is_finite c = true -> is_finite d = true ->
  (Rabs (B2R a * B2R c) + Rabs (B2R b * B2R d) <= N)%R -> (N + (3 * u * N + 3 * eta) <= top)%R ->
  (is_finite (Bminus mode_NE (Bmult mode_NE a c) (Bmult mode_NE b d)) = true /\
   (Rabs (B2R (Bminus mode_NE (Bmult mode_NE a c) (Bmult mode_NE b d)) - (B2R a * B2R c - B2R b * B2R d)) <= (2 * u + u * u) * N + 2 * eta)%R) /\
  (is_finite (Bplus mode_NE (Bmult mode_NE a c) (Bmult mode_NE b d)) = true /\
   (Rabs (B2R (Bplus mode_NE (Bmult mode_NE a c) (Bmult mode_NE b d)) - (B2R a * B2R c + B2R b * B2R d)) <= (2 * u + u * u) * N + 2 * eta)%R).
Proof using P5.
  intros a b c d N Fa Fb Fc Fd HN H. pose proof (u_small (prec := prec) P5) as US. assert (E : (0 < eta)%R) by apply bpow_gt_0.
  set (P := (B2R a * B2R c)%R) in *. set (Q := (B2R b * B2R d)%R) in *. pose proof (Rabs_pos P) as P0. pose proof (Rabs_pos Q) as Q0.
  assert (UP : (0 <= u * Rabs P)%R) by (apply Rmult_le_pos; lra). assert (UQ : (0 <= u * Rabs Q)%R) by (apply Rmult_le_pos; lra).
  assert (UN : (u * Rabs P + u * Rabs Q <= u * N)%R) by (rewrite <- Rmult_plus_distr_l; apply Rmult_le_compat_l; lra).
  assert (N0 : (0 <= u * N)%R) by lra.
  destruct (mult_top a c Fa Fc) as [F1 B1]; [fold P; lra|]. destruct (mult_top b d Fb Fd) as [F2 B2]; [fold Q; lra|]. fold P in B1. fold Q in B2.
  set (p := B2R (Bmult mode_NE a c)) in *. set (q := B2R (Bmult mode_NE b d)) in *.
  assert (UU : (u * (u * N) <= / 32 * (u * N))%R) by (apply Rmult_le_compat_r; lra). assert (UE : (u * eta <= / 32 * eta)%R) by (apply Rmult_le_compat_r; lra).
  assert (Step : forall w W, (Rabs W <= N)%R -> (Rabs (w - W) <= u * N + eta)%R -> (Rabs w + (u * Rabs w + / 2 * eta) <= top)%R /\ (u * Rabs w + / 2 * eta + (u * N + eta) <= (2 * u + u * u) * N + 2 * eta)%R).
  { intros w W HW D. pose proof (abs_near _ _ _ D) as A. assert (u * Rabs w <= u * (N + (u * N + eta)))%R by (apply Rmult_le_compat_l; lra). split; lra. }
  split.
  - destruct (Step (p - q)%R (P - Q)%R) as [S1 S2].
    { unfold Rminus. eapply Rle_trans; [apply Rabs_triang|]. rewrite Rabs_Ropp. lra. }
    { replace (p - q - (P - Q))%R with ((p - P) + - (q - Q))%R by ring. eapply Rle_trans; [apply Rabs_triang|]. rewrite Rabs_Ropp. lra. }
    destruct (rnd_top _ S1) as [L B]. destruct (minus_ok _ _ F1 F2 L) as [F V]. split; [exact F|]. rewrite V. fold p q.
    assert (D : (Rabs (p - q - (P - Q)) <= u * N + eta)%R). { replace (p - q - (P - Q))%R with ((p - P) + - (q - Q))%R by ring. eapply Rle_trans; [apply Rabs_triang|]. rewrite Rabs_Ropp. lra. }
    pose proof (near_step _ _ _ _ _ B D). lra.
  - destruct (Step (p + q)%R (P + Q)%R) as [S1 S2].
    { eapply Rle_trans; [apply Rabs_triang|]. lra. }
    { replace (p + q - (P + Q))%R with ((p - P) + (q - Q))%R by ring. eapply Rle_trans; [apply Rabs_triang|]. lra. }
    destruct (rnd_top _ S1) as [L B]. destruct (plus_ok _ _ F1 F2 L) as [F V]. split; [exact F|]. rewrite V. fold p q.
    assert (D : (Rabs (p + q - (P + Q)) <= u * N + eta)%R). { replace (p + q - (P + Q))%R with ((p - P) + (q - Q))%R by ring. eapply Rle_trans; [apply Rabs_triang|]. lra. }
    pose proof (near_step _ _ _ _ _ B D). lra.
Qed.
Lemma fl_mul_top : forall a b : Cartesian float, cfin a -> cfin b -> let v := (cabs (fv a) * cabs (fv b))%R in (v + (3 * u * v + 3 * eta) <= top)%R ->
  exists r, cartesian_mul float_ops a b = Ok r /\ cfin r /\ (cabs (csub (fv r) (cmul (fv a) (fv b))) <= 3 * u * v + 3 * eta)%R.
Proof using P5.
  intros [a b] [c d] [Fa Fb] [Fc Fd] v H. cbn [re im] in *. pose proof (u_small (prec := prec) P5) as US. assert (E : (0 < eta)%R) by apply bpow_gt_0.
  pose proof (abs_cs (B2R a) (B2R b) (B2R c) (B2R d)) as C1. pose proof (abs_cs (B2R a) (B2R b) (B2R d) (B2R c)) as C2.
  replace (cabs (B2R d, B2R c)) with (cabs (B2R c, B2R d)) in C2 by (unfold cabs; cbn [fst snd]; f_equal; ring). change (cabs (B2R a, B2R b) * cabs (B2R c, B2R d))%R with v in C1, C2.
  destruct (part_top a b c d v Fa Fb Fc Fd C1 H) as [[F1 B1] _]. destruct (part_top a b d c v Fa Fb Fd Fc C2 H) as [_ [F2 B2]].
  eexists. split; [reflexivity|]. cbn [re im]. split; [auto|]. unfold csub at 1, cmul, cvalf. cbn [re im fst snd].
  eapply Rle_trans; [apply (cabs_two _ _ _ B1 B2)|]. assert (N0 : (0 <= v)%R) by (apply Rmult_le_pos; apply cabs_pos).
  assert (0 <= u * v)%R by (apply Rmult_le_pos; lra). assert (u * u * v <= / 32 * (u * v))%R by (rewrite Rmult_assoc; apply Rmult_le_compat_r; lra). lra.
Qed.
Theorem cformula_float : forall env x d, (forall i, cfin (env i) /\ (cabs (csub (fv (env i)) (x i)) <= d i)%R) ->
  forall e, csafe x (cround_float u eta) d top e ->
  exists r, ccompute float_ops float_signed env e = Ok r /\ cfin r /\ (cabs (csub (fv r) (cvalue x e)) <= cslack x (cround_float u eta) d e)%R.
Proof using P5.
  intros env x d HE e HS. assert (U : (0 < u)%R) by apply bpow_gt_0. assert (N : (0 < eta)%R) by apply bpow_gt_0.
  refine (ccompute_near float_ops float_signed fv (fun z => cfin z) (cround_float u eta) top _ _ fl_add_top fl_sub_top fl_mul_top _ env x d HE e HS); cbn [c_sum c_prod cround_float].
  - intros a b H. apply Rplus_le_compat_r, Rmult_le_compat_l; lra.
  - intros a b H. apply Rplus_le_compat_r, Rmult_le_compat_l; lra.
  - intros a Fa _. destruct (conj_float a Fa) as (r & E & F & V). exists r. auto.
Qed.
End Flt.

Theorem cformula_agree : forall m f, supported f = true -> fsigned f = true -> forall p e {Hp : Prec_gt_0 p} {He : Prec_lt_emax p e}, 5 <= p ->
  forall env (env' : nat -> Cartesian (binary_float p e)) x d d', (forall i, (cabs (csub (cval f (env i)) (x i)) <= d i)%R) ->
  (forall i, (is_finite (re (env' i)) = true /\ is_finite (im (env' i)) = true) /\ (cabs (csub (cvalf (env' i)) (x i)) <= d' i)%R) ->
  forall e0, let u := cround_fixed (ulp f) in let u' := cround_float (bpow radix2 (- p)) (bpow radix2 (3 - e - p)) in
  csafe x u d (fval f (fmax f)) e0 -> csafe x u' d' (bpow radix2 e - bpow radix2 (e - p)) e0 ->
  exists r s, ccompute (fixed_ops m f) (fixed_signed m f) env e0 = Ok r /\ ccompute float_ops float_signed env' e0 = Ok s /\
  (cabs (csub (cval f r) (cvalf s)) <= cslack x u d e0 + cslack x u' d' e0)%R.
Proof.
  intros m f Hf Sg p e Hp He P env env' x d d' H1 H2 e0 u u' S1 S2. destruct (cformula_fixed m f Hf Sg env x d H1 e0 S1) as (r & Er & Br).
  destruct (cformula_float P env' x d' H2 e0 S2) as (s & Es & _ & Bs). exists r, s. split; [exact Er|]. split; [exact Es|]. fold u in Br. fold u' in Bs.
  rewrite csub_sym in Bs. pose proof (csub_tri (cval f r) (cvalue x e0) (cvalf s)). lra.
Qed.

(** ** refinement *)
Lemma ccompute_ref : forall T (D R : MixedOps T) Dn Rn env, ref_ops D R -> ref_neg Dn Rn -> forall e, refines (ccompute D Dn env e) (ccompute R Rn env e).
Proof.
  intros T D R Dn Rn env O N. induction e; cbn [ccompute]; auto using ref_refl.
  1-3: apply ref_bind; [assumption|intro z]; apply ref_bind; [assumption|intro w]; destruct (ref_cadd D R O z w) as (A1 & A2 & A3 & A4 & A5); assumption.
  apply ref_bind; [assumption|intro z]. apply ref_conj; [assumption|exact (mkP (re z) (re z))].
Qed.
Theorem cformula_wide : forall m f g, supported f = true -> fsigned g = fsigned f -> ffrac g = ffrac f -> fwidth f <= fwidth g -> forall env e,
  refines (ccompute (fixed_ops Debug f) (fixed_signed Debug f) env e) (ccompute (fixed_ops m g) (fixed_signed m g) env e).
Proof.
  intros m f g Hf SG FR WD env e. assert (W : 0 < fwidth f <= fwidth g) by (split; [apply wide_width; exact Hf|exact WD]).
  apply ccompute_ref; [apply wide_ops|apply wide_neg]; assumption.
Qed.

(** ** integers *)
Theorem cformula_int_release : forall t, In t int_types -> forall env, (forall i, in_range t (re (env i)) /\ in_range t (im (env i))) -> forall e,
  ccompute (int_ops Release t) (int_signed Release t) env e = Ok (cwrap t (gvalue env e)).
Proof.
  intros t Ht env HE. destruct (int_width t Ht) as [W _].
  induction e; cbn [ccompute gvalue]; rewrite ?IHe1, ?IHe2, ?IHe; cbn [bind].
  - destruct (HE i) as [R1 R2]. unfold cwrap. rewrite !wrap_id by assumption. destruct (env i). reflexivity.
  - unfold cartesian_add, cwrap, gauss_add. cbn [int_ops o_add re im]. rewrite !fin_release by exact W. cbn [bind]. rewrite !wrap_add_l, !wrap_add_r by exact W. reflexivity.
  - unfold cartesian_sub, cwrap. cbn [int_ops o_sub re im]. rewrite !fin_release by exact W. cbn [bind]. rewrite !wrap_sub_l, !wrap_sub_r by exact W. reflexivity.
  - rewrite cmul_release by auto. rewrite cwrap_mul_l, cwrap_mul_r by exact W. reflexivity.
  - unfold cartesian_conj, cwrap. cbn [int_signed o_neg re im]. rewrite fin_release by exact W. cbn [bind]. rewrite wrap_opp by exact W. reflexivity.
Qed.
Theorem cformula_int_debug : forall t env e r, ccompute (int_ops Debug t) (int_signed Debug t) env e = Ok r -> r = gvalue env e.
Proof.
  intros t env. induction e; intros r; cbn [ccompute gvalue].
  - intros E. injection E as <-. reflexivity.
  - rewrite bind_ok_iff. intros (a & Ea & H). apply bind_ok_iff in H as (b & Eb & H). apply IHe1 in Ea as <-. apply IHe2 in Eb as <-. unfold cartesian_add in H.
    apply bind_ok_iff in H as (c & Ec & H). apply bind_ok_iff in H as (d & Ed & H). injection H as <-. apply fin_debug_iff in Ec, Ed. destruct Ec as [_ ->], Ed as [_ ->]. reflexivity.
  - rewrite bind_ok_iff. intros (a & Ea & H). apply bind_ok_iff in H as (b & Eb & H). apply IHe1 in Ea as <-. apply IHe2 in Eb as <-. unfold cartesian_sub in H.
    apply bind_ok_iff in H as (c & Ec & H). apply bind_ok_iff in H as (d & Ed & H). injection H as <-. apply fin_debug_iff in Ec, Ed. destruct Ec as [_ ->], Ed as [_ ->]. reflexivity.
  - rewrite bind_ok_iff. intros (a & Ea & H). apply bind_ok_iff in H as (b & Eb & H). apply IHe1 in Ea as <-. apply IHe2 in Eb as <-. unfold cartesian_mul, ops_mul_cartesian in H.
    cbn [int_ops o_mul o_add o_sub] in H.
    repeat match goal with H : bind _ _ = Ok _ |- _ => apply bind_ok_iff in H as (? & ? & H) | H : fin Debug _ _ = Ok _ |- _ => apply fin_debug_iff in H as [_ ->] end.
    injection H as <-. unfold gauss_mul. f_equal; ring.
  - rewrite bind_ok_iff. intros (a & Ea & H). apply IHe in Ea as <-. unfold cartesian_conj in H. apply bind_ok_iff in H as (c & Ec & H). injection H as <-. apply fin_debug_iff in Ec as [_ ->]. reflexivity.
Qed.

(** ** rewriting a formula *)
Theorem cformula_rewrite : forall m f, supported f = true -> fsigned f = true -> forall env x d, (forall i, (cabs (csub (cval f (env i)) (x i)) <= d i)%R) ->
  forall e e', cvalue x e = cvalue x e' -> let u := cround_fixed (ulp f) in csafe x u d (fval f (fmax f)) e -> csafe x u d (fval f (fmax f)) e' ->
  exists r s, ccompute (fixed_ops m f) (fixed_signed m f) env e = Ok r /\ ccompute (fixed_ops m f) (fixed_signed m f) env e' = Ok s /\
  (cabs (csub (cval f r) (cval f s)) <= cslack x u d e + cslack x u d e')%R.
Proof.
  intros m f Hf Sg env x d H1 e e' EQ u S1 S2. destruct (cformula_fixed m f Hf Sg env x d H1 e S1) as (r & Er & Br).
  destruct (cformula_fixed m f Hf Sg env x d H1 e' S2) as (s & Es & Bs). exists r, s. split; [exact Er|]. split; [exact Es|]. fold u in Br, Bs. rewrite <- EQ in Bs.
  rewrite csub_sym in Bs. pose proof (csub_tri (cval f r) (cvalue x e) (cval f s)). lra.
Qed.
