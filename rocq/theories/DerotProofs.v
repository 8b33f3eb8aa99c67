(** * Proofs: removing a phase (C163). *)

From Coq Require Import ZArith Reals Lia Lra Psatz Bool List.
From Flocq Require Import Core.Core IEEE754.BinarySingleNaN.
From Verif Require CsqrtProofs MagProofs.
From Verif Require Import SinReal Base FloatBase Literals Traits Trig IntImpl FixedPrim FixedImpl FloatImpl Complex Spec SpecFilter SpecRotor SpecUnit SpecPhase SpecDerot
  Lemmas FloatLemmas FloatKit ScalarProofs PolarProofs ProdProofs FilterProofs FloatProofs FloatArith RotorProofs UnitProofs AngleProofs.
Import ListNotations.
Open Scope Z_scope.

Section Real.
Open Scope R_scope.
Lemma cconj_abs : forall z, cabs (cconj z) = cabs z.
Proof. intros z. unfold cabs, cconj. cbn [fst snd]. f_equal. ring. Qed.
Lemma cmul_sub : forall y a b, csub (cmul y a) (cmul y b) = cmul y (csub a b).
Proof. intros. unfold csub, cmul. cbn [fst snd]. f_equal; ring. Qed.
Lemma cconj_sub : forall a b, csub (cconj a) (cconj b) = cconj (csub a b).
Proof. intros. unfold csub, cconj. cbn [fst snd]. f_equal; ring. Qed.
(** the channel's phase cancels *)
Lemma derotated : forall z s, 0 < cabs z -> cmul (cmul z s) (cconj (cunit z)) = cscale (cabs z) s.
Proof.
  intros z s Z. pose proof (cabs_sq z) as Q. unfold cmul, cconj, cunit, cscale. cbn [fst snd]. set (N := cabs z) in *. 
assert (E : forall t, (fst z * fst z + snd z * snd z) * t / N = N * t) by (intros t; rewrite <- Q; field; lra).
  rewrite <- !E. f_equal; field; lra.
Qed.
End Real.

Lemma times_spec : forall T (O : MixedOps T) (val : Cartesian T -> R * R) (ok : Cartesian T -> Prop) c ys (e : R -> R),
  (forall y, In y ys -> exists p, cartesian_mul O y c = Ok p /\ ok p /\ (cabs (csub (val p) (cmul (val y) (val c))) <= e (cabs (val y)))%R) ->
  exists ps, times_all O c ys = Ok ps /\ Forall ok ps /\ Forall2 (fun y p => (cabs (csub (val p) (cmul (val y) (val c))) <= e (cabs (val y)))%R) ys ps.
Proof.
  intros T O val ok c ys e. induction ys as [|y ys IH]; intros H; [exists []; repeat constructor|]. destruct (H y (or_introl eq_refl)) as (p & E & K & B). destruct IH as (ps & Es & Ks & Bs); [intros; apply H; right; auto|].
  exists (p :: ps). cbn [times_all]. rewrite E. cbn [bind]. rewrite Es. cbn [bind]. split; [reflexivity|]. split; constructor; auto.
Qed.
Lemma Forall2_impl' : forall A B (P Q : A -> B -> Prop) l k, (forall a b, P a b -> Q a b) -> Forall2 P l k -> Forall2 Q l k.
Proof. intros A B P Q l k H. induction 1; constructor; auto. Qed.

Section Fixed.
Variables (m : mode) (f : fty).
Hypotheses (Hf : supported f = true) (S : fsigned f = true) (F : 2 <= ffrac f <= fwidth f - 4).
Variables (z : Cartesian Z) (b : R).
Notation N := (cabs (cval f z)). Notation u := (ulp f).
Definition unit_tol := (2 * mtol f N / N + 142 / 100 * u)%R.
Hypotheses (B1 : (N * N <= fval f (fmax f))%R) (B2 : (2 * mtol f N <= N)%R) (B3 : (b * (1 + unit_tol) + 224 / 100 * u <= fval f (fmax f))%R).
Lemma mtol_pos : (0 < mtol f N)%R.
Proof using. assert (U : (0 < u)%R) by apply bpow_gt_0. pose proof (sqrt_pos (2 * u)). pose proof (cabs_pos (cval f z)). assert (0 <= (/ 1000 + 5 * u) * N)%R by (apply Rmult_le_pos; lra). lra. Qed.
Lemma derotate_fixed : forall ys, (forall y, In y ys -> (cabs (cval f y) <= b)%R) ->
  exists ps, returns (fun fuel => derotate (fixed_ops m f) (fixed_signed m f) (fixed_sqrt m f fuel) (fixed_powi m f) (ops_div_scalar_cartesian (fixed_ops m f) (fixed_real m f)) z ys) ps /\
  Forall2 (fun y p => (cabs (csub (cval f p) (cmul (cval f y) (cconj (cunit (cval f z))))) <= cabs (cval f y) * unit_tol + 224 / 100 * u)%R) ys ps.
Proof using Hf S F B1 B2 B3.
  intros ys HY. assert (U : (0 < u <= / 4)%R) by (split; [apply bpow_gt_0|]; change (/ 4)%R with (bpow radix2 (-2)); apply bpow_le; lia).
  pose proof mtol_pos as T0. assert (N0 : (0 < N)%R) by lra. destruct (unit_fixed m f Hf S F z B1 B2) as (r & q & [n0 Er] & Eq & D1 & D2). fold unit_tol in D1, D2.
  assert (TT : (0 <= unit_tol <= 1 + 142 / 100 * u)%R).
  { unfold unit_tol. assert (I : (0 < / N)%R) by (apply Rinv_0_lt_compat; auto). assert (0 < 2 * mtol f N / N)%R by (apply Rmult_lt_0_compat; lra). assert (2 * mtol f N / N <= 1)%R; [|lra]. apply Rmult_le_reg_r with N; auto. unfold Rdiv. rewrite Rmult_assoc, Rinv_l, Rmult_1_r by lra. lra. }
  pose proof (CsqrtProofs.fmax_seven f Hf S ltac:(lia)) as FM. assert (Q1 : (cabs (cval f q) <= 1 + unit_tol)%R) by (apply Rabs_le_inv in D2; lra).
  destruct (conj_fixed m f q Hf S ltac:(lra)) as (c & Ec & Vc).
  destruct (times_spec Z (fixed_ops m f) (cval f) (fun _ => True) c ys (fun _ => (224 / 100 * u)%R)) as (ps & Eps & _ & H).
  { intros y I. specialize (HY y I). destruct (fixed_mul_near m f Hf S y c) as (p & Ep & Dp).
    - rewrite Vc, cconj_abs. assert (cabs (cval f y) * cabs (cval f q) <= b * (1 + unit_tol))%R by (apply Rmult_le_compat; auto; apply cabs_pos). lra.
    - exists p. auto. }
  exists ps. split.
  - exists n0. intros k K. unfold derotate. assert (E : cartesian_mag (fixed_ops m f) (fixed_sqrt m f k) (fixed_powi m f) z = Ok r) by exact (Er k K). rewrite E. cbn [bind]. rewrite Eq. cbn [bind]. rewrite Ec. cbn [bind]. exact Eps.
  - eapply Forall2_impl'; [|exact H]. cbn beta. intros y p Hp. eapply Rle_trans; [apply (csub_tri _ (cmul (cval f y) (cval f c)))|]. rewrite cmul_sub, cabs_cmul, Vc, cconj_sub, cconj_abs.
    assert (cabs (cval f y) * cabs (csub (cval f q) (cunit (cval f z))) <= cabs (cval f y) * unit_tol)%R by (apply Rmult_le_compat_l; [apply cabs_pos|exact D1]). rewrite Vc in Hp. lra.
Qed.
End Fixed.

Section Float.
Context {prec emax : Z} {Hp : Prec_gt_0 prec} {He : Prec_lt_emax prec emax}.
Notation float := (binary_float prec emax).
Notation u := (bpow radix2 (- prec)). Notation eta := (bpow radix2 (3 - emax - prec)).
Notation fv := (@cvalf prec emax).
Notation cfin z := (is_finite (re z) = true /\ is_finite (im z) = true).
Hypotheses (P24 : 24 <= prec) (E40 : 40 <= emax).
Lemma derotate_float : forall m fuel sq, (forall x, sq x = Bsqrt mode_NE x) -> forall (z : Cartesian float) k, 1 <= k -> 2 * k + 1 < emax -> cfin z ->
  (bpow radix2 (14 - emax) <= cabs (fv z) * cabs (fv z))%R -> (cabs (fv z) <= bpow radix2 k)%R ->
  forall ys, (forall y, In y ys -> cfin y /\ (cabs (fv y) <= bpow radix2 k)%R) ->
  exists ps, derotate float_ops float_signed (float_sqrt m sq fuel) float_powi (cartesian_div_scalar float_ops float_ops (float_conv_float prec emax) float_zero float_real) z ys = Ok ps /\
  Forall (fun p => cfin p) ps /\
  Forall2 (fun y p => (cabs (csub (fv p) (cmul (fv y) (cconj (cunit (fv z))))) <= 8 * u * cabs (fv y) + 3 * eta)%R) ys ps.
Proof using P24 E40.
  intros m fuel sq SQ z k K1 K2 Fz L B ys HY. pose proof (@MagProofs.ep_small prec P24) as EP.
  destruct (unit_float P24 E40 m fuel z sq SQ k K2 Fz L B) as (r & q & Er & Eq & Fq & D1 & D2).
  destruct (conj_float q Fq) as (c & Ec & Fc & Vc). assert (Q1 : (cabs (fv q) <= 1 + 4 * u)%R) by (apply Rabs_le_inv in D2; lra).
  assert (KB : (2 <= bpow radix2 k)%R) by (change 2%R with (bpow radix2 1); apply bpow_le; lia).
  destruct (times_spec float float_ops fv (fun p => cfin p) c ys (fun N => (3 * u * (N * cabs (fv q)) + 3 * eta)%R)) as (ps & Eps & Fps & H).
  { intros y I. destruct (HY y I) as [Fy By]. destruct (float_mul_near (prec := prec) (emax := emax) ltac:(lia) k ltac:(lia) K2 y c Fy Fc By) as (p & Ep & Fp & Dp); [rewrite Vc, cconj_abs; lra|].
    exists p. split; [exact Ep|]. split; [exact Fp|]. rewrite Vc, cconj_abs in Dp. rewrite Vc. exact Dp. }
  exists ps. split; [unfold derotate; rewrite Er; cbn [bind]; rewrite Eq; cbn [bind]; rewrite Ec; cbn [bind]; exact Eps|]. split; [exact Fps|].
  eapply Forall2_impl'; [|exact H]. cbn beta. intros y p Hy. eapply Rle_trans; [apply (csub_tri _ (cmul (fv y) (fv c)))|]. rewrite cmul_sub, cabs_cmul, Vc, cconj_sub, cconj_abs. rewrite Vc in Hy.
  pose proof (cabs_pos (fv y)) as Y0. assert (cabs (fv y) * cabs (csub (fv q) (cunit (fv z))) <= cabs (fv y) * (4 * u))%R by (apply Rmult_le_compat_l; auto).
  assert (UY : (0 <= u * cabs (fv y))%R) by (apply Rmult_le_pos; lra). assert (3 * u * (cabs (fv y) * cabs (fv q)) <= 3 * (u * cabs (fv y)) * (1 + 4 * u))%R.
  { replace (3 * u * (cabs (fv y) * cabs (fv q)))%R with (3 * (u * cabs (fv y)) * cabs (fv q))%R by ring. apply Rmult_le_compat_l; lra. }
  assert ((u * cabs (fv y)) * u <= (u * cabs (fv y)) * / 1000000)%R by (apply Rmult_le_compat_l; lra). lra.
Qed.
End Float.
(** In terms of what was sent: if the channel multiplied the symbols by the pilot, the corrected samples are the symbols times its magnitude. *)
Lemma symbols : forall (T : Type) (val : Cartesian T -> R * R) z ys ps ss (e : R -> R), (0 < cabs (val z))%R -> map val ys = map (fun s => cmul (val z) s) ss ->
  Forall2 (fun y p => (cabs (csub (val p) (cmul (val y) (cconj (cunit (val z))))) <= e (cabs (val y)))%R) ys ps ->
  Forall2 (fun s p => (cabs (csub (val p) (cscale (cabs (val z)) s)) <= e (cabs (val z) * cabs s))%R) ss ps.
Proof.
  intros T val z ys ps ss e Z E H. revert ss E. induction H as [|y p ys ps H1 H2 IH]; intros [|s ss] E; try discriminate; constructor.
  - cbn in E. injection E as E1 E2. rewrite E1, derotated, cabs_cmul in H1 by auto. exact H1.
  - apply IH. cbn in E. injection E as E1 E2. exact E2.
Qed.
Lemma symbols_fixed : forall m f, supported f = true -> fsigned f = true -> 2 <= ffrac f <= fwidth f - 4 -> forall z b, let N := cabs (cval f z) in
  let e := (2 * ((/ 1000 + 5 * ulp f) * N + 3 * ulp f + R_sqrt.sqrt (2 * ulp f)) / N + 142 / 100 * ulp f)%R in
  (N * N <= fval f (fmax f))%R -> (2 * ((/ 1000 + 5 * ulp f) * N + 3 * ulp f + R_sqrt.sqrt (2 * ulp f)) <= N)%R -> (b * (1 + e) + 224 / 100 * ulp f <= fval f (fmax f))%R ->
  forall ys ss, (forall y, In y ys -> (cabs (cval f y) <= b)%R) -> map (cval f) ys = map (fun s => cmul (cval f z) s) ss ->
  exists ps, returns (fun fuel => derotate (fixed_ops m f) (fixed_signed m f) (fixed_sqrt m f fuel) (fixed_powi m f) (ops_div_scalar_cartesian (fixed_ops m f) (fixed_real m f)) z ys) ps /\
  Forall2 (fun s p => (cabs (csub (cval f p) (cscale N s)) <= N * cabs s * e + 224 / 100 * ulp f)%R) ss ps.
Proof.
  intros m f Hf S F z b N e B1 B2 B3 ys ss HY E. destruct (derotate_fixed m f Hf S F z b B1 B2 B3 ys HY) as (ps & R & H). exists ps. split; [exact R|].
  apply (symbols Z (cval f) z ys ps ss (fun x => x * e + 224 / 100 * ulp f)%R); auto. pose proof (mtol_pos f z). unfold N in *. lra.
Qed.
Lemma symbols_float : forall p e {Hp : Prec_gt_0 p} {He : Prec_lt_emax p e}, 24 <= p -> 40 <= e -> forall m fuel sq, (forall x, sq x = Bsqrt mode_NE x) ->
  forall (z : Cartesian (binary_float p e)) k, 1 <= k -> 2 * k + 1 < e -> is_finite (re z) = true /\ is_finite (im z) = true -> let N := cabs (cvalf z) in
  (bpow radix2 (14 - e) <= N * N)%R -> (N <= bpow radix2 k)%R ->
  forall ys ss, (forall y, In y ys -> (is_finite (re y) = true /\ is_finite (im y) = true) /\ (cabs (cvalf y) <= bpow radix2 k)%R) -> map cvalf ys = map (fun s => cmul (cvalf z) s) ss ->
  exists ps, derotate float_ops float_signed (float_sqrt m sq fuel) float_powi (cartesian_div_scalar float_ops float_ops (float_conv_float p e) float_zero float_real) z ys = Ok ps /\
  Forall (fun p => is_finite (re p) = true /\ is_finite (im p) = true) ps /\
  Forall2 (fun s q => (cabs (csub (cvalf q) (cscale N s)) <= 8 * bpow radix2 (- p) * (N * cabs s) + 3 * bpow radix2 (3 - e - p))%R) ss ps.
Proof.
  intros p e Hp He P E m fuel sq SQ z k K1 K2 Fz N L B ys ss HY ES. destruct (derotate_float P E m fuel sq SQ z k K1 K2 Fz L B ys HY) as (ps & R & F & H). exists ps. split; [exact R|]. split; [exact F|].
  apply (symbols _ cvalf z ys ps ss (fun x => 8 * bpow radix2 (- p) * x + 3 * bpow radix2 (3 - e - p))%R); auto. pose proof (bpow_gt_0 radix2 (14 - e)). pose proof (cabs_pos (cvalf z)). unfold N in *. nra.
Qed.
