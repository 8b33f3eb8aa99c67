(** * Proofs: standard deviation and root mean square (C162). *)

From Coq Require Import ZArith Reals List Lia Lra Psatz Bool.
From Flocq Require Import Core.Core IEEE754.BinarySingleNaN.
From Verif Require SqrtInv MagProofs.
From Verif Require Import Base FloatBase Traits FixedPrim FixedImpl FloatImpl Spec Lemmas ScalarProofs SpecBlend SpecVar SpecRms BlendProofs FloatKit BlendFloat VarProofs NiirfFixed4.
Import ListNotations.
Open Scope Z_scope.

Lemma sqrt_gap : forall a b, (0 <= a -> 0 <= b -> Rabs (sqrt a - sqrt b) <= sqrt (Rabs (a - b)))%R.
Proof.
  assert (K : forall a b, (0 <= a -> 0 <= b -> sqrt a <= sqrt b + sqrt (Rabs (a - b)))%R).
  { intros a b A B. pose proof (sqrt_pos b) as S1. pose proof (Rabs_pos (a - b)) as P. pose proof (sqrt_pos (Rabs (a - b))) as S2. apply Rsqr_incr_0_var; [|lra]. unfold Rsqr. rewrite sqrt_sqrt by auto.
    pose proof (sqrt_sqrt b B). pose proof (sqrt_sqrt _ P). pose proof (Rle_abs (a - b)). assert (0 <= sqrt b * sqrt (Rabs (a - b)))%R by (apply Rmult_le_pos; auto). lra. }
  intros a b A B. pose proof (K a b A B) as K1. pose proof (K b a B A) as K2. rewrite (Rabs_minus_sym b a) in K2. apply Rabs_le. lra.
Qed.
Lemma avg_pos : forall A (g : A -> R) l, (forall x, In x l -> (0 <= g x)%R) -> (0 <= avgR (map g l))%R.
Proof.
  intros A g l H. unfold avgR. destruct l as [|x l]; [cbn; unfold Rdiv; rewrite Rmult_0_l; lra|]. rewrite map_length. apply Rmult_le_pos; [|left; apply Rinv_0_lt_compat, len_pos; discriminate].
  rewrite <- (Rmult_0_r (INR (length (x :: l)))), <- (sumR_const _ 0%R (x :: l)). apply sumR_ext. exact H.
Qed.

Section F.
Variables (m : mode) (f : fty).
Hypotheses (Hf : supported f = true) (Sg : fsigned f = true) (F : 2 <= ffrac f <= fwidth f - 4).
Notation O := (fixed_ops m f). Notation u := (ulp f).
(** the square root of a value slightly below or above V *)
Lemma root_near : forall v V, fvalid f v -> 0 <= v -> (0 <= V)%R -> (V - 2 * u < fval f v <= V + u ^ 2)%R ->
  exists r, returns (fun fuel => mixed_sqrt (fixed_sqrt m f fuel) v) r /\
  (Rabs (fval f r - sqrt V) <= (/ 1000 + 5 * u) * (sqrt V + sqrt (2 * u)) + 3 * u + sqrt (2 * u))%R.
Proof using Hf Sg F.
  intros v V Vv v0 V0 H. destruct (sqrt_fixed_api m f Hf Sg F v Vv v0) as (r & Er & _ & B). exists r. split; [exact Er|].
  assert (U : (0 < u <= / 4)%R) by (split; [apply bpow_gt_0|]; change (/ 4)%R with (bpow radix2 (-2)); apply bpow_le; lia).
  assert (FV : (0 <= fval f v)%R) by (unfold fval; apply Rmult_le_pos; [apply IZR_le; auto|apply bpow_ge_0]).
  assert (G : (Rabs (sqrt (fval f v) - sqrt V) <= sqrt (2 * u))%R).
  { eapply Rle_trans; [apply sqrt_gap; auto|]. apply sqrt_le_1; [apply Rabs_pos|lra|]. apply Rabs_le. nra. }
  assert (G2 := G). apply Rabs_le_inv in G2.
  assert ((/ 1000 + 5 * u) * sqrt (fval f v) <= (/ 1000 + 5 * u) * (sqrt V + sqrt (2 * u)))%R by (apply Rmult_le_compat_l; lra).
  replace (fval f r - sqrt V)%R with ((fval f r - sqrt (fval f v)) + (sqrt (fval f v) - sqrt V))%R by ring. eapply Rle_trans; [apply Rabs_triang|]. lra.
Qed.
Lemma deviation_fixed : forall l lo hi, l <> [] -> (forall x, In x l -> lo <= x <= hi) ->
  let n := Z.of_nat (length l) in
  fvalid f (n * lo) -> fvalid f (n * hi) -> fvalid f (lo - hi) -> fvalid f (hi - lo) -> fvalid f (n * fone f) -> fvalid f (n * ((hi - lo) * (hi - lo) / fone f)) ->
  let s := sqrt (varR (map (fval f) l)) in
  exists r, returns (fun fuel => deviation O (fixed_sqrt m f fuel) 0 l) r /\
  (Rabs (fval f r - s) <= (/ 1000 + 5 * u) * (s + sqrt (2 * u)) + 3 * u + sqrt (2 * u))%R.
Proof using Hf Sg F.
  intros l lo hi NE B n V1 V2 V3 V4 V5 V6 s. destruct (variance_fixed m f Hf l lo hi NE B V1 V2 V3 V4 V5 V6) as (v & Ev & B1 & B2).
  assert (N1 : 0 < n) by (unfold n; destruct l; [congruence|]; cbn [length]; lia).
  assert (Vv : fvalid f v) by (apply (between_valid f 0 (n * ((hi - lo) * (hi - lo) / fone f))); [apply zero_valid; auto|exact V6|nia]).
  destruct (root_near v _ Vv (proj1 B1) (var_pos _) B2) as (r & [n0 Er] & Br). exists r. split; [|exact Br]. exists n0. intros k K. unfold deviation. rewrite Ev. cbn [bind]. apply Er, K.
Qed.
Definition sq0 (x : Z) : Z := x * x / fone f.
Lemma squares_eq : forall l, (forall x, In x l -> fvalid f (sq0 x)) -> squares O l = Ok (map sq0 l).
Proof using.
  induction l as [|x l IH]; intros H; [reflexivity|]. cbn [squares map o_mul fixed_ops]. unfold fx_mul, fx_fin. fold (sq0 x). rewrite (fin_valid m f) by (apply H; left; auto). cbn [bind].
  rewrite IH by (intros; apply H; right; auto). reflexivity.
Qed.
Lemma rms_fixed : forall l M, l <> [] -> (forall x, In x l -> Z.abs x <= M) ->
  let n := Z.of_nat (length l) in fvalid f (n * fone f) -> fvalid f (n * (M * M / fone f)) ->
  let s := sqrt (msqR (map (fval f) l)) in
  exists r, returns (fun fuel => rms O (fixed_sqrt m f fuel) 0 l) r /\
  (Rabs (fval f r - s) <= (/ 1000 + 5 * u) * (s + sqrt (2 * u)) + 3 * u + sqrt (2 * u))%R.
Proof using Hf Sg F.
  intros l M NE B n VN VS s. pose proof (one_pos f Hf) as P. pose proof (zero_valid f Hf) as Z0. pose proof (len_pos _ l NE) as NP. assert (NI : INR (length l) = IZR n) by apply INR_IZR_INZ.
  assert (N1 : 0 < n) by (unfold n; destruct l; [congruence|]; cbn [length]; lia). set (D := M * M / fone f) in *.
  assert (SB : forall x, In x l -> 0 <= sq0 x <= D).
  { intros x I. specialize (B x I). unfold sq0, D. split; [apply Z.div_pos; [apply Z.square_nonneg|auto]|]. apply Z.div_le_mono; auto. rewrite <- (Z.abs_square x). apply Z.square_le_mono_nonneg; lia. }
  assert (DV : 0 <= D) by (apply Z.div_pos; [apply Z.square_nonneg|auto]). assert (VD : fvalid f D) by (apply (between_valid f 0 (n * D)); auto; nia).
  assert (ES : squares O l = Ok (map sq0 l)) by (apply squares_eq; intros x I; apply (between_valid f 0 D); auto).
  assert (NE2 : map sq0 l <> []) by (destruct l; [congruence|discriminate]).
  assert (B2 : forall y, In y (map sq0 l) -> 0 <= y <= D) by (intros y I; apply in_map_iff in I; destruct I as (x & <- & I); auto).
  destruct (mean_all m f Hf (map sq0 l) NE2) as (v & EV & QV & BV & AV).
  { apply (parts_valid f Hf (map sq0 l) 0 D B2); rewrite map_length; fold n; auto. rewrite Z.mul_0_r. auto. }
  { rewrite map_length. exact VN. }
  rewrite map_length in QV, AV. fold n in QV, AV. specialize (BV 0 D B2).
  assert (Vv : fvalid f v) by (apply (between_valid f 0 D); auto).
  assert (SR : forall x, (fval f x ^ 2 - u < fval f (sq0 x) <= fval f x ^ 2)%R).
  { intros x. pose proof (sq_real f Hf 0 x) as H. unfold sq in H. rewrite Z.sub_0_r in H. change (fval f 0) with (0 * bpow radix2 (- ffrac f))%R in H. rewrite Rmult_0_l, Rminus_0_r in H. exact H. }
  set (M2 := msqR (map (fval f) l)). assert (M0 : (0 <= M2)%R) by (apply avg_pos; intros; apply pow2_ge_0).
  assert (NR : (0 < IZR n)%R) by (apply IZR_lt; auto). assert (I : (0 < / IZR n)%R) by (apply Rinv_0_lt_compat; auto).
  rewrite fval_sum, map_map in AV. set (Sz := sumR (map (fun x => fval f (sq0 x)) l)) in *. set (Sx := sumR (map (fun x => (fval f x ^ 2)%R) l)).
  assert (EM : M2 = (Sx / IZR n)%R) by (unfold M2, msqR, avgR, Sx; rewrite !map_length, NI, map_map; reflexivity).
  assert (U1 : (Sz <= Sx)%R) by (apply sumR_ext; intros x _; apply SR).
  assert (U2 : (Sx - IZR n * u <= Sz)%R).
  { rewrite <- NI, <- (sumR_const _ u l). replace (Sx - sumR (map (fun _ => u) l))%R with (sumR (map (fun x => 1 * (fval f x ^ 2) + (-1) * u) l))%R.
    - apply sumR_ext. intros x _. pose proof (SR x). lra.
    - rewrite (sumR_lin _ (fun x => (fval f x ^ 2)%R) (fun _ => u) 1 (-1)). unfold Sx. ring. }
  assert (W1 : (Sz / IZR n <= M2)%R) by (rewrite EM; apply Rmult_le_compat_r; lra).
  assert (W2 : (M2 - u <= Sz / IZR n)%R). { rewrite EM. replace (Sx / IZR n - u)%R with ((Sx - IZR n * u) / IZR n)%R by (field; lra). apply Rmult_le_compat_r; lra. }
  assert (LO : (fval f v <= Sz / IZR n)%R).
  { assert (R1 : n * v <= sumZ (map sq0 l)). { rewrite QV. pose proof (sum_bounds (map sq0 l) 0 D B2) as Q. rewrite map_length in Q. rewrite Z.quot_div_nonneg by lia. apply Z.mul_div_le. auto. }
    apply Rmult_le_reg_r with (IZR n); auto. unfold Rdiv. rewrite Rmult_assoc, Rinv_l, Rmult_1_r by lra.
    replace Sz with (fval f (sumZ (map sq0 l))) by (rewrite fval_sum, map_map; reflexivity). unfold fval.
    apply IZR_le in R1. rewrite mult_IZR in R1. pose proof (bpow_gt_0 radix2 (- ffrac f)). nra. }
  apply Rabs_lt_inv in AV. assert (U : (0 < u)%R) by apply bpow_gt_0.
  destruct (root_near v M2 Vv (proj1 BV) M0) as (r & [n0 Er] & Br). { pose proof (pow2_ge_0 u). lra. }
  exists r. split; [|exact Br]. exists n0. intros k K. unfold rms. rewrite ES. cbn [bind]. rewrite EV. cbn [bind]. apply Er, K.
Qed.
End F.

Section Flt.
Context {prec emax : Z} {Hp : Prec_gt_0 prec} {He : Prec_lt_emax prec emax}.
Notation float := (binary_float prec emax).
Notation O := (float_ops (prec := prec) (emax := emax)).
Notation rnd := (round radix2 (SpecFloat.fexp prec emax) ZnearestE).
Notation u := (bpow radix2 (- prec)).
Notation eta := (bpow radix2 (3 - emax - prec)).
Hypotheses (P24 : 24 <= prec) (E128 : 128 <= emax).
Let Vexp : Valid_exp (SpecFloat.fexp prec emax) := fexp_correct prec emax _.
(** the square root of every finite number that is not negative is relatively accurate *)
Lemma sqrt_all : forall x : float, is_finite x = true -> (0 <= B2R x)%R ->
  is_finite (Bsqrt mode_NE x) = true /\ (Rabs (B2R (Bsqrt mode_NE x) - sqrt (B2R x)) <= u * sqrt (B2R x))%R.
Proof using P24 E128.
  intros x F X. destruct (Bsqrt_correct prec emax _ _ mode_NE x) as (VR & FR & _). change (round_mode mode_NE) with ZnearestE in VR.
  destruct (Req_dec (B2R x) 0) as [Z|Z].
  - assert (K : exists s, x = B754_zero s) by (destruct x as [s| | |s mm ee bb]; try discriminate; [eauto|]; exfalso; cbn in Z; apply (F2R_neq_0 radix2 (Float radix2 (SpecFloat.cond_Zopp s (Zpos mm)) ee)) in Z; auto; destruct s; discriminate).
    destruct K as [s ->]. cbn. rewrite sqrt_0, Rmult_0_r, Rminus_0_r, Rabs_R0. split; [reflexivity|lra].
  - assert (X0 : (0 < B2R x)%R) by lra. pose proof (SqrtInv.finite_pos_sign x F X0) as S. split; [rewrite FR; destruct x as [| | |[] ? ? ?]; try discriminate; auto|].
    rewrite VR. set (t := sqrt (B2R x)). assert (T : (0 <= t)%R) by apply sqrt_pos. rewrite <- (Rabs_pos_eq t) at 3 by auto. apply SqrtInv.rnd_norm. rewrite Rabs_pos_eq by auto.
    assert (TT : (t * t = B2R x)%R) by (apply sqrt_sqrt; lra). apply Rsqr_incr_0_var; auto. unfold Rsqr. rewrite TT, <- bpow_plus.
    pose proof (abs_B2R_ge_emin prec emax x) as L. rewrite (Rabs_pos_eq (B2R x)) in L by lra. apply Rle_trans with (bpow radix2 (SpecFloat.emin prec emax)).
    + apply bpow_le. unfold SpecFloat.emin. pose proof (prec_lt_emax prec emax). lia.
    + apply L. destruct x; try discriminate; auto; cbn in Z; congruence.
Qed.
Lemma root_near_float : forall (v : float) V E, is_finite v = true -> (0 <= B2R v)%R -> (0 <= V)%R -> (Rabs (B2R v - V) <= E)%R ->
  is_finite (Bsqrt mode_NE v) = true /\ (Rabs (B2R (Bsqrt mode_NE v) - sqrt V) <= sqrt E + u * (sqrt V + sqrt E))%R.
Proof using P24 E128.
  intros v V E F v0 V0 H. destruct (sqrt_all v F v0) as [Fs Ds]. split; [exact Fs|]. assert (U0 : (0 < u)%R) by apply bpow_gt_0.
  assert (G : (Rabs (sqrt (B2R v) - sqrt V) <= sqrt E)%R) by (eapply Rle_trans; [apply sqrt_gap; auto|]; apply sqrt_le_1; [apply Rabs_pos| |exact H]; pose proof (Rabs_pos (B2R v - V)); lra).
  assert (G2 := G). apply Rabs_le_inv in G2. assert (u * sqrt (B2R v) <= u * (sqrt V + sqrt E))%R by (apply Rmult_le_compat_l; lra).
  replace (B2R (Bsqrt mode_NE v) - sqrt V)%R with ((B2R (Bsqrt mode_NE v) - sqrt (B2R v)) + (sqrt (B2R v) - sqrt V))%R by ring. eapply Rle_trans; [apply Rabs_triang|]. lra.
Qed.
Lemma deviation_float : forall m fuel sq, (forall x, sq x = Bsqrt mode_NE x) ->
  forall (l : list float) B, l <> [] -> (forall x, In x l -> is_finite x = true /\ (Rabs (B2R x) <= B)%R) -> (1 <= B)%R -> Z.of_nat (length l) < 2 ^ (prec - 2) ->
  let n := INR (length l) in (32 * n * B ^ 2 <= bpow radix2 (emax - 2))%R ->
  let V := varR (map B2R l) in let D := (2 * (n + 1) * u * B + eta)%R in let E := (D ^ 2 + (2 * n + 9) * u * (V + D ^ 2) + 2 * eta)%R in
  exists r, deviation O (float_sqrt m sq fuel) (B754_zero false) l = Ok r /\ is_finite r = true /\ (Rabs (B2R r - sqrt V) <= sqrt E + u * (sqrt V + sqrt E))%R.
Proof using P24 E128.
  intros m fuel sq SQ l B NE HL B1 LN n HB V D E. destruct (variance_float P24 E128 l B NE HL B1 LN HB) as (v & Ev & Fv & v0 & Bv).
  destruct (root_near_float v V E Fv v0 (var_pos _) Bv) as [Fs Ds]. exists (sq v). rewrite SQ. split; [|auto]. unfold deviation. rewrite Ev. cbn [bind float_sqrt mixed_sqrt]. rewrite SQ. reflexivity.
Qed.
Lemma squares_map : forall l : list float, squares O l = Ok (map (fun x => Bmult mode_NE x x) l).
Proof using. induction l as [|x l IH]; [reflexivity|]. cbn [squares]. cbn [float_ops o_mul bind]. rewrite IH. reflexivity. Qed.
Lemma rms_float : forall m fuel sq, (forall x, sq x = Bsqrt mode_NE x) ->
  forall (l : list float) B, l <> [] -> (forall x, In x l -> is_finite x = true /\ (Rabs (B2R x) <= B)%R) -> (1 <= B)%R -> Z.of_nat (length l) < 2 ^ (prec - 2) ->
  let n := INR (length l) in (4 * n * B ^ 2 <= bpow radix2 (emax - 2))%R ->
  let M2 := msqR (map B2R l) in (bpow radix2 (5 - emax) <= M2)%R ->
  exists r, rms O (float_sqrt m sq fuel) (B754_zero false) l = Ok r /\ is_finite r = true /\ (Rabs (B2R r - sqrt M2) <= (2 * n + 8) * u * sqrt M2)%R.
Proof using Vexp P24 E128.
  intros m fuel sq SQ l B NE HL B1 LN n HB M2 HM. pose proof (u_small P24) as US. pose proof (bpow_gt_0 radix2 (3 - emax - prec)) as ET.
  assert (N1 : (1 <= n)%R) by (unfold n; destruct l; [congruence|]; cbn [length]; rewrite S_INR; pose proof (pos_INR (length l)); lra).
  assert (NU : (n * u <= / 4)%R).
  { unfold n. rewrite INR_IZR_INZ. apply Rle_trans with (bpow radix2 (prec - 2) * u)%R.
    - apply Rmult_le_compat_r; [lra|]. rewrite <- (IZR_Zpower radix2 (prec - 2)) by lia. apply IZR_le. change (Zpower radix2 (prec - 2)) with (2 ^ (prec - 2)). lia.
    - rewrite <- bpow_plus. replace (prec - 2 + - prec) with (-2) by ring. change (bpow radix2 (-2)) with (/ 4)%R. lra. }
  assert (E1 : bpow radix2 (emax - 1) = (2 * bpow radix2 (emax - 2))%R) by (replace (emax - 1) with (1 + (emax - 2)) by ring; rewrite bpow_plus; reflexivity).
  set (g := fun x : float => Bmult mode_NE x x).
  assert (SQ2 : forall x, In x l -> is_finite (g x) = true /\ (0 <= B2R (g x))%R /\ (Rabs (B2R (g x) - B2R x ^ 2) <= u * B2R x ^ 2 + eta / 2)%R /\ (B2R x ^ 2 <= B ^ 2)%R).
  { intros x I. destruct (HL x I) as [Fx Bx]. assert (XB : (B2R x ^ 2 <= B ^ 2)%R) by (apply pow_maj_Rabs; exact Bx). assert (XX : (0 <= B2R x * B2R x)%R) by nra.
    destruct (mult_r x x Fx Fx (emax - 1) ltac:(lia)) as [FS VS]. { rewrite Rabs_pos_eq by auto. assert (B ^ 2 <= n * B ^ 2)%R by nra. nra. }
    pose proof (MagProofs.rnd_rel (prec := prec) (emax := emax) (B2R x * B2R x)) as RR. rewrite <- VS, (Rabs_pos_eq (B2R x * B2R x)) in RR by auto. split; [exact FS|]. split.
    - unfold g. rewrite VS. rewrite <- (round_0 radix2 (SpecFloat.fexp prec emax) ZnearestE). apply round_le; auto with typeclass_instances.
    - split; [|exact XB]. unfold g. replace (B2R x ^ 2)%R with (B2R x * B2R x)%R by ring. lra. }
  set (Q := sumR (map (fun x => (B2R x ^ 2)%R) l)). set (S := sumR (map (fun x => B2R (g x)) l)).
  assert (SB : forall (h : float -> R) c, (forall x, In x l -> (h x <= c)%R) -> (sumR (map h l) <= n * c)%R) by (intros h c H; unfold n; rewrite <- (sumR_const _ c l); apply sumR_ext; exact H).
  assert (EM : M2 = (Q / n)%R) by (unfold M2, msqR, avgR, Q; rewrite !map_length, map_map; reflexivity).
  assert (QN : Q = (n * M2)%R) by (rewrite EM; field; lra).
  assert (UP : (S <= (1 + u) * Q + n * (eta / 2))%R).
  { unfold n. rewrite <- (sumR_const _ (eta / 2)%R l). rewrite <- (Rmult_1_l (sumR (map (fun _ => (eta / 2)%R) l))). unfold Q. rewrite <- (sumR_lin _ (fun x => (B2R x ^ 2)%R) (fun _ => (eta / 2)%R)).
    apply sumR_ext. intros x I. destruct (SQ2 x I) as (_ & _ & H & _). apply Rabs_le_inv in H. lra. }
  assert (DN : ((1 - u) * Q - n * (eta / 2) <= S)%R).
  { replace (n * (eta / 2))%R with (- (- 1 * (n * (eta / 2))))%R by ring. unfold Rminus at 1. rewrite Ropp_involutive. unfold n. rewrite <- (sumR_const _ (eta / 2)%R l). unfold Q. rewrite <- (sumR_lin _ (fun x => (B2R x ^ 2)%R) (fun _ => (eta / 2)%R)).
    apply sumR_ext. intros x I. destruct (SQ2 x I) as (_ & _ & H & _). apply Rabs_le_inv in H. lra. }
  assert (SA : sumR (map (fun x => Rabs (B2R x)) (map g l)) = S) by (rewrite map_map; apply sumR_eq; intros x I; apply Rabs_pos_eq, SQ2, I).
  assert (NE2 : map g l <> []) by (destruct l; [congruence|discriminate]).
  assert (EU : (eta <= / 4 * (u * M2))%R).
  { apply Rle_trans with (/ 4 * (u * bpow radix2 (5 - emax)))%R; [|apply Rmult_le_compat_l; [lra|]; apply Rmult_le_compat_l; lra]. rewrite <- bpow_plus. change (/ 4)%R with (bpow radix2 (-2)). rewrite <- bpow_plus. right. f_equal. ring. }
  assert (M0 : (0 < M2)%R) by (pose proof (bpow_gt_0 radix2 (5 - emax)); lra).
  assert (QB : (Q <= n * B ^ 2)%R) by (apply SB; intros x I; apply SQ2, I).
  assert (UM : (u * M2 <= / 4 * M2)%R) by (apply Rmult_le_compat_r; lra).
  assert (SN : (S <= bpow radix2 (emax - 2))%R).
  { eapply Rle_trans; [exact UP|]. assert (n * (eta / 2) <= n * M2)%R by (apply Rmult_le_compat_l; lra). assert (u * Q <= Q)%R by (rewrite <- (Rmult_1_l Q) at 2; apply Rmult_le_compat_r; nra). rewrite <- QN in H. lra. }
  destruct (mean_float P24 E128 (map g l) NE2) as (v & ER & FR & BR).
  { intros y I. apply in_map_iff in I. destruct I as (x & <- & I). apply SQ2. auto. }
  { rewrite map_length. exact LN. }
  { rewrite SA. exact SN. }
  rewrite SA, map_length, map_map in BR. fold n in BR. change (sumR (map (fun x => B2R (g x)) l)) with S in BR.
  set (t := (S / n)%R) in *. assert (SNn : S = (n * t)%R) by (unfold t; field; lra).
  assert (T1 : (t <= (1 + u) * M2 + eta / 2)%R) by (apply Rmult_le_reg_l with n; [lra|]; rewrite SNn, QN in UP; clear - UP; lra).
  assert (T2 : ((1 - u) * M2 - eta / 2 <= t)%R) by (apply Rmult_le_reg_l with n; [lra|]; rewrite SNn, QN in DN; clear - DN; lra).
  assert (W : (Rabs (B2R v - M2) <= (2 * n + 6) * u * M2)%R).
  { clear - BR T1 T2 EU US NU N1 M0 ET UM. clearbody t M2 n. set (uu := u) in *. set (ee := eta) in *. set (x := B2R v) in *. clearbody uu ee x.
    assert (K : (2 * (n + 1) * uu * t <= 2 * (n + 1) * uu * M2 + 2 * (uu * M2))%R).
    { assert (T3 : (t <= M2 + 2 * (uu * M2))%R) by lra. assert (A0 : (0 <= 2 * (n + 1) * uu)%R) by (apply Rmult_le_pos; lra). assert (A1 : (2 * (n + 1) * uu <= 1)%R) by lra.
      assert (2 * (n + 1) * uu * t <= 2 * (n + 1) * uu * (M2 + 2 * (uu * M2)))%R by (apply Rmult_le_compat_l; auto). assert (2 * (n + 1) * uu * (2 * (uu * M2)) <= 1 * (2 * (uu * M2)))%R by (apply Rmult_le_compat_r; [nra|auto]). lra. }
    replace (x - M2)%R with ((x - t) + (t - M2))%R by ring. eapply Rle_trans; [apply Rabs_triang|]. assert (Rabs (t - M2) <= uu * M2 + ee / 2)%R by (apply Rabs_le; lra). lra. }
  assert (C0 : (0 <= (2 * n + 6) * u <= 6 / 10)%R) by (split; [apply Rmult_le_pos; lra|lra]).
  assert (VP : (4 / 10 * M2 <= B2R v <= 16 / 10 * M2)%R) by (apply Rabs_le_inv in W; assert ((2 * n + 6) * u * M2 <= 6 / 10 * M2)%R by (apply Rmult_le_compat_r; lra); lra).
  destruct (sqrt_all v FR ltac:(lra)) as [Fs Ds]. exists (sq v). split; [unfold rms; rewrite squares_map; cbn [bind]; fold g; rewrite ER; reflexivity|]. rewrite SQ. split; [exact Fs|].
  set (a := sqrt (B2R v)) in *. set (b := sqrt M2). assert (B0 : (0 < b)%R) by (apply sqrt_lt_R0; auto). assert (A0 : (0 <= a)%R) by apply sqrt_pos.
  assert (AA : (a * a = B2R v)%R) by (apply sqrt_sqrt; lra). assert (BB : (b * b = M2)%R) by (apply sqrt_sqrt; lra).
  assert (AB : (Rabs (a - b) <= (2 * n + 6) * u * b)%R).
  { apply Rmult_le_reg_r with (a + b)%R; [lra|]. rewrite <- (Rabs_pos_eq (a + b)) at 1 by lra. rewrite <- Rabs_mult. replace ((a - b) * (a + b))%R with (B2R v - M2)%R by (rewrite <- AA, <- BB; ring). eapply Rle_trans; [exact W|]. rewrite <- BB.
    assert (0 <= (2 * n + 6) * u * b * a)%R by (repeat apply Rmult_le_pos; lra). lra. }
  assert (A2 : (a <= 16 / 10 * b)%R). { apply Rabs_le_inv in AB. assert ((2 * n + 6) * u * b <= 6 / 10 * b)%R by (apply Rmult_le_compat_r; lra). lra. }
  replace (B2R (Bsqrt mode_NE v) - b)%R with ((B2R (Bsqrt mode_NE v) - a) + (a - b))%R by ring. eapply Rle_trans; [apply Rabs_triang|].
  assert (u * a <= u * (16 / 10 * b))%R by (apply Rmult_le_compat_l; lra). assert (0 <= u * b)%R by (apply Rmult_le_pos; lra). lra.
Qed.
End Flt.
