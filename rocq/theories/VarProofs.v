(** * Proofs: the variance. *)

From Coq Require Import ZArith Reals List Lia Lra Psatz Bool.
From Flocq Require Import Core.Core IEEE754.BinarySingleNaN.
From Verif Require Import Base FloatBase Traits FixedPrim FixedImpl FloatImpl Spec Lemmas ScalarProofs SpecBlend SpecVar BlendProofs FloatKit BlendFloat.
Import ListNotations.
Open Scope Z_scope.

(** ** real numbers *)
Lemma sumR_ext : forall A (g h : A -> R) l, (forall x, In x l -> (g x <= h x)%R) -> (sumR (map g l) <= sumR (map h l))%R.
Proof.
  induction l as [|x l IH]; intros H; cbn; [lra|]. pose proof (H x (or_introl eq_refl)). specialize (IH (fun y Y => H y (or_intror Y))). unfold sumR in *. lra.
Qed.
Lemma sumR_lin : forall A (g h : A -> R) a b l, sumR (map (fun x => a * g x + b * h x)%R l) = (a * sumR (map g l) + b * sumR (map h l))%R.
Proof. induction l as [|x l IH]; cbn; [ring|]. unfold sumR in *. rewrite IH. ring. Qed.
Lemma sumR_const : forall A (c : R) (l : list A), sumR (map (fun _ => c) l) = (INR (length l) * c)%R.
Proof. induction l as [|x l IH]; [cbn; ring|]. cbn [map length]. rewrite S_INR. cbn. unfold sumR in *. rewrite IH. ring. Qed.
Lemma sumR_eq : forall A (g h : A -> R) l, (forall x, In x l -> g x = h x) -> sumR (map g l) = sumR (map h l).
Proof. intros A g h l H. f_equal. apply map_ext_in. auto. Qed.
Lemma len_pos : forall A (l : list A), l <> [] -> (0 < INR (length l))%R.
Proof. intros A [|x l] H; [congruence|]. cbn [length]. rewrite S_INR. pose proof (pos_INR (length l)). lra. Qed.
(** the mean square distance from a point is the variance plus the square of the distance from the average *)
Lemma shift : forall (l : list R) c, l <> [] -> avgR (map (fun x => (x - c) ^ 2)%R l) = (varR l + (c - avgR l) ^ 2)%R.
Proof.
  intros l c NE. pose proof (len_pos _ l NE) as N. unfold varR, avgR. rewrite !map_length.
  set (n := INR (length l)) in *. set (S := sumR l). set (a := (S / n)%R).
  assert (Q : forall b, sumR (map (fun x => (x - b) ^ 2)%R l) = (sumR (map (fun x => x ^ 2)%R l) - 2 * b * S + n * b ^ 2)%R).
  { intros b. rewrite (sumR_eq _ (fun x => (x - b) ^ 2)%R (fun x => 1 * (x ^ 2) + 1 * ((- 2 * b) * x + (b ^ 2) * 1))%R) by (intros; ring).
    rewrite (sumR_lin _ (fun x => x ^ 2)%R (fun x => (- 2 * b) * x + (b ^ 2) * 1)%R 1 1). rewrite (sumR_lin _ (fun x => x) (fun _ => 1%R) (- 2 * b) (b ^ 2)).
    rewrite map_id, sumR_const. fold S n. ring. }
  rewrite !Q. replace S with (a * n)%R by (unfold a; field; lra). field. lra.
Qed.
Lemma var_pos : forall l, (0 <= varR l)%R.
Proof.
  intros l. unfold varR, avgR at 1. rewrite map_length. destruct l as [|x l]; [cbn; unfold Rdiv; lra|]. apply Rmult_le_pos; [|left; apply Rinv_0_lt_compat, len_pos; discriminate].
  rewrite <- (Rmult_0_r (INR (length (x :: l)))), <- (sumR_const _ 0%R (x :: l)). apply sumR_ext. intros. apply pow2_ge_0.
Qed.

(** ** fixed point *)
Section F.
Variables (m : mode) (f : fty).
Hypothesis Hf : supported f = true.
Notation O := (fixed_ops m f).
Lemma fval_sum : forall l, fval f (sumZ l) = sumR (map (fval f) l).
Proof using. unfold fval. induction l as [|x l IH]; cbn; [ring|]. unfold sumR, sumZ in *. rewrite plus_IZR. rewrite Rmult_plus_distr_r, IH. reflexivity. Qed.
Definition sq (mu x : Z) : Z := (x - mu) * (x - mu) / fone f.
Lemma sqdev_eq : forall mu l, (forall x, In x l -> fvalid f (x - mu) /\ fvalid f (sq mu x)) -> sqdev O mu l = Ok (map (sq mu) l).
Proof using.
  intros mu l. induction l as [|x l IH]; intros H; [reflexivity|]. cbn [sqdev map]. destruct (H x (or_introl eq_refl)) as [V1 V2].
  cbn [o_sub o_mul fixed_ops]. unfold fx_sub, fx_mul, fx_fin. rewrite (fin_valid m f) by exact V1. cbn [bind]. fold (sq mu x). rewrite (fin_valid m f) by exact V2. cbn [bind].
  rewrite IH by (intros; apply H; right; auto). reflexivity.
Qed.
Lemma parts_valid : forall l lo hi, (forall x, In x l -> lo <= x <= hi) -> fvalid f (Z.of_nat (length l) * lo) -> fvalid f (Z.of_nat (length l) * hi) ->
  forall k, fvalid f (sumZ (firstn k l)).
Proof using Hf.
  intros l lo hi B V1 V2 k. pose proof (sum_bounds (firstn k l) lo hi) as S.
  assert (B' : forall x, In x (firstn k l) -> lo <= x <= hi) by (intros x I; apply B; rewrite <- (firstn_skipn k l); apply in_or_app; auto).
  specialize (S B'). assert (L : 0 <= Z.of_nat (length (firstn k l)) <= Z.of_nat (length l)) by (rewrite firstn_length; lia).
  pose proof (zero_valid f Hf) as Z0. unfold fvalid, in_range in *. set (n := Z.of_nat (length l)) in *. set (j := Z.of_nat (length (firstn k l))) in *.
  split.
  - assert (Z.min 0 (n * lo) <= j * lo) by (destruct (Z.le_gt_cases 0 lo); nia). lia.
  - assert (j * hi <= Z.max 0 (n * hi)) by (destruct (Z.le_gt_cases 0 hi); nia). lia.
Qed.
Lemma sq_real : forall mu x, (((fval f x - fval f mu) ^ 2 - ulp f < fval f (sq mu x) <= (fval f x - fval f mu) ^ 2))%R.
Proof using Hf.
  intros mu x. pose proof (one_pos f Hf) as P. assert (F0 : 0 <= ffrac f) by (pose proof (width_pos f Hf); lia).
  assert (FW : (IZR (fone f) * bpow radix2 (- ffrac f) = 1)%R).
  { unfold fone. change 2 with (radix_val radix2) at 1. rewrite IZR_Zpower by auto. rewrite <- bpow_plus, Z.add_opp_diag_r. reflexivity. }
  unfold fval, ulp, sq. pose proof (bpow_gt_0 radix2 (- ffrac f)) as W. set (w := bpow radix2 (- ffrac f)) in *. set (q := fone f) in *.
  pose proof (Z.mul_div_le ((x - mu) * (x - mu)) q P) as L. pose proof (Z.mul_succ_div_gt ((x - mu) * (x - mu)) q P) as G.
  set (s := (x - mu) * (x - mu) / q) in *. apply IZR_le in L. apply IZR_lt in G. rewrite !mult_IZR, ?succ_IZR, ?minus_IZR in *. clearbody s w q.
  assert (W2 : (0 < w * w)%R) by (apply Rmult_lt_0_compat; auto).
  replace ((IZR x * w - IZR mu * w) ^ 2)%R with ((IZR x - IZR mu) * (IZR x - IZR mu) * (w * w))%R by ring.
  replace (IZR s * w)%R with (IZR q * IZR s * (w * w))%R by (transitivity (IZR s * w * (IZR q * w))%R; [ring | rewrite FW; ring]).
  assert (E : w = (IZR q * (w * w))%R) by (transitivity (w * (IZR q * w))%R; [rewrite FW; ring | ring]).
  split; [|apply Rmult_le_compat_r; lra]. rewrite E at 3. rewrite <- Rmult_minus_distr_r. apply Rmult_lt_compat_r; lra.
Qed.
Lemma variance_fixed : forall l lo hi, l <> [] -> (forall x, In x l -> lo <= x <= hi) ->
  let n := Z.of_nat (length l) in
  fvalid f (n * lo) -> fvalid f (n * hi) -> fvalid f (lo - hi) -> fvalid f (hi - lo) -> fvalid f (n * fone f) -> fvalid f (n * ((hi - lo) * (hi - lo) / fone f)) ->
  exists r, variance O 0 l = Ok r /\ 0 <= r <= (hi - lo) * (hi - lo) / fone f /\
  (varR (map (fval f) l) - 2 * ulp f < fval f r <= varR (map (fval f) l) + ulp f ^ 2)%R.
Proof using Hf.
  intros l lo hi NE B n V1 V2 V3 V4 VN VS. pose proof (one_pos f Hf) as P. pose proof (zero_valid f Hf) as Z0.
  pose proof (len_pos _ l NE) as NP. assert (NI : INR (length l) = IZR n) by apply INR_IZR_INZ.
  assert (N1 : 0 < n) by (unfold n; destruct l; [congruence|]; cbn [length]; lia).
  destruct (mean_all m f Hf l NE (parts_valid l lo hi B V1 V2) VN) as (mu & EM & QM & BM & AM). specialize (BM lo hi B). fold n in AM.
  set (D := (hi - lo) * (hi - lo) / fone f) in *.
  assert (SB : forall x, In x l -> 0 <= sq mu x <= D).
  { intros x I. specialize (B x I). unfold sq, D. split; [apply Z.div_pos; [apply Z.square_nonneg|auto]|]. apply Z.div_le_mono; auto.
    rewrite <- (Z.abs_square (x - mu)), <- (Z.abs_square (hi - lo)). apply Z.square_le_mono_nonneg; lia. }
  assert (DV : 0 <= D) by (apply Z.div_pos; [apply Z.square_nonneg|auto]).
  assert (VD : fvalid f D) by (apply (between_valid f 0 (n * D)); auto; nia).
  assert (ES : sqdev O mu l = Ok (map (sq mu) l)).
  { apply sqdev_eq. intros x I. split; [apply (between_valid f (lo - hi) (hi - lo)); auto; specialize (B x I); lia|]. apply (between_valid f 0 D); auto. }
  assert (NE2 : map (sq mu) l <> []) by (destruct l; [congruence|discriminate]).
  assert (B2 : forall y, In y (map (sq mu) l) -> 0 <= y <= D) by (intros y I; apply in_map_iff in I; destruct I as (x & <- & I); auto).
  destruct (mean_all m f Hf (map (sq mu) l) NE2) as (r & ER & QR & BR & AR).
  { apply (parts_valid (map (sq mu) l) 0 D B2); rewrite map_length; fold n; auto. rewrite Z.mul_0_r. auto. }
  { rewrite map_length. exact VN. }
  rewrite map_length in QR, AR. fold n in QR, AR. specialize (BR 0 D B2).
  exists r. split; [unfold variance; rewrite EM; cbn [bind]; rewrite ES; cbn [bind]; exact ER|]. split; [exact BR|].
  (* the real estimate *)
  assert (NER : map (fval f) l <> []) by (destruct l; [congruence|discriminate]).
  pose proof (shift (map (fval f) l) (fval f mu) NER) as SH. unfold avgR in SH. rewrite map_map, !map_length, NI in SH. fold (avgR (map (fval f) l)) in SH.
  rewrite <- fval_sum in SH.
  assert (MU : ((fval f mu - fval f (sumZ l) / IZR n) ^ 2 <= ulp f ^ 2)%R).
  { apply pow_maj_Rabs. lra. }
  rewrite fval_sum, map_map in AR.
  assert (U1 : (sumR (map (fun x => fval f (sq mu x)) l) <= sumR (map (fun x => (fval f x - fval f mu) ^ 2) l))%R) by (apply sumR_ext; intros x _; apply sq_real).
  assert (U2 : (sumR (map (fun x => (fval f x - fval f mu) ^ 2) l) - IZR n * ulp f <= sumR (map (fun x => fval f (sq mu x)) l))%R).
  { rewrite <- NI. rewrite <- (sumR_const _ (ulp f) l).
    replace (sumR (map (fun x => (fval f x - fval f mu) ^ 2) l) - sumR (map (fun _ => ulp f) l))%R with (sumR (map (fun x => 1 * ((fval f x - fval f mu) ^ 2) + (-1) * ulp f) l))%R.
    - apply sumR_ext. intros x _. pose proof (sq_real mu x). lra.
    - rewrite (sumR_lin _ (fun x => ((fval f x - fval f mu) ^ 2)%R) (fun _ => ulp f) 1 (-1)). ring. }
  assert (NR : (0 < IZR n)%R) by (apply IZR_lt; auto). assert (I : (0 < / IZR n)%R) by (apply Rinv_0_lt_compat; auto).
  set (Sx := sumR (map (fun x => (fval f x - fval f mu) ^ 2)%R l)) in *. set (Sz := sumR (map (fun x => fval f (sq mu x)) l)) in *.
  assert (W1 : (Sz / IZR n <= Sx / IZR n)%R) by (apply Rmult_le_compat_r; lra).
  assert (W2 : (Sx / IZR n - ulp f <= Sz / IZR n)%R).
  { replace (Sx / IZR n - ulp f)%R with ((Sx - IZR n * ulp f) / IZR n)%R by (field; lra). apply Rmult_le_compat_r; lra. }
  (* the last division rounds down *)
  assert (LO : (fval f r <= Sz / IZR n)%R).
  { assert (R1 : n * r <= sumZ (map (sq mu) l)).
    { rewrite QR. pose proof (sum_bounds (map (sq mu) l) 0 D B2). rewrite map_length in *. rewrite Z.quot_div_nonneg by lia. apply Z.mul_div_le. auto. }
    apply Rmult_le_reg_r with (IZR n); auto. unfold Rdiv. rewrite Rmult_assoc, Rinv_l, Rmult_1_r by lra.
    replace Sz with (fval f (sumZ (map (sq mu) l))) by (rewrite fval_sum, map_map; reflexivity). unfold fval.
    apply IZR_le in R1. rewrite mult_IZR in R1. pose proof (bpow_gt_0 radix2 (- ffrac f)). nra. }
  apply Rabs_lt_inv in AR. pose proof (pow2_ge_0 (fval f mu - fval f (sumZ l) / IZR n)). lra.
Qed.
Lemma variance_same : forall x n, (0 < n)%nat -> fvalid f x -> fvalid f (Z.of_nat n * x) -> fvalid f (Z.of_nat n * fone f) -> variance O 0 (repeat x n) = Ok 0.
Proof using Hf.
  intros x n N V1 V2 V3. pose proof (zero_valid f Hf) as Z0. unfold variance. rewrite (mean_const m f Hf) by auto. cbn [bind]. rewrite sqdev_eq.
  - cbn [bind]. replace (map (sq x) (repeat x n)) with (repeat 0 n); [apply (mean_const m f Hf); auto; rewrite Z.mul_0_r; auto|].
    clear. induction n as [|n IH]; [reflexivity|]. cbn [repeat map]. rewrite <- IH. unfold sq. rewrite Z.sub_diag. reflexivity.
  - intros y I. apply repeat_spec in I. subst y. unfold sq. rewrite Z.sub_diag. auto.
Qed.
End F.

(** ** floats: never negative *)
Section Flt.
Context {prec emax : Z} {Hp : Prec_gt_0 prec} {He : Prec_lt_emax prec emax}.
Notation float := (binary_float prec emax).
Notation O := (float_ops (prec := prec) (emax := emax)).
Definition nonneg (x : float) : Prop := is_nan x = true \/ Bsign x = false.
Lemma sq_nonneg : forall d : float, nonneg (Bmult mode_NE d d).
Proof.
  intros d. pose proof (Bmult_correct prec emax _ _ mode_NE d d) as H. destruct (is_nan (Bmult mode_NE d d)) eqn:N; [left; auto|right].
  revert H. destruct (Rlt_bool _ _).
  - intros (_ & _ & S). rewrite S by auto. apply xorb_nilpotent.
  - intros H. assert (E : B2SF (Bmult mode_NE d d) = binary_overflow prec emax mode_NE false) by (rewrite xorb_nilpotent in H; exact H).
    destruct (Bmult mode_NE d d) as [s|s| |s mm ee bb]; cbn in *; try discriminate; congruence.
Qed.
Lemma plus_nonneg : forall a b : float, nonneg a -> nonneg b -> nonneg (Bplus mode_NE a b).
Proof.
  intros a b Ha Hb. destruct (is_finite a) eqn:Fa, (is_finite b) eqn:Fb.
  - assert (Sa : Bsign a = false) by (destruct Ha as [N|]; auto; destruct a; discriminate).
    assert (Sb : Bsign b = false) by (destruct Hb as [N|]; auto; destruct b; discriminate).
    assert (Pa : (0 <= B2R a)%R) by (destruct a as [s|s| |s mm ee bb]; cbn in *; try lra; subst s; apply F2R_ge_0; cbn; lia).
    assert (Pb : (0 <= B2R b)%R) by (destruct b as [s|s| |s mm ee bb]; cbn in *; try lra; subst s; apply F2R_ge_0; cbn; lia).
    pose proof (Bplus_correct prec emax _ _ mode_NE a b Fa Fb) as H. revert H. destruct (Rlt_bool _ _).
    + intros (_ & _ & S). right. rewrite S. rewrite Sa, Sb. destruct (Rcompare_spec (B2R a + B2R b) 0); auto. exfalso. lra.
    + intros (E & _). rewrite Sa in E. right. destruct (Bplus mode_NE a b) as [s|s| |s mm ee bb]; cbn in *; try discriminate; congruence.
  - destruct b as [s|s| |s mm ee bb]; try discriminate; [|left; destruct a; reflexivity]. destruct Hb as [N|S]; [discriminate|]. cbn in S. subst s.
    destruct a as [s|s| |s mm ee bb]; try discriminate; right; reflexivity.
  - destruct a as [s|s| |s mm ee bb]; try discriminate; [|left; destruct b; reflexivity]. destruct Ha as [N|S]; [discriminate|]. cbn in S. subst s.
    destruct b as [s|s| |s mm ee bb]; try discriminate; right; reflexivity.
  - destruct a as [s|s| |s mm ee bb]; try discriminate; [|left; destruct b; reflexivity]. destruct b as [t|t| |t m2 e2 b2]; try discriminate; [|left; reflexivity].
    destruct Ha as [N|S]; [discriminate|]. destruct Hb as [N|S']; [discriminate|]. cbn in S, S'. subst s t. right. reflexivity.
Qed.
Lemma div_nonneg : forall a b : float, nonneg a -> nonneg b -> nonneg (Bdiv mode_NE a b).
Proof.
  intros a b Ha Hb. destruct (is_nan (Bdiv mode_NE a b)) eqn:N; [left; auto|right].
  destruct (Req_dec (B2R b) 0) as [Z|NZ].
  - destruct b as [s|s| |s mm ee bb].
    + destruct Hb as [Q|Q]; [discriminate|]. destruct a as [t|t| |t m2 e2 b2]; try discriminate N; destruct Ha as [W|W]; try discriminate; cbn in Q, W |- *; subst; reflexivity.
    + destruct Hb as [Q|Q]; [discriminate|]. destruct a as [t|t| |t m2 e2 b2]; try discriminate N; destruct Ha as [W|W]; try discriminate; cbn in Q, W |- *; subst; reflexivity.
    + destruct a; discriminate N.
    + exfalso. cbn in Z. apply eq_0_F2R in Z. destruct s; discriminate Z.
  - pose proof (Bdiv_correct prec emax _ _ mode_NE a b NZ) as H. assert (Sb : Bsign b = false) by (destruct Hb as [Q|]; auto; destruct b; try discriminate; exfalso; apply NZ; reflexivity).
    destruct a as [t|t| |t m2 e2 b2] eqn:EA.
    + destruct Ha as [Q|Q]; [discriminate|]. cbn in Q. subst t. destruct b as [s|s| |s mm ee bb]; cbn in Sb; try (exfalso; apply NZ; reflexivity). subst s. reflexivity.
    + destruct Ha as [Q|Q]; [discriminate|]. cbn in Q. subst t. destruct b as [s|s| |s mm ee bb]; cbn in Sb; try (exfalso; apply NZ; reflexivity). subst s. reflexivity.
    + destruct b; discriminate N.
    + rewrite <- EA in *. assert (Sa : Bsign a = false) by (destruct Ha as [Q|]; auto; rewrite EA in Q; discriminate). revert H. destruct (Rlt_bool _ _).
      * intros (_ & _ & S). rewrite S by auto. rewrite Sa, Sb. reflexivity.
      * rewrite Sa, Sb. intros E. cbn [xorb] in E. destruct (Bdiv mode_NE a b) as [s|s| |s mm ee bb]; cbn in *; try discriminate; congruence.
Qed.
Lemma of_nat_nonneg : forall n, nonneg (float_of_Z prec emax (Z.of_nat n)).
Proof.
  intros n. right. pose proof (binary_normalize_correct prec emax _ _ mode_NE (Z.of_nat n) 0 false) as H. cbv zeta in H. fold (float_of_Z prec emax (Z.of_nat n)) in H.
  assert (P : (0 <= F2R (Float radix2 (Z.of_nat n) 0))%R) by (apply F2R_ge_0; cbn; lia).
  revert H. destruct (Rlt_bool _ _).
  - intros (_ & _ & S). rewrite S. destruct (Rcompare_spec (F2R (Float radix2 (Z.of_nat n) 0)) 0); auto. exfalso. lra.
  - rewrite Rlt_bool_false by exact P. intros E. destruct (float_of_Z prec emax (Z.of_nat n)) as [s|s| |s mm ee bb]; cbn in *; try discriminate; congruence.
Qed.
Lemma total_nonneg : forall (l : list float) acc, nonneg acc -> (forall x, In x l -> nonneg x) -> exists s, total O acc l = Ok s /\ nonneg s.
Proof.
  induction l as [|x l IH]; intros acc Ha H; [exists acc; auto|]. cbn [total o_add float_ops bind]. apply IH; [|intros; apply H; right; auto].
  apply plus_nonneg; auto. apply H. left. auto.
Qed.
Lemma mean_nonneg : forall l : list float, (forall x, In x l -> nonneg x) -> exists r, mean O (B754_zero false) l = Ok r /\ nonneg r.
Proof.
  intros l H. destruct (total_nonneg l (B754_zero false) (or_intror eq_refl) H) as (s & E & N). eexists. split; [unfold mean; rewrite E; reflexivity|].
  apply div_nonneg; [exact N | apply of_nat_nonneg].
Qed.
Definition fsq (mu x : float) : float := let d := Bminus mode_NE x mu in Bmult mode_NE d d.
Lemma sqdev_map : forall mu (l : list float), sqdev O mu l = Ok (map (fsq mu) l).
Proof. induction l as [|x l IH]; [reflexivity|]. cbn [sqdev o_sub o_mul float_ops bind]. rewrite IH. reflexivity. Qed.
Lemma variance_sign : forall l : list float, exists r, variance O (B754_zero false) l = Ok r /\ (is_nan r = true \/ Bsign r = false).
Proof.
  intros l. unfold variance. assert (E : exists mu, mean O (B754_zero false) l = Ok mu) by (eexists; unfold mean; rewrite total_fold; reflexivity).
  destruct E as (mu & E). rewrite E. cbn [bind]. rewrite sqdev_map. cbn [bind]. apply mean_nonneg. intros x I. apply in_map_iff in I. destruct I as (y & <- & _). apply sq_nonneg.
Qed.

(** ** floats: accuracy *)
Notation rnd := (round radix2 (SpecFloat.fexp prec emax) ZnearestE).
Notation u := (bpow radix2 (- prec)).
Notation eta := (bpow radix2 (3 - emax - prec)).
Hypothesis P24 : 24 <= prec.
Hypothesis E128 : 128 <= emax.
Let Vexp : Valid_exp (SpecFloat.fexp prec emax) := fexp_correct prec emax _.
Lemma minus_rel : forall a b : float, is_finite a = true -> is_finite b = true ->
  (Rabs (rnd (B2R a - B2R b) - (B2R a - B2R b)) <= u * Rabs (B2R a - B2R b))%R.
Proof using Hp.
  intros a b Fa Fb. pose proof (FloatSum.plus_rel a (Bopp b) Fa ltac:(rewrite is_finite_Bopp; auto)) as H. rewrite B2R_Bopp in H. exact H.
Qed.
Lemma fsq_rel : forall (mu x : float) C, is_finite mu = true -> is_finite x = true -> (1 <= C)%R -> (Rabs (B2R x - B2R mu) <= C)%R -> (2 * (C * C) <= bpow radix2 (emax - 1))%R ->
  is_finite (fsq mu x) = true /\ (0 <= B2R (fsq mu x))%R /\ (Rabs (B2R (fsq mu x) - (B2R x - B2R mu) ^ 2) <= 4 * u * (B2R x - B2R mu) ^ 2 + eta / 2)%R.
Proof using Vexp P24 E128.
  intros mu x C Fm Fx C1 HC H2. pose proof (u_small P24) as US. pose proof (bpow_gt_0 radix2 (3 - emax - prec)) as ET.
  set (v := (B2R x - B2R mu)%R) in *.
  destruct (minus_r x mu Fx Fm (emax - 1) ltac:(lia)) as [FD VD]. { fold v. eapply Rle_trans; [exact HC|]. nra. }
  pose proof (minus_rel x mu Fx Fm) as RD. fold v in RD, VD. set (d := Bminus mode_NE x mu) in *.
  rewrite <- VD in RD. set (w := B2R d) in *. assert (WB : (Rabs w <= (1 + u) * Rabs v)%R).
  { replace w with ((w - v) + v)%R by ring. eapply Rle_trans; [apply Rabs_triang|]. lra. }
  assert (WV : (Rabs (w * w - v * v) <= u * (2 + u) * (v * v))%R).
  { replace (w * w - v * v)%R with ((w - v) * (w - v) + 2 * v * (w - v))%R by ring. eapply Rle_trans; [apply Rabs_triang|]. rewrite !Rabs_mult, (Rabs_pos_eq 2) by lra.
    rewrite <- (Rabs_pos_eq (v * v)) by nra. rewrite Rabs_mult. pose proof (Rabs_pos (w - v)). pose proof (Rabs_pos v). set (D := Rabs (w - v)) in *. set (V := Rabs v) in *. clearbody D V. nra. }
  assert (VV : (v * v <= C * C)%R).
  { rewrite <- (Rabs_pos_eq (v * v)) by nra. rewrite Rabs_mult. apply Rmult_le_compat; auto using Rabs_pos. }
  assert (WW : (Rabs (w * w) <= bpow radix2 (emax - 1))%R).
  { replace (w * w)%R with ((w * w - v * v) + v * v)%R by ring. eapply Rle_trans; [apply Rabs_triang|]. rewrite (Rabs_pos_eq (v * v)) by nra. nra. }
  destruct (mult_r d d FD FD (emax - 1) ltac:(lia) WW) as [FS VS]. fold w in VS. change (fsq mu x) with (Bmult mode_NE d d). split; [exact FS|].
  pose proof (MagProofs.rnd_rel (prec := prec) (emax := emax) (w * w)) as RR. rewrite <- VS in RR. split.
  - rewrite VS. rewrite <- (round_0 radix2 (SpecFloat.fexp prec emax) ZnearestE). apply round_le; auto with typeclass_instances. nra.
  - replace (B2R (Bmult mode_NE d d) - v ^ 2)%R with ((B2R (Bmult mode_NE d d) - w * w) + (w * w - v * v))%R by ring. eapply Rle_trans; [apply Rabs_triang|].
    assert (WA : (Rabs (w * w) <= (1 + u * (2 + u)) * (v * v))%R).
    { replace (w * w)%R with ((w * w - v * v) + v * v)%R by ring. eapply Rle_trans; [apply Rabs_triang|]. rewrite (Rabs_pos_eq (v * v)) by nra. nra. }
    replace (v ^ 2)%R with (v * v)%R by ring. assert (P : (0 <= v * v)%R) by nra. set (X := (v * v)%R) in *.
    assert (u * Rabs (w * w) <= u * ((1 + u * (2 + u)) * X))%R by (apply Rmult_le_compat_l; lra).
    assert (u * (2 + u) * X + u * ((1 + u * (2 + u)) * X) <= 4 * u * X)%R; [|lra].
    replace (u * (2 + u) * X + u * ((1 + u * (2 + u)) * X))%R with ((u * X) * (3 + 3 * u + u * u))%R by ring. replace (4 * u * X)%R with ((u * X) * 4)%R by ring.
    apply Rmult_le_compat_l; [apply Rmult_le_pos; lra | nra].
Qed.
Lemma variance_float : forall (l : list float) B, l <> [] -> (forall x, In x l -> is_finite x = true /\ (Rabs (B2R x) <= B)%R) -> (1 <= B)%R -> Z.of_nat (length l) < 2 ^ (prec - 2) ->
  let n := INR (length l) in (32 * n * B ^ 2 <= bpow radix2 (emax - 2))%R ->
  let V := varR (map B2R l) in let D := (2 * (n + 1) * u * B + eta)%R in
  exists r, variance O (B754_zero false) l = Ok r /\ is_finite r = true /\ (0 <= B2R r)%R /\
  (Rabs (B2R r - V) <= D ^ 2 + (2 * n + 9) * u * (V + D ^ 2) + 2 * eta)%R.
Proof using Vexp P24 E128.
  intros l B NE HL B1 LN n HB V D. pose proof (u_small P24) as US. pose proof (bpow_gt_0 radix2 (3 - emax - prec)) as ET.
  assert (N1 : (1 <= n)%R) by (unfold n; destruct l; [congruence|]; cbn [length]; rewrite S_INR; pose proof (pos_INR (length l)); lra).
  assert (NU : (n * u <= / 4)%R).
  { unfold n. rewrite INR_IZR_INZ. apply Rle_trans with (bpow radix2 (prec - 2) * u)%R.
    - apply Rmult_le_compat_r; [lra|]. rewrite <- (IZR_Zpower radix2 (prec - 2)) by lia. apply IZR_le. change (Zpower radix2 (prec - 2)) with (2 ^ (prec - 2)). lia.
    - rewrite <- bpow_plus. replace (prec - 2 + - prec) with (-2) by ring. change (bpow radix2 (-2)) with (/ 4)%R. lra. }
  assert (ES : (eta <= / 16)%R) by (change (/ 16)%R with (bpow radix2 (-4)); apply bpow_le; lia).
  assert (SB : forall (g : float -> R) c, (forall x, In x l -> (g x <= c)%R) -> (sumR (map g l) <= n * c)%R).
  { intros g c H. unfold n. rewrite <- (sumR_const _ c l). apply sumR_ext. exact H. }
  set (A := sumR (map (fun x => Rabs (B2R x)) l)). assert (AB : (A <= n * B)%R) by (apply SB; intros x I; apply HL; auto).
  destruct (mean_float P24 E128 l NE (fun x I => proj1 (HL x I)) LN) as (mu & EM & FM & BM). { fold A. assert (B <= B ^ 2)%R by nra. assert (n * B <= n * B ^ 2)%R by (apply Rmult_le_compat_l; lra). assert (0 <= n * B ^ 2)%R by (apply Rmult_le_pos; nra). lra. }
  fold n A in BM.
  assert (AN : (A / n <= B)%R) by (apply Rmult_le_reg_r with n; [lra|]; unfold Rdiv; rewrite Rmult_assoc, Rinv_l by lra; lra).
  assert (BD : (Rabs (B2R mu - sumR (map B2R l) / n) <= D)%R).
  { eapply Rle_trans; [exact BM|]. unfold D. apply Rplus_le_compat_r. apply Rmult_le_compat_l; [nra | exact AN]. }
  assert (K0 : (0 <= (n + 1) * u <= 3 / 10)%R) by (split; [apply Rmult_le_pos; lra | lra]).
  assert (DB : (0 <= D <= B)%R).
  { unfold D. replace (2 * (n + 1) * u * B)%R with (2 * ((n + 1) * u) * B)%R by ring. assert (0 <= (n + 1) * u * B <= 3 / 10 * B)%R by (split; [apply Rmult_le_pos; lra | apply Rmult_le_compat_r; lra]). lra. }
  assert (AV : (Rabs (sumR (map B2R l) / n) <= B)%R).
  { unfold Rdiv. rewrite Rabs_mult, Rabs_inv, (Rabs_pos_eq n) by lra. eapply Rle_trans; [|exact AN]. apply Rmult_le_compat_r; [left; apply Rinv_0_lt_compat; lra|].
    unfold A. clear. unfold sumR. induction l as [|y l IH]; cbn [map fold_right]; [rewrite Rabs_R0; lra|]. eapply Rle_trans; [apply Rabs_triang|]. lra. }
  assert (MB : (Rabs (B2R mu) <= 2 * B)%R).
  { replace (B2R mu) with ((B2R mu - sumR (map B2R l) / n) + sumR (map B2R l) / n)%R by ring. eapply Rle_trans; [apply Rabs_triang|]. lra. }
  assert (E1 : bpow radix2 (emax - 1) = (2 * bpow radix2 (emax - 2))%R).
  { replace (emax - 1) with (1 + (emax - 2)) by ring. rewrite bpow_plus. reflexivity. }
  assert (SQ : forall x, In x l -> is_finite (fsq mu x) = true /\ (0 <= B2R (fsq mu x))%R /\ (Rabs (B2R (fsq mu x) - (B2R x - B2R mu) ^ 2) <= 4 * u * (B2R x - B2R mu) ^ 2 + eta / 2)%R /\ ((B2R x - B2R mu) ^ 2 <= 9 * B ^ 2)%R).
  { intros x I. destruct (HL x I) as [Fx Bx]. assert (XM : (Rabs (B2R x - B2R mu) <= 3 * B)%R).
    { unfold Rminus. eapply Rle_trans; [apply Rabs_triang|]. rewrite Rabs_Ropp. lra. }
    destruct (fsq_rel mu x (3 * B)%R FM Fx ltac:(lra) XM) as (Q1 & Q2 & Q3); [rewrite E1; nra|]. repeat split; auto.
    replace (9 * B ^ 2)%R with ((3 * B) ^ 2)%R by ring. apply pow_maj_Rabs. exact XM. }
  set (Q := sumR (map (fun x => (B2R x - B2R mu) ^ 2)%R l)). set (S := sumR (map (fun x => B2R (fsq mu x)) l)).
  assert (Q0 : (0 <= Q)%R) by (rewrite <- (Rmult_0_r n); unfold n, Q; rewrite <- (sumR_const _ 0%R l); apply sumR_ext; intros; apply pow2_ge_0).
  assert (QB : (Q <= n * (9 * B ^ 2))%R) by (apply SB; intros x I; apply SQ; auto).
  assert (UP : (S <= (1 + 4 * u) * Q + n * (eta / 2))%R).
  { unfold n. rewrite <- (sumR_const _ (eta / 2)%R l). rewrite <- (Rmult_1_l (sumR (map (fun _ => (eta / 2)%R) l))). unfold Q. rewrite <- (sumR_lin _ (fun x => (B2R x - B2R mu) ^ 2)%R (fun _ => (eta / 2)%R)).
    apply sumR_ext. intros x I. destruct (SQ x I) as (_ & _ & H & _). apply Rabs_le_inv in H. lra. }
  assert (DN : ((1 - 4 * u) * Q - n * (eta / 2) <= S)%R).
  { replace (n * (eta / 2))%R with (- (- 1 * (n * (eta / 2))))%R by ring. unfold Rminus at 1. rewrite Ropp_involutive. unfold n. rewrite <- (sumR_const _ (eta / 2)%R l). unfold Q. rewrite <- (sumR_lin _ (fun x => (B2R x - B2R mu) ^ 2)%R (fun _ => (eta / 2)%R)).
    apply sumR_ext. intros x I. destruct (SQ x I) as (_ & _ & H & _). apply Rabs_le_inv in H. lra. }
  assert (SA : sumR (map (fun x => Rabs (B2R x)) (map (fsq mu) l)) = S).
  { rewrite map_map. apply sumR_eq. intros x I. apply Rabs_pos_eq. apply SQ. auto. }
  assert (NE2 : map (fsq mu) l <> []) by (destruct l; [congruence|discriminate]).
  assert (SN : (S <= bpow radix2 (emax - 2))%R).
  { eapply Rle_trans; [exact UP|]. assert ((1 + 4 * u) * Q <= 2 * (n * (9 * B ^ 2)))%R by (apply Rmult_le_compat; lra). assert (n * (eta / 2) <= n * B ^ 2)%R by (apply Rmult_le_compat_l; nra). lra. }
  destruct (mean_float P24 E128 (map (fsq mu) l) NE2) as (r & ER & FR & BR).
  { intros y I. apply in_map_iff in I. destruct I as (x & <- & I). apply SQ. auto. }
  { rewrite map_length. exact LN. }
  { rewrite SA. exact SN. }
  rewrite SA, map_length, map_map in BR. fold n S in BR.
  exists r. assert (EV : variance O (B754_zero false) l = Ok r) by (unfold variance; rewrite EM; cbn [bind]; rewrite sqdev_map; exact ER).
  split; [exact EV|]. split; [exact FR|]. split.
  { destruct (variance_sign l) as (r' & E' & C). rewrite EV in E'. injection E' as <-. destruct r as [s|s| |s mm ee bb]; cbn in *; try lra. destruct C as [C|C]; [discriminate|]. subst s. apply F2R_ge_0. cbn. lia. }
  assert (NER : map B2R l <> []) by (destruct l; [congruence|discriminate]).
  pose proof (shift (map B2R l) (B2R mu) NER) as SH. unfold avgR in SH. rewrite map_map, !map_length in SH. fold n Q V in SH.
  assert (V0 : (0 <= V)%R) by apply var_pos. set (dm := ((B2R mu - sumR (map B2R l) / n) ^ 2)%R) in *.
  assert (DM : (0 <= dm <= D ^ 2)%R) by (split; [apply pow2_ge_0 | apply pow_maj_Rabs; exact BD]).
  set (q := (Q / n)%R) in *. assert (QN : Q = (n * q)%R) by (unfold q; field; lra). set (t := (S / n)%R) in *. assert (SNn : S = (n * t)%R) by (unfold t; field; lra). clearbody q t.
  assert (T1 : (t <= (1 + 4 * u) * q + eta / 2)%R) by (apply Rmult_le_reg_l with n; [lra|]; rewrite SNn, QN in UP; clear - UP; lra).
  assert (T2 : ((1 - 4 * u) * q - eta / 2 <= t)%R) by (apply Rmult_le_reg_l with n; [lra|]; rewrite SNn, QN in DN; clear - DN; lra).
  clearbody dm D V. clear - BR SH V0 DM T1 T2 US ET NU N1. set (uu := u) in *. set (ee := eta) in *. set (x := B2R r) in *. clearbody uu ee x.
  assert (NU1 : ((n + 1) * uu <= 3 / 10)%R) by lra.
  assert (q0 : (0 <= q)%R) by lra.
  assert (K : (2 * (n + 1) * uu * t <= 2 * (n + 1) * uu * q + 3 * uu * q + 6 / 20 * ee)%R).
  { assert (G : (2 * ((n + 1) * uu) * t <= 2 * ((n + 1) * uu) * ((1 + 4 * uu) * q + ee / 2))%R) by (apply Rmult_le_compat_l; nra).
    assert (G2 : ((n + 1) * uu * (8 * uu * q + ee) <= 3 / 10 * (8 * uu * q + ee))%R) by (apply Rmult_le_compat_r; [|lra]; assert (0 <= uu * q)%R by (apply Rmult_le_pos; lra); lra).
    assert (0 <= uu * q)%R by (apply Rmult_le_pos; lra). lra. }
  assert (W : (Rabs (x - q) <= (2 * n + 9) * uu * q + 2 * ee)%R).
  { replace (x - q)%R with ((x - t) + (t - q))%R by ring. eapply Rle_trans; [apply Rabs_triang|]. assert (Rabs (t - q) <= 4 * uu * q + ee / 2)%R by (apply Rabs_le; lra). lra. }
  replace (x - V)%R with ((x - q) + dm)%R by lra. eapply Rle_trans; [apply Rabs_triang|]. rewrite (Rabs_pos_eq dm) by lra.
  assert ((2 * n + 9) * uu * q <= (2 * n + 9) * uu * (V + D ^ 2))%R by (apply Rmult_le_compat_l; [apply Rmult_le_pos; lra | lra]). lra.
Qed.
End Flt.
