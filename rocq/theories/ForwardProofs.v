(** * Identities between library-backed functions, everything computed. *)

From Coq Require Import ZArith Reals Lia Lra Psatz List.
From Flocq Require Import Core.Core IEEE754.BinarySingleNaN Relative.
From Verif Require Import Base FloatBase Traits FixedPrim FixedImpl FloatImpl Spec SpecForward Forward
  Lemmas FloatKit SinReal PolarProofs PowFloat.
From Verif Require MagProofs DbProofs.
From Verif Require Import SpecDb.
Open Scope R_scope.

(** ** real analysis *)
Lemma near_exp : forall a b d, Rabs (a - b) <= d -> Rabs (exp a - exp b) <= exp b * (exp d - 1).
Proof.
  intros a b d H. assert (D0 : 0 <= d) by (eapply Rle_trans; [apply Rabs_pos|eauto]). apply Rabs_le_inv in H.
  pose proof (exp_pos b) as EB. pose proof (exp_pos d) as ED. pose proof (exp_pos a) as EA.
  assert (U : exp a <= exp b * exp d). { rewrite <- exp_plus. destruct (Req_dec a (b + d)) as [->|N]; [lra|]. left. apply exp_increasing. lra. }
  assert (V : exp b <= exp a * exp d). { rewrite <- exp_plus. destruct (Req_dec b (a + d)) as [E|N]; [rewrite <- E; lra|]. left. apply exp_increasing. lra. }
  assert (D1 : 1 <= exp d). { pose proof (exp_ineq1_le d). lra. }
  apply Rabs_le. split; [|nra]. 
  (* exp b - exp a <= exp b (1 - 1/exp d) <= exp b (exp d - 1) *)
  assert (exp b * (1 - (exp d - 1)) <= exp a); [|lra].
  assert (K : (2 - exp d) * exp d <= 1) by nra. nra.
Qed.
Lemma exp_inv : forall x, exp x * exp (- x) = 1.
Proof. intros. rewrite <- exp_plus, Rplus_opp_r. apply exp_0. Qed.
Lemma cosh_pos : forall x, 1 <= cosh x.
Proof.
  intros x. unfold cosh. pose proof (exp_pos x) as A. pose proof (exp_pos (- x)) as B. pose proof (exp_inv x) as E.
  set (a := exp x) in *. set (b := exp (- x)) in *. clearbody a b. pose proof (Rle_0_sqr (a - b)) as S. unfold Rsqr in S.
  destruct (Rle_lt_dec 2 (a + b)) as [G|G]; [lra|]. exfalso. assert ((a + b) * (a + b) < 2 * 2) by (apply Rmult_le_0_lt_compat; lra). lra.
Qed.
Lemma cosh2 : forall x, cosh x * cosh x - sinh x * sinh x = 1.
Proof. intros x. unfold cosh, sinh. rewrite <- (exp_inv x). field. Qed.
Lemma near_sinh : forall a b d, Rabs (a - b) <= d -> Rabs (sinh a - sinh b) <= cosh b * (exp d - 1) /\ Rabs (cosh a - cosh b) <= cosh b * (exp d - 1).
Proof.
  intros a b d H. pose proof (near_exp a b d H) as A.
  assert (H' : Rabs (- a - - b) <= d) by (replace (- a - - b) with (- (a - b)) by ring; rewrite Rabs_Ropp; auto).
  pose proof (near_exp (- a) (- b) d H') as B. apply Rabs_le_inv in A, B. unfold sinh, cosh. split; apply Rabs_le; lra.
Qed.
Lemma near_tanh : forall a b d, Rabs (a - b) <= d -> Rabs (tanh a - tanh b) <= exp d - 1.
Proof.
  intros a b d H. assert (D0 : 0 <= d) by (eapply Rle_trans; [apply Rabs_pos|eauto]).
  pose proof (cosh_pos a) as CA. pose proof (cosh_pos b) as CB.
  assert (E : tanh a - tanh b = sinh (a - b) / (cosh a * cosh b)).
  { unfold tanh. field_simplify_eq; [|split; lra]. unfold sinh, cosh. 
    replace (- (a - b)) with (b + - a) by ring. replace (a - b) with (a + - b) by ring. rewrite !exp_plus. field. }
  rewrite E. unfold Rdiv. rewrite Rabs_mult. assert (C1 : 1 <= cosh a * cosh b) by nra.
  rewrite Rabs_inv, (Rabs_pos_eq (cosh a * cosh b)) by nra.
  assert (I : 0 <= / (cosh a * cosh b) <= 1). { split; [left; apply Rinv_0_lt_compat; lra|]. rewrite <- Rinv_1. apply Rinv_le_contravar; lra. }
  assert (S : Rabs (sinh (a - b)) <= exp d - 1).
  { assert (Rabs (a - b - 0) <= d) by (rewrite Rminus_0_r; auto). destruct (near_sinh (a - b) 0 d H0) as [N _].
    rewrite sinh_0, cosh_0, Rminus_0_r in N. lra. }
  pose proof (Rabs_pos (sinh (a - b))). nra.
Qed.
Lemma ln_near : forall r d, 0 <= d <= / 2 -> Rabs (r - 1) <= d -> 0 < r /\ Rabs (ln r) <= 2 * d.
Proof.
  intros r d D H. apply Rabs_le_inv in H. assert (P : 0 < r) by lra. split; auto.
  assert (U : forall y, 0 < y -> ln y <= y - 1).
  { intros y Py. pose proof (exp_ineq1_le (ln y)). rewrite exp_ln in H0 by auto. lra. }
  pose proof (U r P). pose proof (U (/ r) (Rinv_0_lt_compat _ P)) as V. rewrite ln_Rinv in V by auto.
  apply Rabs_le. split; [|lra]. assert (/ r <= 1 + 2 * d); [|lra].
  apply Rmult_le_reg_l with r; auto. rewrite Rinv_r by lra. nra.
Qed.
Lemma via : forall a b c x y, Rabs (a - b) <= x -> Rabs (b - c) <= y -> Rabs (a - c) <= x + y.
Proof. intros a b c x y H1 H2. replace (a - c) with ((a - b) + (b - c)) by ring. eapply Rle_trans; [apply Rabs_triang|]. lra. Qed.

(** ** floats *)
Section F.
Context {prec emax : Z} {Hp : Prec_gt_0 prec} {He : Prec_lt_emax prec emax}.
Notation float := (binary_float prec emax).
Variable L : libm float.
Let u := bpow radix2 (- prec).
Let eta := / 2 * bpow radix2 (3 - emax - prec).

Lemma sincos_same : forall x d1 d2, hits (lm_sin L x) (sin (B2R x)) d1 -> hits (lm_cos L x) (cos (B2R x)) d1 ->
  hits (fst (lm_sincos L x)) (sin (B2R x)) d2 -> hits (snd (lm_sincos L x)) (cos (B2R x)) d2 ->
  exists s c s' c', mixed_sin (lib_sin L) x = Ok s /\ mixed_cos (lib_cos L) x = Ok c /\ mixed_sincos (lib_sin L) x = Ok (s', c') /\
  Rabs (B2R s - B2R s') <= d1 + d2 /\ Rabs (B2R c - B2R c') <= d1 + d2.
Proof.
  intros x d1 d2 [_ A] [_ B] [_ C] [_ D]. exists (lm_sin L x), (lm_cos L x), (fst (lm_sincos L x)), (snd (lm_sincos L x)).
  split; [reflexivity|]. split; [reflexivity|]. split; [cbn; destruct (lm_sincos L x); reflexivity|].
  split; eapply via; eauto; rewrite Rabs_minus_sym; auto.
Qed.

Lemma sin_asin_f : forall x d1 d2, -1 <= B2R x <= 1 ->
  hits (lm_asin L x) (asin (B2R x)) d1 -> hits (lm_sin L (lm_asin L x)) (sin (B2R (lm_asin L x))) d2 ->
  exists r, (a <- mixed_asin (lib_sin L) x ;; mixed_sin (lib_sin L) a) = Ok r /\ is_finite r = true /\ Rabs (B2R r - B2R x) <= d1 + d2.
Proof.
  intros x d1 d2 R [_ A] [F B]. eexists. split; [reflexivity|]. split; auto. rewrite Rplus_comm. eapply via; [eauto|].
  rewrite <- (sin_asin (B2R x)) at 1 by auto. eapply Rle_trans; [apply sin_lipschitz|]. auto.
Qed.
Lemma cos_acos_f : forall x d1 d2, -1 <= B2R x <= 1 ->
  hits (lm_acos L x) (acos (B2R x)) d1 -> hits (lm_cos L (lm_acos L x)) (cos (B2R (lm_acos L x))) d2 ->
  exists r, (a <- mixed_acos (lib_cos L) x ;; mixed_cos (lib_cos L) a) = Ok r /\ is_finite r = true /\ Rabs (B2R r - B2R x) <= d1 + d2.
Proof.
  intros x d1 d2 R [_ A] [F B]. eexists. split; [reflexivity|]. split; auto. rewrite Rplus_comm. eapply via; [eauto|].
  rewrite <- (cos_acos (B2R x)) at 1 by auto. eapply Rle_trans; [apply cos_lipschitz|]. auto.
Qed.
Lemma sinh_asinh_f : forall x d1 d2,
  hits (lm_asinh L x) (arcsinh (B2R x)) d1 -> hits (lm_sinh L (lm_asinh L x)) (sinh (B2R (lm_asinh L x))) d2 ->
  exists r, (a <- mixed_asinh (lib_sinh L) x ;; mixed_sinh (lib_sinh L) a) = Ok r /\ is_finite r = true /\
  Rabs (B2R r - B2R x) <= R_sqrt.sqrt (1 + B2R x * B2R x) * (exp d1 - 1) + d2.
Proof.
  intros x d1 d2 [_ A] [F B]. eexists. split; [reflexivity|]. split; auto. rewrite Rplus_comm. eapply via; [eauto|].
  rewrite <- (sinh_arcsinh (B2R x)) at 1. destruct (near_sinh _ _ _ A) as [N _].
  replace (R_sqrt.sqrt (1 + B2R x * B2R x)) with (cosh (arcsinh (B2R x))); auto.
  pose proof (cosh2 (arcsinh (B2R x))) as C. rewrite sinh_arcsinh in C. pose proof (cosh_pos (arcsinh (B2R x))).
  symmetry. apply sqrt_lem_1; nra.
Qed.
Lemma cosh_acosh_f : forall x a d1 d2, cosh a = B2R x ->
  hits (lm_acosh L x) a d1 -> hits (lm_cosh L (lm_acosh L x)) (cosh (B2R (lm_acosh L x))) d2 ->
  exists r, (a <- mixed_acosh (lib_cosh L) x ;; mixed_cosh (lib_cosh L) a) = Ok r /\ is_finite r = true /\
  Rabs (B2R r - B2R x) <= B2R x * (exp d1 - 1) + d2.
Proof.
  intros x a d1 d2 E [_ A] [F B]. eexists. split; [reflexivity|]. split; auto. rewrite Rplus_comm. eapply via; [eauto|].
  rewrite <- E. apply near_sinh; auto.
Qed.
Lemma tanh_atanh_f : forall x a d1 d2, tanh a = B2R x ->
  hits (lm_atanh L x) a d1 -> hits (lm_tanh L (lm_atanh L x)) (tanh (B2R (lm_atanh L x))) d2 ->
  exists r, (a <- mixed_atanh (lib_tanh L) x ;; mixed_tanh (lib_tanh L) a) = Ok r /\ is_finite r = true /\
  Rabs (B2R r - B2R x) <= exp d1 - 1 + d2.
Proof.
  intros x a d1 d2 E [_ A] [F B]. eexists. split; [reflexivity|]. split; auto. rewrite Rplus_comm. eapply via; [eauto|].
  rewrite <- E. apply near_tanh; auto.
Qed.

(** products of two approximations *)
Lemma prod_near : forall (t c s : float) T C S d, (5 <= prec)%Z -> (5 <= emax)%Z -> 0 <= d <= / 8 -> T * C = S -> Rabs S <= bpow radix2 (emax - 3) ->
  hits t T (d * Rabs T) -> hits c C (d * Rabs C) -> hits s S (d * Rabs S) ->
  is_finite (Bmult mode_NE t c) = true /\ Rabs (B2R (Bmult mode_NE t c) - B2R s) <= (4 * d + 2 * u) * Rabs S + eta.
Proof.
  intros t c s T C S d P5 E5 D E B [Ft At] [Fc Ac] [Fs As].
  assert (K : Rabs (B2R t * B2R c - S) <= (2 * d + d * d) * Rabs S).
  { rewrite <- E. replace (B2R t * B2R c - T * C) with ((B2R t - T) * C + T * (B2R c - C) + (B2R t - T) * (B2R c - C)) by ring.
    eapply Rle_trans; [apply Rabs_triang|]. eapply Rle_trans; [apply Rplus_le_compat_r, Rabs_triang|]. rewrite !Rabs_mult.
    pose proof (Rabs_pos T). pose proof (Rabs_pos C). pose proof (Rabs_pos (B2R t - T)). pose proof (Rabs_pos (B2R c - C)).
    assert (Rabs (B2R t - T) * Rabs C <= d * Rabs T * Rabs C) by (apply Rmult_le_compat_r; auto).
    assert (Rabs T * Rabs (B2R c - C) <= Rabs T * (d * Rabs C)) by (apply Rmult_le_compat_l; auto).
    assert (Rabs (B2R t - T) * Rabs (B2R c - C) <= (d * Rabs T) * (d * Rabs C)) by (apply Rmult_le_compat; auto). nra. }
  assert (M : Rabs (B2R t * B2R c) <= (1 + (2 * d + d * d)) * Rabs S).
  { replace (B2R t * B2R c) with (S + (B2R t * B2R c - S)) by ring. eapply Rle_trans; [apply Rabs_triang|]. lra. }
  pose proof (Rabs_pos S) as S0. assert (Q : (1 + (2 * d + d * d)) <= 13 / 10) by nra.
  assert (M2 : Rabs (B2R t * B2R c) <= bpow radix2 (emax - 2)).
  { replace (emax - 2)%Z with (emax - 3 + 1)%Z by lia. rewrite bpow_plus. change (bpow radix2 1) with 2. nra. }
  destruct (mult_r t c Ft Fc (emax - 2) ltac:(lia) M2) as [F1 V1]. split; auto.
  pose proof (@MagProofs.rnd_rel prec emax _ (B2R t * B2R c)) as Er. rewrite <- V1 in Er. fold eta in Er.
  assert (U : 0 < u) by (apply bpow_gt_0).
  set (y := B2R (Bmult mode_NE t c)) in *.
  replace (y - B2R s) with ((y - B2R t * B2R c) + (B2R t * B2R c - S) + - (B2R s - S)) by ring.
  eapply Rle_trans; [apply Rabs_triang|]. eapply Rle_trans; [apply Rplus_le_compat_r, Rabs_triang|]. rewrite Rabs_Ropp.
  assert (M3 : (1 + (2 * d + d * d)) * Rabs S <= 13 / 10 * Rabs S) by (apply Rmult_le_compat_r; auto).
  assert (EU : u * Rabs (B2R t * B2R c) <= u * (2 * Rabs S)) by (apply Rmult_le_compat_l; lra).
  assert (DD : d * d * Rabs S <= d * Rabs S) by (apply Rmult_le_compat_r; nra).
  eapply Rle_trans; [apply Rplus_le_compat; [apply Rplus_le_compat; [exact Er|exact K]|exact As]|].
  fold u. lra.
Qed.
Lemma tan_cos_f : forall x d, (5 <= prec)%Z -> (5 <= emax)%Z -> 0 <= d <= / 8 -> cos (B2R x) <> 0 ->
  hits (lm_tan L x) (tan (B2R x)) (d * Rabs (tan (B2R x))) -> hits (lm_cos L x) (cos (B2R x)) (d * Rabs (cos (B2R x))) ->
  hits (lm_sin L x) (sin (B2R x)) (d * Rabs (sin (B2R x))) ->
  exists t c s r, mixed_tan (lib_tan L) x = Ok t /\ mixed_cos (lib_cos L) x = Ok c /\ mixed_sin (lib_sin L) x = Ok s /\
  o_mul float_ops t c = Ok r /\ is_finite r = true /\ Rabs (B2R r - B2R s) <= (4 * d + 2 * u) * Rabs (sin (B2R x)) + eta.
Proof.
  intros x d P5 E5 D C0 A B C. do 4 eexists. do 4 (split; [reflexivity|]).
  apply (prod_near _ _ _ (tan (B2R x)) (cos (B2R x))); auto; [unfold tan; field; auto|].
  apply Rle_trans with 1; [apply Rabs_le; apply SIN_bound|]. change 1 with (bpow radix2 0). apply bpow_le. lia.
Qed.
Lemma tanh_cosh_f : forall x d, (5 <= prec)%Z -> (5 <= emax)%Z -> 0 <= d <= / 8 -> Rabs (sinh (B2R x)) <= bpow radix2 (emax - 3) ->
  hits (lm_tanh L x) (tanh (B2R x)) (d * Rabs (tanh (B2R x))) -> hits (lm_cosh L x) (cosh (B2R x)) (d * Rabs (cosh (B2R x))) ->
  hits (lm_sinh L x) (sinh (B2R x)) (d * Rabs (sinh (B2R x))) ->
  exists t c s r, mixed_tanh (lib_tanh L) x = Ok t /\ mixed_cosh (lib_cosh L) x = Ok c /\ mixed_sinh (lib_sinh L) x = Ok s /\
  o_mul float_ops t c = Ok r /\ is_finite r = true /\ Rabs (B2R r - B2R s) <= (4 * d + 2 * u) * Rabs (sinh (B2R x)) + eta.
Proof.
  intros x d P5 E5 D S0 A B C. do 4 eexists. do 4 (split; [reflexivity|]).
  apply (prod_near _ _ _ (tanh (B2R x)) (cosh (B2R x))); auto. unfold tanh. field. pose proof (cosh_pos (B2R x)). lra.
Qed.

(** logarithms and exponentials; [lb] is the natural logarithm of the base *)
Lemma exp_log_core : forall (lb x y r d1 d2 : R), 0 < lb -> 0 < x -> 0 <= d2 -> Rabs (y - ln x / lb) <= d1 -> Rabs (r - exp (y * lb)) <= d2 * exp (y * lb) ->
  Rabs (r - x) <= x * ((1 + d2) * exp (d1 * lb) - 1).
Proof.
  intros lb x y r d1 d2 B X D A C.
  assert (N : Rabs (y * lb - ln x) <= d1 * lb).
  { replace (y * lb - ln x) with ((y - ln x / lb) * lb) by (field; lra). rewrite Rabs_mult, (Rabs_pos_eq lb) by lra. apply Rmult_le_compat_r; lra. }
  pose proof (near_exp _ _ _ N) as E. rewrite exp_ln in E by auto.
  assert (U : exp (y * lb) <= x * exp (d1 * lb)). { apply Rabs_le_inv in E. lra. }
  eapply Rle_trans; [apply (via _ _ _ _ _ C E)|]. assert (d2 * exp (y * lb) <= d2 * (x * exp (d1 * lb))) by (apply Rmult_le_compat_l; auto). lra.
Qed.
Lemma log_exp_core : forall (lb x y r d1 d2 : R), 0 < lb -> 0 <= d2 <= / 2 -> Rabs (y - exp (x * lb)) <= d2 * exp (x * lb) ->
  Rabs (r - ln y / lb) <= d1 -> 0 < y /\ Rabs (r - x) <= d1 + 2 * d2 / lb.
Proof.
  intros lb x y r d1 d2 B D A C. pose proof (exp_pos (x * lb)) as P.
  assert (Q : Rabs (y / exp (x * lb) - 1) <= d2).
  { replace (y / exp (x * lb) - 1) with ((y - exp (x * lb)) / exp (x * lb)) by (field; lra). unfold Rdiv. rewrite Rabs_mult, Rabs_inv, (Rabs_pos_eq (exp _)) by lra.
    apply Rmult_le_reg_r with (exp (x * lb)); auto. rewrite Rmult_assoc, Rinv_l by lra. lra. }
  destruct (ln_near _ _ D Q) as [Y K].
  assert (Y0 : 0 < y). { replace y with (y / exp (x * lb) * exp (x * lb)) by (field; lra). apply Rmult_lt_0_compat; auto. }
  split; auto. eapply via; [exact C|]. unfold Rdiv at 1 in K. rewrite ln_mult, ln_Rinv, ln_exp in K by (auto; apply Rinv_0_lt_compat; auto).
  replace (ln y / lb - x) with ((ln y + - (x * lb)) / lb) by (field; lra). unfold Rdiv. rewrite Rabs_mult, Rabs_inv, (Rabs_pos_eq lb) by lra.
  apply Rmult_le_compat_r; auto. left. apply Rinv_0_lt_compat; auto.
Qed.
Lemma ln2_pos : 0 < ln 2.
Proof. rewrite <- ln_1. apply ln_increasing; lra. Qed.
Lemma ln10_pos : 0 < ln 10.
Proof. rewrite <- ln_1. apply ln_increasing; lra. Qed.

Lemma exp_log_f : forall x d1 d2, 0 < B2R x -> 0 <= d2 ->
  (hits (lm_log L x) (ln (B2R x)) d1 -> let y := lm_log L x in hits (lm_exp L y) (exp (B2R y)) (d2 * exp (B2R y)) ->
   exists r, (a <- mixed_log (lib_log L) x ;; mixed_exp (lib_exp L) a) = Ok r /\ is_finite r = true /\ Rabs (B2R r - B2R x) <= B2R x * ((1 + d2) * exp d1 - 1)) /\
  (hits (lm_log2 L x) (ln (B2R x) / ln 2) d1 -> let y := lm_log2 L x in hits (lm_exp2 L y) (Rpower 2 (B2R y)) (d2 * Rpower 2 (B2R y)) ->
   exists r, (a <- mixed_log2 (lib_log2 L) x ;; mixed_exp2 (lib_exp2 L) a) = Ok r /\ is_finite r = true /\ Rabs (B2R r - B2R x) <= B2R x * ((1 + d2) * exp (d1 * ln 2) - 1)) /\
  (hits (lm_log10 L x) (ln (B2R x) / ln 10) d1 -> let y := lm_log10 L x in hits (lm_exp10 L y) (Rpower 10 (B2R y)) (d2 * Rpower 10 (B2R y)) ->
   exists r, (a <- mixed_log10 (lib_log10 L) x ;; mixed_exp10 (lib_exp10 L) a) = Ok r /\ is_finite r = true /\ Rabs (B2R r - B2R x) <= B2R x * ((1 + d2) * exp (d1 * ln 10) - 1)).
Proof.
  intros x d1 d2 X D. pose proof ln2_pos. pose proof ln10_pos. split; [|split]; intros [_ A] y [F C]; (eexists; split; [reflexivity|]; split; [auto|]).
  - replace d1 with (d1 * 1) by ring. apply (exp_log_core 1 (B2R x) (B2R y)); auto; [lra| |]; rewrite ?Rdiv_1, ?Rmult_1_r; auto.
    unfold Rdiv. rewrite Rinv_1, Rmult_1_r. auto.
  - apply (exp_log_core (ln 2) (B2R x) (B2R y)); auto.
  - apply (exp_log_core (ln 10) (B2R x) (B2R y)); auto.
Qed.
Lemma log_exp_f : forall x d1 d2, 0 <= d2 <= / 2 ->
  (let y := lm_exp L x in hits y (exp (B2R x)) (d2 * exp (B2R x)) -> hits (lm_log L y) (ln (B2R y)) d1 ->
   exists r, (a <- mixed_exp (lib_exp L) x ;; mixed_log (lib_log L) a) = Ok r /\ is_finite r = true /\ Rabs (B2R r - B2R x) <= d1 + 2 * d2) /\
  (let y := lm_exp2 L x in hits y (Rpower 2 (B2R x)) (d2 * Rpower 2 (B2R x)) -> hits (lm_log2 L y) (ln (B2R y) / ln 2) d1 ->
   exists r, (a <- mixed_exp2 (lib_exp2 L) x ;; mixed_log2 (lib_log2 L) a) = Ok r /\ is_finite r = true /\ Rabs (B2R r - B2R x) <= d1 + 2 * d2 / ln 2) /\
  (let y := lm_exp10 L x in hits y (Rpower 10 (B2R x)) (d2 * Rpower 10 (B2R x)) -> hits (lm_log10 L y) (ln (B2R y) / ln 10) d1 ->
   exists r, (a <- mixed_exp10 (lib_exp10 L) x ;; mixed_log10 (lib_log10 L) a) = Ok r /\ is_finite r = true /\ Rabs (B2R r - B2R x) <= d1 + 2 * d2 / ln 10).
Proof.
  intros x d1 d2 D. pose proof ln2_pos. pose proof ln10_pos. split; [|split]; intros y [_ A] [F C]; (eexists; split; [reflexivity|]; split; [auto|]).
  - replace (2 * d2) with (2 * d2 / 1) by field. apply (log_exp_core 1 (B2R x) (B2R y)); auto; [lra| |]; rewrite ?Rmult_1_r; auto.
    unfold Rdiv. rewrite Rinv_1, Rmult_1_r. auto.
  - apply (log_exp_core (ln 2) (B2R x) (B2R y)); auto.
  - apply (log_exp_core (ln 10) (B2R x) (B2R y)); auto.
Qed.

(** integer powers by the two routes *)
Let inside (v : R) := bpow radix2 (3 - emax) <= Rabs v <= bpow radix2 (emax - 2).
Lemma pow_powi_f : (3 <= emax)%Z -> forall x n d, is_finite x = true -> (1 <= n < 2 ^ 31)%Z -> inside (B2R x) -> inside (B2R x ^ Z.to_nat n) -> IZR (n - 1) * u <= / 2 ->
  hits (lm_pow L x (float_of_Z prec emax n)) (B2R x ^ Z.to_nat n) (d * Rabs (B2R x ^ Z.to_nat n)) ->
  exists a b, (y <- mixed_from_num (float_conv_int i32) n ;; mixed_pow (lib_pow L) x y) = Ok a /\ mixed_powi float_powi x n = Ok b /\
  Rabs (B2R a - B2R b) <= (d + 2 * (IZR (n - 1) * u)) * Rabs (B2R x ^ Z.to_nat n).
Proof.
  intros E3 x n d F N I1 I2 S [Fp A]. destruct (@powi_acc_pos prec emax _ _ E3 x n F N I1 I2 S) as (b & Eb & Fb & B). fold u in B.
  eexists. exists b. split; [reflexivity|]. split; auto. rewrite Rmult_plus_distr_r. eapply via; [eauto|]. rewrite Rabs_minus_sym. auto.
Qed.

Lemma cbrt_cube_f : (5 <= prec)%Z -> (8 <= emax)%Z -> forall x c d, is_finite x = true -> c * c * c = B2R x ->
  bpow radix2 (5 - emax) <= Rabs (B2R x) <= bpow radix2 (emax - 3) -> 0 <= d <= / 8 -> hits (lm_cbrt L x) c (d * Rabs c) ->
  exists r, (y <- mixed_cbrt (lib_cbrt L) x ;; mixed_powi float_powi y 3) = Ok r /\ is_finite r = true /\
  Rabs (B2R r - B2R x) <= (4 * d + 6 * u) * Rabs (B2R x).
Proof.
  intros P5 E8 x c d F C X D [Fy A]. set (y := lm_cbrt L x) in *. set (yv := B2R y) in *.
  assert (AX : Rabs (B2R x) = Rabs c * Rabs c * Rabs c) by (rewrite <- C, !Rabs_mult; reflexivity).
  set (k := Rabs c) in *. assert (K0 : 0 <= k) by apply Rabs_pos.
  set (t := Rabs yv). assert (T : (1 - d) * k <= t <= (1 + d) * k).
  { unfold t. pose proof (Rabs_triang_inv yv c) as T1. pose proof (Rabs_triang_inv c yv) as T2. rewrite (Rabs_minus_sym c yv) in T2. fold k in T1, T2. split; lra. }
  assert (T0 : 0 <= t) by apply Rabs_pos.
  assert (W : Rabs (yv ^ Z.to_nat 3) = t * t * t). { change (Z.to_nat 3) with 3%nat. cbn [pow]. rewrite Rmult_1_r, !Rabs_mult. fold t. ring. }
  set (lo := bpow radix2 (3 - emax)) in *. set (hi := bpow radix2 (emax - 2)) in *.
  assert (L0 : 0 < lo) by apply bpow_gt_0.
  assert (XL : 4 * lo <= k * k * k). { rewrite <- AX. apply Rle_trans with (2 := proj1 X). unfold lo. change 4 with (bpow radix2 2). rewrite <- bpow_plus. apply bpow_le. lia. }
  assert (XH : k * k * k <= hi / 2). { rewrite <- AX. apply Rle_trans with (1 := proj2 X). unfold hi. replace (emax - 2)%Z with (emax - 3 + 1)%Z by lia. rewrite bpow_plus. change (bpow radix2 1) with 2. lra. }
  assert (LO : lo <= / 4). { unfold lo. change (/ 4) with (bpow radix2 (-2)). apply bpow_le. lia. }
  assert (HI : 64 <= hi). { unfold hi. change 64 with (bpow radix2 6). apply bpow_le. lia. }
  assert (KT : 7 / 8 * k <= t <= 9 / 8 * k) by (split; nra).
  assert (KK : 0 <= k * k) by nra. assert (KKK : 0 <= k * k * k) by nra.
  assert (TT : 49 / 64 * (k * k) <= t * t <= 81 / 64 * (k * k)) by (split; nra).
  assert (TTT : 343 / 512 * (k * k * k) <= t * t * t <= 729 / 512 * (k * k * k)).
  { split.
    - apply Rle_trans with ((49 / 64 * (k * k)) * (7 / 8 * k)); [lra|]. apply Rmult_le_compat; nra.
    - apply Rle_trans with ((81 / 64 * (k * k)) * (9 / 8 * k)); [|lra]. apply Rmult_le_compat; nra. }
  assert (I2 : inside (yv ^ Z.to_nat 3)) by (unfold inside; rewrite W; fold lo hi; lra).
  assert (I1 : inside yv).
  { unfold inside. fold t lo hi. destruct (Rle_lt_dec 1 k) as [G|G].
    - assert (k <= k * k * k) by nra. split; lra.
    - assert (k * k * k <= k) by nra. split; lra. }
  assert (U0 : 0 < u) by apply bpow_gt_0.
  assert (U1 : u <= / 32). { unfold u. change (/ 32) with (bpow radix2 (-5)). apply bpow_le. lia. }
  destruct (@powi_acc_pos prec emax _ _ ltac:(lia) y 3 Fy ltac:(lia) I1 I2) as (r & Er & Fr & B).
  { fold u. change (IZR (3 - 1)) with 2. lra. }
  fold u yv in B. rewrite W in B. change (IZR (3 - 1)) with 2 in B.
  exists r. split; [exact Er|]. split; auto.
  assert (Q : Rabs (yv ^ Z.to_nat 3 - B2R x) <= (3 * d + 3 * d * d + d * d * d) * (k * k * k)).
  { change (Z.to_nat 3) with 3%nat. cbn [pow]. rewrite Rmult_1_r, <- C.
    set (z := yv - c) in *. replace (yv * (yv * yv) - c * c * c) with (3 * (c * c * z) + 3 * (c * (z * z)) + z * z * z) by (unfold z; ring).
    eapply Rle_trans; [apply Rabs_triang|]. eapply Rle_trans; [apply Rplus_le_compat_r, Rabs_triang|]. rewrite !Rabs_mult, (Rabs_pos_eq 3) by lra. fold k.
    set (zz := Rabs z) in *. assert (0 <= zz) by apply Rabs_pos.
    assert (zz * zz <= (d * k) * (d * k)) by (apply Rmult_le_compat; auto).
    assert (zz * zz * zz <= (d * k) * (d * k) * (d * k)) by (apply Rmult_le_compat; auto; nra).
    assert (k * k * zz <= k * k * (d * k)) by (apply Rmult_le_compat_l; auto).
    assert (k * (zz * zz) <= k * ((d * k) * (d * k))) by (apply Rmult_le_compat_l; auto). lra. }
  rewrite AX. 
  assert (DD : 3 * d + 3 * d * d + d * d * d <= 4 * d) by nra.
  assert (Q2 : (3 * d + 3 * d * d + d * d * d) * (k * k * k) <= 4 * d * (k * k * k)) by (apply Rmult_le_compat_r; auto).
  assert (B2 : 2 * (2 * u) * (t * t * t) <= 2 * (2 * u) * (729 / 512 * (k * k * k))) by (apply Rmult_le_compat_l; lra).
  assert (0 <= u * (k * k * k)) by (apply Rmult_le_pos; lra).
  eapply Rle_trans; [eapply via; [exact B|exact Q]|]. lra.
Qed.

End F.

(** ** fixed point *)
Lemma sincos_fixed : forall f (C : cordic) x d1 d2 s' c', hits_fixed f (cd_sin C x) (sin (fval f x)) d1 -> hits_fixed f (cd_cos C x) (cos (fval f x)) d1 ->
  cd_sincos C x = Ok (s', c') -> Rabs (fval f s' - sin (fval f x)) <= d2 -> Rabs (fval f c' - cos (fval f x)) <= d2 ->
  exists s c, mixed_sin (cordic_sin C) x = Ok s /\ mixed_cos (cordic_cos C) x = Ok c /\ mixed_sincos (cordic_sin C) x = Ok (s', c') /\
  Rabs (fval f s - fval f s') <= d1 + d2 /\ Rabs (fval f c - fval f c') <= d1 + d2.
Proof.
  intros f C x d1 d2 s' c' (s & E1 & A) (c & E2 & B) E A' B'. exists s, c. do 3 (split; [assumption|]).
  split; eapply via; eauto; rewrite Rabs_minus_sym; auto.
Qed.
Lemma asin_fixed : forall f (C : cordic) x d1 d2, -1 <= fval f x <= 1 ->
  (hits_fixed f (cd_asin C x) (asin (fval f x)) d1 -> (forall a, cd_asin C x = Ok a -> hits_fixed f (cd_sin C a) (sin (fval f a)) d2) ->
   exists r, (a <- mixed_asin (cordic_sin C) x ;; mixed_sin (cordic_sin C) a) = Ok r /\ Rabs (fval f r - fval f x) <= d1 + d2) /\
  (hits_fixed f (cd_acos C x) (acos (fval f x)) d1 -> (forall a, cd_acos C x = Ok a -> hits_fixed f (cd_cos C a) (cos (fval f a)) d2) ->
   exists r, (a <- mixed_acos (cordic_cos C) x ;; mixed_cos (cordic_cos C) a) = Ok r /\ Rabs (fval f r - fval f x) <= d1 + d2).
Proof.
  intros f C x d1 d2 R. split; intros (a & E & A) B; destruct (B a E) as (r & E2 & K); exists r; cbn [mixed_asin mixed_acos mixed_sin mixed_cos cordic_sin cordic_cos];
  rewrite E; cbn [bind]; (split; [assumption|]); rewrite Rplus_comm; (eapply via; [eauto|]).
  - rewrite <- (sin_asin (fval f x)) at 1 by auto. eapply Rle_trans; [apply sin_lipschitz|]. auto.
  - rewrite <- (cos_acos (fval f x)) at 1 by auto. eapply Rle_trans; [apply cos_lipschitz|]. auto.
Qed.

(** correctly rounded routines hit *)
Lemma nearest_hits : forall p e (Hp : Prec_gt_0 p) (He : Prec_lt_emax p e) v, (3 <= e)%Z ->
  (bpow radix2 (3 - e) <= Rabs v <= bpow radix2 (e - 1) -> hits (nearest_float v : binary_float p e) v (bpow radix2 (- p) * Rabs v)) /\
  (Rabs v <= bpow radix2 (e - 1) -> hits (nearest_float v : binary_float p e) v (bpow radix2 (- p) * Rabs v + / 2 * bpow radix2 (3 - e - p))).
Proof.
  intros p e Hp He v E3.
  assert (K : Rabs v <= bpow radix2 (e - 1) -> is_finite (nearest_float v : binary_float p e) = true /\ B2R (nearest_float v : binary_float p e) = round radix2 (SpecFloat.fexp p e) ZnearestE v).
  { intros V. pose proof (@DbProofs.nearest_ok p e Hp He v) as N. rewrite Rlt_bool_true in N; auto.
    apply (rnd_fits _ (e - 1)); [exact V|lia]. }
  split; intros V.
  - destruct (K (proj2 V)) as [A B]. split; auto. rewrite B. apply DbProofs.normal_rel. apply Rle_trans with (2 := proj1 V). apply bpow_le. lia.
  - destruct (K V) as [A B]. split; auto. rewrite B. apply MagProofs.rnd_rel.
Qed.
