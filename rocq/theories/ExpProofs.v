(** * The complex exponential on floats: accuracy, law of exponents, inverse, Euler's identity. *)

From Coq Require Import ZArith Reals Lra Lia Psatz.
From Flocq Require Import Core.Core IEEE754.BinarySingleNaN Relative.
From Verif Require Import Base FloatBase Traits Trig FloatImpl Complex Spec SpecFilter SpecRotor SpecFloatPolar SpecDb SpecExp
  FloatKit FilterProofs FloatFilter FloatArith FloatSum MagProofs SinReal SinFloat PolarProofs WrapProofs2 FloatWrap2 RotorProofs DbProofs.
Open Scope Z_scope.

Section Real.
Open Scope R_scope.
Lemma cexp_eq : forall z, cexp z = cmul (exp (fst z), 0) (cis (snd z)).
Proof. intros [a b]. unfold cexp, cmul, cis. cbn [fst snd]. f_equal; ring. Qed.
Lemma cabs_real : forall a, cabs (a, 0) = Rabs a.
Proof. intros a. unfold cabs. cbn [fst snd]. replace (a * a + 0 * 0) with (Rsqr a) by (unfold Rsqr; ring). apply sqrt_Rsqr_abs. Qed.
Lemma cexp_abs : forall z, cabs (cexp z) = exp (fst z).
Proof. intros z. rewrite cexp_eq, cabs_cmul, cis_abs, cabs_real, Rabs_pos_eq by (left; apply exp_pos). ring. Qed.
Lemma cexp_add : forall z w, cmul (cexp z) (cexp w) = cexp (fst z + fst w, snd z + snd w).
Proof. intros [a b] [c d]. unfold cexp, cmul. cbn [fst snd]. rewrite exp_plus, cos_plus, sin_plus. f_equal; ring. Qed.
Lemma exp_small : forall t, Rabs t <= / 200 -> Rabs (exp t - 1) <= 101 / 100 * Rabs t.
Proof.
  intros t T. pose proof (exp_ineq1_le t) as E1. pose proof (exp_ineq1_le (- t)) as E2.
  assert (E3 : exp t * exp (- t) = 1) by (rewrite <- exp_plus, Rplus_opp_r; apply exp_0).
  pose proof (exp_pos t). pose proof (exp_pos (- t)). set (b := Rabs t) in *. assert (B0 : 0 <= b) by apply Rabs_pos.
  assert (TB : - b <= t <= b) by (apply Rabs_le_inv, Rle_refl).
  assert (U : exp t * (1 - t) <= 1) by nra. assert (U2 : exp t * (1 - b) <= 1) by nra.
  apply Rabs_le. split; [lra|]. assert (K : 1 <= (1 + 101 / 100 * b) * (1 - b)) by nra.
  assert (K2 : exp t * (1 - b) <= (1 + 101 / 100 * b) * (1 - b)) by lra. apply Rmult_le_reg_r in K2; lra.
Qed.
(** a shift of the argument *)
Lemma cexp_near : forall z w, Rabs (fst z - fst w) <= / 200 ->
  cabs (csub (cexp z) (cexp w)) <= (102 / 100 * (Rabs (fst z - fst w) + 15 / 10 * Rabs (snd z - snd w))) * exp (fst w).
Proof.
  intros [a b] [c d] H. cbn [fst snd] in *. rewrite !cexp_eq. cbn [fst snd].
  eapply Rle_trans; [apply cmul_diff|]. rewrite cis_abs.
  assert (E : Rabs (exp a - exp c) <= 101 / 100 * Rabs (a - c) * exp c).
  { replace a with (c + (a - c)) at 1 by ring. rewrite exp_plus. replace (exp c * exp (a - c) - exp c) with (exp c * (exp (a - c) - 1)) by ring.
    rewrite Rabs_mult, (Rabs_pos_eq (exp c)) by (left; apply exp_pos). pose proof (exp_small _ H). pose proof (exp_pos c). nra. }
  replace (csub (exp a, 0) (exp c, 0)) with (exp a - exp c, 0) by (unfold csub; cbn [fst snd]; f_equal; ring).
  rewrite !cabs_real, (Rabs_pos_eq (exp c)) by (left; apply exp_pos).
  assert (C : cabs (csub (cis b) (cis d)) <= 14143 / 10000 * Rabs (b - d)).
  { apply cis_near; [apply sin_lipschitz | apply cos_lipschitz]. }
  pose proof (exp_pos c). pose proof (Rabs_pos (a - c)). pose proof (Rabs_pos (b - d)).
  assert (exp c * cabs (csub (cis b) (cis d)) <= exp c * (14143 / 10000 * Rabs (b - d))) by (apply Rmult_le_compat_l; lra). nra.
Qed.
Lemma cabs_mono : forall a b c d, Rabs a <= c -> Rabs b <= d -> cabs (a, b) <= cabs (c, d).
Proof.
  intros a b c d A B. unfold cabs. cbn [fst snd]. apply sqrt_le_1_alt. apply Rabs_le_inv in A. apply Rabs_le_inv in B. nra.
Qed.
Lemma cabs_rel : forall a b v w u h, 0 <= u -> 0 <= h -> Rabs a <= u * Rabs v + h -> Rabs b <= u * Rabs w + h -> cabs (a, b) <= u * cabs (v, w) + 14143 / 10000 * h.
Proof.
  intros a b v w u h U H A B. eapply Rle_trans; [apply (cabs_mono _ _ _ _ A B)|]. eapply Rle_trans; [apply cabs_tri|].
  apply Rplus_le_compat; [|apply cabs_two; rewrite Rabs_pos_eq; lra].
  right. unfold cabs. cbn [fst snd]. replace (u * Rabs v * (u * Rabs v) + u * Rabs w * (u * Rabs w)) with ((u * u) * (v * v + w * w)).
  - rewrite sqrt_mult_alt by nra. rewrite sqrt_square by auto. reflexivity.
  - pose proof (Rsqr_abs v) as V. pose proof (Rsqr_abs w) as W. unfold Rsqr in *. nra.
Qed.
End Real.

Section Float.
Context {prec emax : Z} {Hp : Prec_gt_0 prec} {He : Prec_lt_emax prec emax}.
Notation float := (binary_float prec emax).
Notation fexp := (SpecFloat.fexp prec emax).
Notation rnd := (round radix2 fexp ZnearestE).
Notation u := (bpow radix2 (- prec)).
Notation eta := (bpow radix2 (3 - emax - prec)).
Notation fv := (@cvalf prec emax).
Hypothesis P24 : 24 <= prec.
Hypothesis E128 : 128 <= emax.
Hypothesis EM : emax + prec <= 1100.
Let Vexp : Valid_exp fexp := fexp_correct prec emax _.

Lemma us : (0 < u <= / 10000000)%R.
Proof using P24. split; [apply bpow_gt_0|]. apply Rle_trans with (bpow radix2 (-24)); [apply bpow_le; lia|]. change (bpow radix2 (-24)) with (/ 16777216)%R. lra. Qed.
Lemma eta_rel : forall v, (bpow radix2 (3 - emax) <= v -> eta <= u * v)%R.
Proof. intros v H. replace (3 - emax - prec) with (- prec + (3 - emax)) by ring. rewrite bpow_plus. apply Rmult_le_compat_l; [apply bpow_ge_0 | auto]. Qed.

Lemma exp_acc_float : forall (Sn : MixedSin float) (E : MixedExp float) b d g, accurate_sincos_float b d Sn -> exp_within g E -> (0 <= d <= / 1000)%R -> (0 <= g <= / 1000)%R ->
  forall z : Cartesian float, cfin z -> (Rabs (B2R (im z)) <= b)%R -> (bpow radix2 (3 - emax) <= exp (B2R (re z)) <= bpow radix2 (emax - 3))%R ->
  exists r, cartesian_exp float_ops Sn E z = Ok r /\ cfin r /\ (cabs (csub (fv r) (cexp (fv z))) <= exp_err prec d g * exp (B2R (re z)))%R.
Proof using P24 E128 Vexp.
  intros Sn E b d g HS HE D G z [Fr Fi] B X. pose proof us as U.
  destruct (HS _ Fi B) as (s & c & Es & Fs & Fc & As & Ac).
  assert (X' : (bpow radix2 (3 - emax) <= exp (B2R (re z)) <= bpow radix2 (emax - 1))%R) by (split; [apply X | apply Rle_trans with (1 := proj2 X); apply bpow_le; lia]).
  destruct (HE _ Fr X') as (e & Ee & Fe & Ae). set (x := exp (B2R (re z))) in *. set (t := B2R (im z)) in *.
  assert (X0 : (0 < x)%R) by apply exp_pos. pose proof (eta_rel x (proj1 X)) as ET.
  assert (N0 : (cabs (csub (B2R c, B2R s) (cis t)) <= 14143 / 10000 * d)%R) by (apply cis_near; auto).
  assert (N1 : (cabs (B2R c, B2R s) <= 1 + 14143 / 10000 * d)%R) by (pose proof (cabs_via (B2R c, B2R s) (cis t)) as V; rewrite cis_abs in V; lra).
  pose proof (cabs_fst (B2R c, B2R s)) as C1. pose proof (cabs_snd (B2R c, B2R s)) as C2. cbn [fst snd] in C1, C2.
  assert (EB : (Rabs (B2R e) <= 1001 / 1000 * x)%R).
  { replace (B2R e) with ((B2R e - x) + x)%R by ring. eapply Rle_trans; [apply Rabs_triang|]. rewrite (Rabs_pos_eq x) by lra.
    assert (g * x <= / 1000 * x)%R by (apply Rmult_le_compat_r; lra). lra. }
  assert (K : forall v, (Rabs v <= 2 -> Rabs (v * B2R e) <= bpow radix2 (emax - 1))%R).
  { intros v V. rewrite Rabs_mult. replace (emax - 1) with ((emax - 3) + 2) by ring. rewrite bpow_plus. change (bpow radix2 2) with 4%R.
    apply Rle_trans with (2 * (1001 / 1000 * x))%R; [apply Rmult_le_compat; auto; apply Rabs_pos | lra]. }
  destruct (mult_r c e Fc Fe (emax - 1)) as [F1 V1]; [lia | apply K; lra |].
  destruct (mult_r s e Fs Fe (emax - 1)) as [F2 V2]; [lia | apply K; lra |].
  exists (mkC (Bmult mode_NE c e) (Bmult mode_NE s e)). split; [|split; [split; auto|]].
  { unfold cartesian_exp. rewrite Es. cbn [bind fst snd]. rewrite Ee. reflexivity. }
  change (fv (mkC (Bmult mode_NE c e) (Bmult mode_NE s e))) with (B2R (Bmult mode_NE c e), B2R (Bmult mode_NE s e)). rewrite V1, V2.
  eapply Rle_trans; [apply (csub_tri _ (B2R c * B2R e, B2R s * B2R e)%R)|].
  assert (Q1 : (cabs (csub (rnd (B2R c * B2R e), rnd (B2R s * B2R e)) (B2R c * B2R e, B2R s * B2R e)) <= u * cabs (B2R c * B2R e, B2R s * B2R e) + 14143 / 10000 * (/ 2 * eta))%R).
  { unfold csub. cbn [fst snd]. apply cabs_rel; try lra; try (apply rnd_rel). apply Rmult_le_pos; [lra | apply bpow_ge_0]. }
  replace (B2R c * B2R e, B2R s * B2R e)%R with (cmul (B2R c, B2R s) (B2R e, 0%R)) in * by (unfold cmul; cbn [fst snd]; f_equal; ring).
  rewrite cabs_cmul, cabs_real in Q1.
  assert (Q2 : (cabs (csub (cmul (B2R c, B2R s) (B2R e, 0)) (cexp (fv z))) <= 14143 / 10000 * d * (1001 / 1000 * x) + g * x)%R).
  { rewrite cexp_eq. unfold cvalf. cbn [fst snd]. fold x t. replace (cmul (x, 0%R) (cis t)) with (cmul (cis t) (x, 0%R)) by (unfold cmul; cbn [fst snd]; f_equal; ring).
    eapply Rle_trans; [apply cmul_diff|]. rewrite cis_abs. replace (csub (B2R e, 0%R) (x, 0%R)) with (B2R e - x, 0)%R by (unfold csub; cbn [fst snd]; f_equal; ring).
    rewrite !cabs_real. apply Rplus_le_compat; [|lra]. apply Rmult_le_compat; auto; [apply cabs_pos | apply Rabs_pos]. }
  assert (Q3 : (cabs (B2R c, B2R s) * Rabs (B2R e) <= (1 + 14143 / 10000 * d) * (1001 / 1000 * x))%R) by (apply Rmult_le_compat; auto; [apply cabs_pos | apply Rabs_pos]).
  assert (Q4 : ((1 + 14143 / 10000 * d) * (1001 / 1000 * x) <= 101 / 100 * x)%R) by nra.
  assert (Q5 : (u * (cabs (B2R c, B2R s) * Rabs (B2R e)) <= u * (101 / 100 * x))%R) by (apply Rmult_le_compat_l; lra).
  unfold exp_err. assert (0 <= d * x)%R by (apply Rmult_le_pos; lra). assert (0 <= g * x)%R by (apply Rmult_le_pos; lra). assert (0 <= u * x)%R by (apply Rmult_le_pos; lra).
  eapply Rle_trans; [apply Rplus_le_compat; [exact Q1 | exact Q2]|]. lra.
Qed.

(** length of the computed exponential *)
Lemma exp_len_float : forall (Sn : MixedSin float) (E : MixedExp float) b d g, accurate_sincos_float b d Sn -> exp_within g E -> (0 <= d <= / 1000)%R -> (0 <= g <= / 1000)%R ->
  forall z r : Cartesian float, cfin z -> (Rabs (B2R (im z)) <= b)%R -> (bpow radix2 (3 - emax) <= exp (B2R (re z)) <= bpow radix2 (emax - 3))%R ->
  cartesian_exp float_ops Sn E z = Ok r -> (Rabs (cabs (fv r) - exp (B2R (re z))) <= exp_err prec d g * exp (B2R (re z)))%R.
Proof using P24 E128 Vexp.
  intros Sn E b d g HS HE D G z r F B X Er. destruct (exp_acc_float Sn E b d g HS HE D G z F B X) as (r' & Er' & _ & A).
  rewrite Er in Er'. injection Er' as <-. change (exp (B2R (re z))) with (exp (fst (fv z))) at 1. rewrite <- cexp_abs.
  apply Rle_trans with (2 := A). apply cabs_diff.
Qed.

Lemma exp_range : forall v, (bpow radix2 (3 - emax) <= exp v <= bpow radix2 (emax - 3) -> Rabs v <= 3000)%R.
Proof using E128 EM P24.
  intros v [A B]. pose proof ln10_bounds as L. assert (V : v = (log10 (exp v) * ln 10)%R) by (unfold log10; rewrite ln_exp; field; lra).
  rewrite V, Rabs_mult, (Rabs_pos_eq (ln 10)) by lra.
  assert (Rabs (log10 (exp v)) <= IZR emax)%R.
  { apply log10_bpow; [lia|]. split; [apply Rle_trans with (2 := A) | apply Rle_trans with (1 := B)]; apply bpow_le; lia. }
  assert (IZR emax <= 1100)%R by (apply IZR_le; lia). pose proof (Rabs_pos (log10 (exp v))). nra.
Qed.
Lemma err_small : forall d g, (0 <= d <= / 1000 -> 0 <= g <= / 1000 -> 0 <= exp_err prec d g <= 25 / 10000)%R.
Proof using P24. intros d g D G. pose proof us. unfold exp_err. lra. Qed.

(** product of the exponentials of two numbers *)
Lemma exp_prod : forall (Sn : MixedSin float) (E : MixedExp float) b d g, accurate_sincos_float b d Sn -> exp_within g E -> (0 <= d <= / 1000)%R -> (0 <= g <= / 1000)%R ->
  forall k (z w : Cartesian float), 1 <= k -> 2 * k + 1 < emax -> cfin z -> cfin w -> (Rabs (B2R (im z)) <= b)%R -> (Rabs (B2R (im w)) <= b)%R ->
  (bpow radix2 (3 - emax) <= exp (B2R (re z)) <= bpow radix2 (k - 1))%R -> (bpow radix2 (3 - emax) <= exp (B2R (re w)) <= bpow radix2 (k - 1))%R ->
  (bpow radix2 (3 - emax) <= exp (B2R (re z) + B2R (re w)))%R ->
  exists p, (x <- cartesian_exp float_ops Sn E z ;; y <- cartesian_exp float_ops Sn E w ;; cartesian_mul float_ops x y) = Ok p /\ cfin p /\
  (cabs (csub (fv p) (cexp (B2R (re z) + B2R (re w), B2R (im z) + B2R (im w)))) <= (201 / 100 * exp_err prec d g + 7 * u) * exp (B2R (re z) + B2R (re w)))%R.
Proof using P24 E128 Vexp.
  intros Sn E b d g HS HE D G k z w K1 K2 Fz Fw Bz Bw Xz Xw Xs. pose proof us as U. pose proof (err_small d g D G) as ES.
  assert (T : forall v, (v <= bpow radix2 (k - 1) -> v <= bpow radix2 (emax - 3))%R) by (intros v V; apply Rle_trans with (1 := V); apply bpow_le; lia).
  destruct (exp_acc_float Sn E b d g HS HE D G z Fz Bz) as (x & Ex & Fx & Ax); [split; [apply Xz | apply T, Xz]|].
  destruct (exp_acc_float Sn E b d g HS HE D G w Fw Bw) as (y & Ey & Fy & Ay); [split; [apply Xw | apply T, Xw]|].
  set (r := exp_err prec d g) in *.
  assert (Lx : (cabs (fv x) <= exp (B2R (re z)) + cabs (csub (fv x) (cexp (fv z))))%R) by (change (B2R (re z)) with (fst (fv z)); rewrite <- (cexp_abs (fv z)); apply cabs_via).
  assert (Ly : (cabs (fv y) <= exp (B2R (re w)) + cabs (csub (fv y) (cexp (fv w))))%R) by (change (B2R (re w)) with (fst (fv w)); rewrite <- (cexp_abs (fv w)); apply cabs_via).
  rewrite exp_plus in *.
  set (p := exp (B2R (re z))) in *. set (q := exp (B2R (re w))) in *. assert (P0 : (0 < p)%R) by apply exp_pos. assert (Q0 : (0 < q)%R) by apply exp_pos.
  assert (LX : (cabs (fv x) <= (1 + r) * p)%R) by lra. assert (LY : (cabs (fv y) <= (1 + r) * q)%R) by lra.
  assert (TK : forall v, (0 < v <= bpow radix2 (k - 1) -> (1 + r) * v <= bpow radix2 k)%R).
  { intros v V. replace k with ((k - 1) + 1) by ring. rewrite bpow_plus. change (bpow radix2 1) with 2%R. nra. }
  destruct (float_mul_near (prec := prec) (emax := emax) ltac:(lia) k ltac:(lia) K2 x y Fx Fy) as (m & Em & Fm & Am).
  { apply Rle_trans with (1 := LX). apply TK. lra. } { apply Rle_trans with (1 := LY). apply TK. lra. }
  exists m. split; [rewrite Ex; cbn [bind]; rewrite Ey; exact Em|]. split; auto.
  pose proof (eta_rel (p * q) Xs) as ET.
  change (cexp (B2R (re z) + B2R (re w), B2R (im z) + B2R (im w))%R) with (cexp (fst (fv z) + fst (fv w), snd (fv z) + snd (fv w))%R). rewrite <- cexp_add.
  eapply Rle_trans; [apply (csub_tri _ (cmul (fv x) (fv y)))|].
  pose proof (cmul_diff (fv x) (fv y) (cexp (fv z)) (cexp (fv w))) as CD. rewrite (cexp_abs (fv z)) in CD. change (exp (fst (fv z))) with p in CD.
  pose proof (cabs_pos (fv x)). pose proof (cabs_pos (fv y)). pose proof (cabs_pos (csub (fv x) (cexp (fv z)))).
  assert (Q1 : (cabs (csub (fv x) (cexp (fv z))) * cabs (fv y) <= (r * p) * ((1 + r) * q))%R) by (apply Rmult_le_compat; auto).
  assert (Q2 : (p * cabs (csub (fv y) (cexp (fv w))) <= p * (r * q))%R) by (apply Rmult_le_compat_l; lra).
  assert (Q3 : (cabs (fv x) * cabs (fv y) <= ((1 + r) * p) * ((1 + r) * q))%R) by (apply Rmult_le_compat; auto).
  assert (PQ : (0 < p * q)%R) by (apply Rmult_lt_0_compat; auto).
  replace (((1 + r) * p) * ((1 + r) * q))%R with ((1 + r) * (1 + r) * (p * q))%R in Q3 by ring.
  replace ((r * p) * ((1 + r) * q))%R with (r * (1 + r) * (p * q))%R in Q1 by ring. replace (p * (r * q))%R with (r * (p * q))%R in Q2 by ring.
  assert (Q4 : (cabs (fv x) * cabs (fv y) <= 101 / 100 * (p * q))%R).
  { apply Rle_trans with (1 := Q3). apply Rmult_le_compat_r; [lra|]. nra. }
  assert (Q5 : (3 * u * (cabs (fv x) * cabs (fv y)) <= 3 * u * (101 / 100 * (p * q)))%R) by (apply Rmult_le_compat_l; lra).
  assert (Q6 : (r * (1 + r) * (p * q) <= 101 / 100 * r * (p * q))%R) by (apply Rmult_le_compat_r; nra).
  assert (0 <= u * (p * q))%R by (apply Rmult_le_pos; lra). lra.
Qed.

(** the law of exponents *)
Lemma exp_law : forall (Sn : MixedSin float) (E : MixedExp float) b d g, accurate_sincos_float b d Sn -> exp_within g E -> (0 <= d <= / 1000)%R -> (0 <= g <= / 1000)%R ->
  forall k (z w : Cartesian float), 1 <= k -> 2 * k + 1 < emax -> cfin z -> cfin w -> (b <= bpow radix2 (emax - 1))%R ->
  (Rabs (B2R (im z)) + Rabs (B2R (im w)) <= b / 2)%R ->
  (bpow radix2 (3 - emax) <= exp (B2R (re z)) <= bpow radix2 (k - 1))%R -> (bpow radix2 (3 - emax) <= exp (B2R (re w)) <= bpow radix2 (k - 1))%R ->
  (bpow radix2 (4 - emax) <= exp (B2R (re z) + B2R (re w)) <= bpow radix2 (emax - 4))%R ->
  exists p q, (x <- cartesian_exp float_ops Sn E z ;; y <- cartesian_exp float_ops Sn E w ;; cartesian_mul float_ops x y) = Ok p /\
  (s <- cartesian_add float_ops z w ;; cartesian_exp float_ops Sn E s) = Ok q /\ cfin p /\ cfin q /\
  (cabs (csub (fv p) (fv q)) <= (302 / 100 * exp_err prec d g + 7 * u + 154 / 100 * u * (Rabs (B2R (re z) + B2R (re w)) + Rabs (B2R (im z) + B2R (im w)))) * exp (B2R (re z) + B2R (re w)))%R.
Proof using P24 E128 EM Vexp.
  intros Sn E b d g HS HE D G k z w K1 K2 Fz Fw B1 B2 Xz Xw Xs. pose proof us as U. pose proof (err_small d g D G) as ES.
  pose proof (Rabs_pos (B2R (im z))) as I1. pose proof (Rabs_pos (B2R (im w))) as I2.
  destruct (exp_prod Sn E b d g HS HE D G k z w K1 K2 Fz Fw) as (p & Ep & Fp & Ap); auto; try lra.
  { apply Rle_trans with (2 := proj1 Xs). apply bpow_le. lia. }
  destruct Fz as [Fz1 Fz2], Fw as [Fw1 Fw2]. set (a := (B2R (re z) + B2R (re w))%R) in *. set (t := (B2R (im z) + B2R (im w))%R) in *.
  assert (RA : (Rabs a <= 3000)%R). { apply exp_range. split; [apply Rle_trans with (2 := proj1 Xs) | apply Rle_trans with (1 := proj2 Xs)]; apply bpow_le; lia. }
  assert (RT : (Rabs t <= b / 2)%R) by (unfold t; eapply Rle_trans; [apply Rabs_triang | auto]).
  destruct (plus_r (re z) (re w) Fz1 Fw1 12) as [F1 V1]; [lia | fold a; change (bpow radix2 12) with 4096%R; lra |].
  destruct (plus_r (im z) (im w) Fz2 Fw2 (emax - 1)) as [F2 V2]; [lia | fold t; pose proof (Rabs_pos t); lra |].
  pose proof (plus_rel (re z) (re w) Fz1 Fw1) as R1. pose proof (plus_rel (im z) (im w) Fz2 Fw2) as R2. rewrite <- V1 in R1. rewrite <- V2 in R2. fold a in R1. fold t in R2.
  set (s := mkC (Bplus mode_NE (re z) (re w)) (Bplus mode_NE (im z) (im w))).
  change (Bplus mode_NE (re z) (re w)) with (re s) in F1, V1, R1. change (Bplus mode_NE (im z) (im w)) with (im s) in F2, V2, R2.
  assert (U1 : (u * Rabs a <= / 3000)%R) by (pose proof (Rabs_pos a); nra).
  assert (SH : (Rabs (exp (B2R (re s)) - exp a) <= / 100 * exp a)%R).
  { replace (B2R (re s)) with (a + (B2R (re s) - a))%R by ring. rewrite exp_plus. replace (exp a * exp (B2R (re s) - a) - exp a)%R with (exp a * (exp (B2R (re s) - a) - 1))%R by ring.
    pose proof (exp_pos a). rewrite Rabs_mult, (Rabs_pos_eq (exp a)) by lra. rewrite Rmult_comm. apply Rmult_le_compat_r; [lra|]. eapply Rle_trans; [apply exp_small|]; lra. }
  pose proof (exp_pos a) as A0. apply Rabs_le_inv in SH.
  destruct (exp_acc_float Sn E b d g HS HE D G s (conj F1 F2)) as (q & Eq & Fq & Aq).
  { replace (B2R (im s)) with ((B2R (im s) - t) + t)%R by ring. eapply Rle_trans; [apply Rabs_triang|]. pose proof (Rabs_pos t). nra. }
  { replace (3 - emax) with ((4 - emax) + -1) by ring. replace (emax - 3) with ((emax - 4) + 1) by ring. rewrite !bpow_plus. change (bpow radix2 (-1)) with (/ 2)%R. change (bpow radix2 1) with 2%R. lra. }
  exists p, q. split; [exact Ep|]. split; [exact Eq|]. split; [exact Fp|]. split; [exact Fq|].
  pose proof (cexp_near (fv s) (a, t)) as N. cbn [fst snd] in N. 
  change (fst (fv s)) with (B2R (re s)) in N. change (snd (fv s)) with (B2R (im s)) in N. specialize (N ltac:(lra)).
  eapply Rle_trans; [apply (csub_tri _ (cexp (a, t)))|]. eapply Rle_trans; [apply Rplus_le_compat; [exact Ap | apply (csub_tri _ (cexp (fv s)))]|].
  rewrite (csub_sym (cexp (a, t))), (csub_sym (cexp (fv s)) (fv q)).
  set (rr := exp_err prec d g) in *.
  assert (Q1 : (rr * exp (B2R (re s)) <= rr * (101 / 100 * exp a))%R) by (apply Rmult_le_compat_l; lra).
  assert (Q2 : (102 / 100 * (Rabs (B2R (re s) - a) + 15 / 10 * Rabs (B2R (im s) - t)) * exp a <= 154 / 100 * u * (Rabs a + Rabs t) * exp a)%R).
  { apply Rmult_le_compat_r; [lra|]. pose proof (Rabs_pos a). pose proof (Rabs_pos t). assert (0 <= u * Rabs a)%R by (apply Rmult_le_pos; lra). assert (0 <= u * Rabs t)%R by (apply Rmult_le_pos; lra). lra. }
  set (T := (154 / 100 * u * (Rabs a + Rabs t) * exp a)%R) in *.
  replace ((302 / 100 * rr + 7 * u + 154 / 100 * u * (Rabs a + Rabs t)) * exp a)%R with ((302 / 100 * rr + 7 * u) * exp a + T)%R by (unfold T; ring). lra.
Qed.

(** exp(z) exp(0 - z) is 1 *)
Lemma exp_inv_float : forall (Sn : MixedSin float) (E : MixedExp float) b d g, accurate_sincos_float b d Sn -> exp_within g E -> (0 <= d <= / 1000)%R -> (0 <= g <= / 1000)%R ->
  forall k (z : Cartesian float), 1 <= k -> 2 * k + 1 < emax -> cfin z -> (Rabs (B2R (im z)) <= b)%R ->
  (bpow radix2 (1 - k) <= exp (B2R (re z)) <= bpow radix2 (k - 1))%R ->
  exists p, (x <- cartesian_exp float_ops Sn E z ;; n <- cartesian_sub float_ops (mkC (B754_zero false) (B754_zero false)) z ;;
             y <- cartesian_exp float_ops Sn E n ;; cartesian_mul float_ops x y) = Ok p /\ cfin p /\
  (cabs (csub (fv p) (1, 0)) <= 201 / 100 * exp_err prec d g + 7 * u)%R.
Proof using P24 E128 Vexp.
  intros Sn E b d g HS HE D G k z K1 K2 [F1 F2] B X.
  assert (NEG : forall x : float, is_finite x = true -> is_finite (Bminus mode_NE (B754_zero false) x) = true /\ B2R (Bminus mode_NE (B754_zero false) x) = (- B2R x)%R).
  { intros x Fx. pose proof (Bminus_correct prec emax _ _ mode_NE (B754_zero false) x eq_refl Fx) as H. change (round_mode mode_NE) with ZnearestE in H.
    cbn [B2R] in H. rewrite Rminus_0_l in H. rewrite round_generic in H; [| apply valid_rnd_N | apply generic_format_opp, generic_format_B2R].
    rewrite Rabs_Ropp, Rlt_bool_true in H by (apply abs_B2R_lt_emax). tauto. }
  destruct (NEG _ F1) as [G1 V1]. destruct (NEG _ F2) as [G2 V2].
  set (w := mkC (Bminus mode_NE (B754_zero false) (re z)) (Bminus mode_NE (B754_zero false) (im z))).
  change (Bminus mode_NE (B754_zero false) (re z)) with (re w) in G1, V1. change (Bminus mode_NE (B754_zero false) (im z)) with (im w) in G2, V2.
  assert (XN : (bpow radix2 (1 - k) <= exp (B2R (re w)) <= bpow radix2 (k - 1))%R).
  { rewrite V1, exp_Ropp. replace (1 - k) with (- (k - 1)) in * by ring. split.
    - rewrite bpow_opp. apply Rinv_le; [apply exp_pos | apply X].
    - rewrite <- (Rinv_inv (bpow radix2 (k - 1))), <- bpow_opp. apply Rinv_le; [apply bpow_gt_0 | apply X]. }
  assert (T : (bpow radix2 (3 - emax) <= bpow radix2 (1 - k))%R) by (apply bpow_le; lia).
  destruct (exp_prod Sn E b d g HS HE D G k z w K1 K2 (conj F1 F2) (conj G1 G2)) as (p & Ep & Fp & Ap); auto; try lra.
  { rewrite V2, Rabs_Ropp. auto. }
  { rewrite V1, Rplus_opp_r, exp_0. change 1%R with (bpow radix2 0). apply bpow_le. lia. }
  exists p. split; [exact Ep|]. split; auto.
  rewrite V1, V2, !Rplus_opp_r in Ap. unfold cexp in Ap. cbn [fst snd] in Ap. rewrite exp_0, cos_0, sin_0 in Ap.
  rewrite !Rmult_1_l, Rmult_1_r in Ap. exact Ap.
Qed.

(** Euler's identity, for any float close to pi *)
Lemma euler_float : forall (Sn : MixedSin float) (E : MixedExp float) b d g, accurate_sincos_float b d Sn -> exp_within g E -> (0 <= d <= / 1000)%R -> (0 <= g <= / 1000)%R -> (4 <= b)%R ->
  forall p : float, is_finite p = true -> (Rabs (B2R p - PI) <= 3 / 2 * u)%R ->
  exists r, cartesian_exp float_ops Sn E (mkC (B754_zero false) p) = Ok r /\ cfin r /\ (cabs (csub (fv r) (-1, 0)) <= exp_err prec d g + 3 * u)%R.
Proof using P24 E128 Vexp.
  intros Sn E b d g HS HE D G B p Fp Vp. pose proof us as U. pose proof pi_bounds as PB.
  destruct (exp_acc_float Sn E b d g HS HE D G (mkC (B754_zero false) p)) as (r & Er & Fr & Ar).
  { split; auto. } { cbn [im]. apply Rabs_le_inv in Vp. apply Rabs_le. lra. }
  { cbn [re B2R]. rewrite exp_0. change 1%R with (bpow radix2 0). split; apply bpow_le; lia. }
  exists r. split; auto. split; auto. cbn [re B2R] in Ar. rewrite exp_0, Rmult_1_r in Ar.
  pose proof (cexp_near (fv (mkC (B754_zero false) p)) (0, PI)%R) as N. cbn [cvalf re im B2R fst snd] in N. rewrite Rminus_0_r, Rabs_R0, exp_0 in N. specialize (N ltac:(lra)).
  replace (cexp (0, PI)%R) with (-1, 0)%R in N by (unfold cexp; cbn [fst snd]; rewrite exp_0, cos_PI, sin_PI; f_equal; ring).
  eapply Rle_trans; [apply (csub_tri _ (cexp (fv (mkC (B754_zero false) p))))|]. change (cvalf (mkC (B754_zero false) p)) with (0%R, B2R p) in *. lra.
Qed.

(** ** correctly rounded routines *)
Lemma best_exp_ok : exp_within u (best_exp (p := prec) (e := emax)).
Proof using P24 E128 Vexp.
  intros x F X. pose proof (nearest_ok (exp (B2R x))) as N. pose proof (exp_pos (B2R x)) as P0. rewrite Rlt_bool_true in N.
  2:{ apply (rnd_fits _ (emax - 1)); [rewrite Rabs_pos_eq; lra | lia]. }
  destruct N as [A B]. eexists. split; [reflexivity|]. split; [exact A|]. rewrite B.
  rewrite <- (Rabs_pos_eq (exp (B2R x))) at 3 by lra. apply normal_rel. rewrite Rabs_pos_eq by lra. apply Rle_trans with (2 := proj1 X). apply bpow_le. lia.
Qed.
Lemma best_sin_ok : forall b, accurate_sincos_float b u (best_sin (p := prec) (e := emax)).
Proof using P24 E128 Vexp.
  intros b x F X. assert (K : forall v, (-1 <= v <= 1)%R -> is_finite (nearest_float v : float) = true /\ (Rabs (B2R (nearest_float v : float) - v) <= u)%R).
  { intros v V. assert (V' : (Rabs v <= bpow radix2 0)%R) by (apply Rabs_le; exact V). pose proof (nearest_ok v) as N. rewrite Rlt_bool_true in N.
    2:{ apply (rnd_fits _ 0); [exact V' | lia]. }
    destruct N as [A B]. split; auto. rewrite B. assert (R : (Rabs (rnd v - v) <= / 2 * bpow radix2 (0 - prec))%R) by (apply rnd_err; [exact V' | lia]). change (0 - prec) with (- prec) in R. pose proof us. lra. }
  destruct (K _ (SIN_bound (B2R x))) as [S1 S2]. destruct (K _ (COS_bound (B2R x))) as [C1 C2].
  do 2 eexists. split; [reflexivity|]. auto.
Qed.
End Float.

Lemma euler_f32 : forall (Sn : MixedSin f32) (E : MixedExp f32) b d g, accurate_sincos_float b d Sn -> exp_within g E -> (0 <= d <= / 1000)%R -> (0 <= g <= / 1000)%R -> (4 <= b)%R ->
  exists p r, mixed_pi float_pi = Ok p /\ cartesian_exp float_ops Sn E (mkC (B754_zero false) p) = Ok r /\ cfin r /\
  (cabs (csub (cvalf r) (-1, 0)) <= exp_err 24 d g + 3 * bpow radix2 (-24))%R.
Proof.
  intros Sn E b d g HS HE D G B. exists f32_pi.
  destruct (euler_float (prec := 24) (emax := 128) ltac:(lia) ltac:(lia) Sn E b d g HS HE D G B f32_pi) as (r & Er & Fr & Ar); [apply f32_pi_val | apply f32_pi_err |].
  exists r. split; [reflexivity|]. auto.
Qed.
Lemma euler_f64 : forall (Sn : MixedSin f64) (E : MixedExp f64) b d g, accurate_sincos_float b d Sn -> exp_within g E -> (0 <= d <= / 1000)%R -> (0 <= g <= / 1000)%R -> (4 <= b)%R ->
  exists p r, mixed_pi float_pi = Ok p /\ cartesian_exp float_ops Sn E (mkC (B754_zero false) p) = Ok r /\ cfin r /\
  (cabs (csub (cvalf r) (-1, 0)) <= exp_err 53 d g + 3 * bpow radix2 (-53))%R.
Proof.
  intros Sn E b d g HS HE D G B. exists f64_pi.
  destruct (euler_float (prec := 53) (emax := 1024) ltac:(lia) ltac:(lia) Sn E b d g HS HE D G B f64_pi) as (r & Er & Fr & Ar); [apply f64_pi_val | apply f64_pi_err |].
  exists r. split; [reflexivity|]. auto.
Qed.

Lemma exp_and_length : forall p e {Hp : Prec_gt_0 p} {He : Prec_lt_emax p e}, 24 <= p -> 128 <= e ->
  forall (Sn : MixedSin (binary_float p e)) (E : MixedExp (binary_float p e)) b d g, accurate_sincos_float b d Sn -> exp_within g E -> (0 <= d <= / 1000)%R -> (0 <= g <= / 1000)%R ->
  forall z, cfin z -> (Rabs (B2R (im z)) <= b)%R -> (bpow radix2 (3 - e) <= exp (B2R (re z)) <= bpow radix2 (e - 3))%R ->
  exists r, cartesian_exp float_ops Sn E z = Ok r /\ cfin r /\
  (cabs (csub (cvalf r) (cexp (cvalf z))) <= exp_err p d g * exp (B2R (re z)))%R /\
  (Rabs (cabs (cvalf r) - exp (B2R (re z))) <= exp_err p d g * exp (B2R (re z)))%R.
Proof.
  intros p e Hp He P24 E128 Sn E b d g HS HE D G z F B X. destruct (exp_acc_float P24 E128 Sn E b d g HS HE D G z F B X) as (r & Er & Fr & A).
  exists r. split; [exact Er|]. split; [exact Fr|]. split; [exact A|]. apply (exp_len_float P24 E128 Sn E b d g); auto.
Qed.
Lemma best_routines : forall p e {Hp : Prec_gt_0 p} {He : Prec_lt_emax p e}, 24 <= p -> 128 <= e ->
  exp_within (bpow radix2 (- p)) (best_exp (p := p) (e := e)) /\ forall b, accurate_sincos_float b (bpow radix2 (- p)) (best_sin (p := p) (e := e)).
Proof. intros p e Hp He P24 E128. split; [apply best_exp_ok; auto | intros b; apply best_sin_ok; auto]. Qed.
Lemma exp_example : let z := mkC (float_of_Z 24 128 2) (float_of_Z 24 128 3) in cfin z /\ (Rabs (B2R (im z)) <= 4)%R /\
  (bpow radix2 (3 - 128) <= exp (B2R (re z)) <= bpow radix2 (128 - 3))%R /\ (bpow radix2 (1 - 5) <= exp (B2R (re z)) <= bpow radix2 (5 - 1))%R.
Proof.
  intros z. destruct (small_int (prec := 24) (emax := 128) ltac:(lia) 2 ltac:(lia)) as [V2 F2]. destruct (small_int (prec := 24) (emax := 128) ltac:(lia) 3 ltac:(lia)) as [V3 F3].
  split; [split; auto|]. unfold z. cbn [re im]. rewrite V2, V3. split; [rewrite Rabs_pos_eq; lra|].
  assert (X : (1 <= exp 2 <= 16)%R).
  { pose proof (exp_ineq1_le 2). split; [lra|]. replace 2%R with (1 + 1)%R by ring. rewrite exp_plus. pose proof exp_le_3. pose proof (exp_pos 1). nra. }
  assert (T : forall i j, i <= 0 -> 4 <= j -> (bpow radix2 i <= exp 2 <= bpow radix2 j)%R).
  { intros i j I J. split; [apply Rle_trans with (bpow radix2 0) | apply Rle_trans with (bpow radix2 4)]; try (apply bpow_le; lia); apply X. }
  split; apply T; lia.
Qed.
