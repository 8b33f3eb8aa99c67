(** * Proofs: complex quotients through the conjugate. *)

From Coq Require Import ZArith Reals Lia Lra Psatz Bool List.
From Flocq Require Import Core.Core IEEE754.BinarySingleNaN Relative.
From Verif Require Import Base FloatBase Literals Traits Trig IntImpl FixedPrim FixedImpl FloatImpl Complex Spec SpecFilter SpecRotor SpecFourier SpecPhase SpecQuot
  Lemmas FloatLemmas FloatKit ScalarProofs ScalarProofs2 ComplexProofs FilterProofs FloatArith FloatFilter RotorProofs FourierProofs DivFixed AngleProofs.
Import ListNotations.
Open Scope Z_scope.

Section Real.
Open Scope R_scope.
Lemma ceq : forall z w : R * R, fst z = fst w -> snd z = snd w -> z = w.
Proof. intros [a b] [c d] H1 H2. cbn in *. subst. reflexivity. Qed.
Lemma conj_norm : forall w, cmul w (cconj w) = (cabs w * cabs w, 0).
Proof. intros w. rewrite cabs_sq. apply ceq; unfold cmul, cconj; cbn [fst snd]; ring. Qed.
Lemma quot_real : forall z w Q p n ep en, 0 < n -> cmul Q w = z -> cabs (csub p (cmul z (cconj w))) <= ep -> Rabs (n - cabs w * cabs w) <= en ->
  cabs (csub (fst p / n, snd p / n) Q) <= (ep + cabs Q * en) / n.
Proof.
  intros z w Q p n ep en N0 <- P E. set (N := cabs w * cabs w) in *.
  assert (EQ : cmul (cmul Q w) (cconj w) = cmul Q (N, 0)). { unfold N. rewrite <- conj_norm. apply ceq; unfold cmul, cconj; cbn [fst snd]; ring. }
  rewrite EQ in P.
  replace (csub (fst p / n, snd p / n) Q) with (cmul (/ n, 0) (cadd (csub p (cmul Q (N, 0))) (cmul Q (N - n, 0)))).
  2:{ apply ceq; unfold csub, cadd, cmul; cbn [fst snd]; field; lra. }
  rewrite cabs_cmul. assert (A : forall x, cabs (x, 0) = Rabs x). { intros x. unfold cabs. cbn [fst snd]. rewrite Rmult_0_l, Rplus_0_r. apply sqrt_Rsqr_abs. }
  rewrite A, Rabs_pos_eq by (left; apply Rinv_0_lt_compat; auto). unfold Rdiv. rewrite Rmult_comm. apply Rmult_le_compat_r; [left; apply Rinv_0_lt_compat; auto|].
  eapply Rle_trans; [apply cabs_cadd|]. rewrite cabs_cmul, A, <- Rabs_Ropp. replace (- (N - n)) with (n - N) by ring.
  assert (cabs Q * Rabs (n - N) <= cabs Q * en) by (apply Rmult_le_compat_l; auto; apply cabs_pos). lra.
Qed.
End Real.

(** ** fixed *)
Lemma div_fixed_near : forall m f, supported f = true -> fsigned f = true -> forall a b, b <> 0 -> (Rabs (fval f a / fval f b) <= fval f (fmax f))%R ->
  exists r, fx_div m f a b = Ok r /\ (Rabs (fval f r - fval f a / fval f b) <= ulp f)%R /\ (Rabs (fval f r) <= Rabs (fval f a / fval f b))%R.
Proof.
  intros m f F Sg a b B H. pose proof (supported_fwf f F) as W.
  assert (ON : (0 < IZR (fone f))%R). { apply IZR_lt. unfold fone. apply Z.pow_pos_nonneg; [lia|]. apply (supported_inv f F). }
  assert (BR : IZR b <> 0%R) by (intros E; apply B; apply eq_IZR; auto).
  assert (FV : forall x, fval f x = (IZR x * / IZR (fone f))%R).
  { intros x. unfold fval. f_equal. unfold fone. destruct W as [P0 _]. rewrite bpow_opp. f_equal. rewrite <- (IZR_Zpower radix2) by lia. reflexivity. }
  set (q := Z.quot (a * fone f) b).
  assert (QV : (fval f a / fval f b = IZR a / IZR b)%R) by (rewrite !FV; field; lra).
  assert (UL : ulp f = (/ IZR (fone f))%R). { pose proof (FV 1) as X. unfold fval in X. rewrite !Rmult_1_l in X. exact X. }
  pose proof (quot_err (a * fone f) b B) as QE. fold q in QE. apply IZR_lt in QE. rewrite !abs_IZR, minus_IZR, !mult_IZR in QE.
  assert (EQ : (fval f q - IZR a / IZR b = (IZR q * IZR b - IZR a * IZR (fone f)) * / IZR b * / IZR (fone f))%R) by (rewrite FV; field; split; lra).
  assert (ER : (Rabs (fval f q - fval f a / fval f b) <= ulp f)%R).
  { rewrite QV, EQ, UL, !Rabs_mult, Rabs_inv, (Rabs_pos_eq (/ IZR (fone f))) by (left; apply Rinv_0_lt_compat; auto).
    rewrite <- (Rmult_1_l (/ IZR (fone f))) at 2. apply Rmult_le_compat_r; [left; apply Rinv_0_lt_compat; auto|].
    apply Rmult_le_reg_r with (Rabs (IZR b)); [apply Rabs_pos_lt; auto|]. rewrite Rmult_assoc, Rinv_l, Rmult_1_r, Rmult_1_l by (apply Rabs_no_R0; auto). lra. }
  assert (LE : (Rabs (fval f q) <= Rabs (fval f a / fval f b))%R).
  { rewrite QV, FV. unfold Rdiv. rewrite !Rabs_mult, !Rabs_inv, <- !abs_IZR. rewrite (Z.abs_eq (fone f)) by (apply le_IZR; lra).
    assert (AB : Z.abs q * Z.abs b <= Z.abs a * fone f).
    { assert (FP : 0 < fone f) by (apply lt_IZR; lra). unfold q. rewrite <- Z.quot_abs by auto. rewrite Z.quot_div_nonneg by lia.
      rewrite Z.abs_mul, (Z.abs_eq (fone f)), Z.mul_comm by lia. apply Z.mul_div_le. lia. }
    apply IZR_le in AB. rewrite !mult_IZR in AB. assert (BP : (0 < IZR (Z.abs b))%R) by (apply IZR_lt; lia).
    apply Rmult_le_reg_r with (IZR (fone f)); auto. apply Rmult_le_reg_r with (IZR (Z.abs b)); auto.
    replace (IZR (Z.abs q) * / IZR (fone f) * IZR (fone f) * IZR (Z.abs b))%R with (IZR (Z.abs q) * IZR (Z.abs b))%R by (field; lra).
    replace (IZR (Z.abs a) * / IZR (Z.abs b) * IZR (fone f) * IZR (Z.abs b))%R with (IZR (Z.abs a) * IZR (fone f))%R by (field; lra). exact AB. }
  exists q. split; auto. unfold fx_div. apply Z.eqb_neq in B. rewrite B. apply fx_fin_ok. apply in_rangeb_spec, fval_inj_range; auto. lra.
Qed.

Lemma fmax_one : forall f, supported f = true -> fsigned f = true -> (1 <= fval f (fmax f))%R.
Proof.
  intros f F Sg. destruct (supported_fwf f F) as [P0 P1]. rewrite fmax_signed by auto. unfold fval.
  apply Rmult_le_reg_r with (bpow radix2 (ffrac f)); [apply bpow_gt_0|]. rewrite Rmult_assoc, <- bpow_plus, Rmult_1_l. replace (- ffrac f + ffrac f) with 0 by lia. rewrite Rmult_1_r.
  rewrite <- (IZR_Zpower radix2) by lia. apply IZR_le. change (Zpower radix2 (ffrac f)) with (2 ^ ffrac f).
  assert (2 ^ ffrac f <= 2 ^ (fwidth f - 2)) by (apply Z.pow_le_mono_r; lia). replace (fwidth f - 1) with (1 + (fwidth f - 2)) by lia. rewrite Z.pow_add_r by lia.
  pose proof (Z.pow_pos_nonneg 2 (fwidth f - 2)). lia.
Qed.
Lemma quotient_fixed : forall m f, supported f = true -> fsigned f = true -> forall z w Q, let N := (cabs (cval f w) * cabs (cval f w))%R in let g := (224 / 100 * ulp f)%R in
  cmul Q (cval f w) = cval f z -> (g < N)%R -> (N + g <= fval f (fmax f))%R -> (cabs (cval f z) * cabs (cval f w) + g <= fval f (fmax f))%R ->
  let e := ((1 + cabs Q) * g / (N - g))%R in (cabs Q + e <= fval f (fmax f))%R ->
  exists r, quotient (fixed_ops m f) (fixed_signed m f) z w = Ok r /\ (cabs (csub (cval f r) Q) <= e + 14143 / 10000 * ulp f)%R.
Proof.
  intros m f F Sg z w Q N g HQ N0 B1 B2 e B3. assert (U : (0 < ulp f)%R) by apply bpow_gt_0. pose proof (fmax_one f F Sg) as M1. pose proof (cabs_pos (cval f w)) as W0.
  assert (BW : (cabs (cval f w) <= fval f (fmax f))%R). { unfold N, g in *. destruct (Rle_dec (cabs (cval f w)) 1); [lra|nra]. }
  destruct (conj_fixed m f w F Sg BW) as (c & Ec & Vc). pose proof (cconj_abs (cval f w)) as CA.
  destruct (fixed_mul_near m f F Sg z c ltac:(rewrite Vc, CA; exact B2)) as (p & Ep & Np). destruct (fixed_mul_near m f F Sg w c ltac:(rewrite Vc, CA; exact B1)) as (n & En & Nn).
  rewrite Vc in Np, Nn. rewrite conj_norm in Nn. fold N g in Np, Nn.
  assert (Rn : (Rabs (fval f (re n) - N) <= g)%R). { eapply Rle_trans; [apply (cabs_fst (csub (cval f n) (N, 0%R)))|exact Nn]. }
  assert (LN : (N - g <= fval f (re n))%R) by (apply Rabs_le_inv in Rn; lra).
  assert (NZ : re n <> 0). { intros E. rewrite E in LN. unfold fval in LN. rewrite Rmult_0_l in LN. lra. }
  pose proof (quot_real (cval f z) (cval f w) Q (cval f p) (fval f (re n)) g g ltac:(lra) HQ Np Rn) as QR.
  assert (LE : ((g + cabs Q * g) / fval f (re n) <= e)%R).
  { unfold e. replace ((1 + cabs Q) * g)%R with (g + cabs Q * g)%R by ring. unfold Rdiv. apply Rmult_le_compat_l; [pose proof (cabs_pos Q); unfold g; nra|]. apply Rinv_le; lra. }
  set (V := (fst (cval f p) / fval f (re n), snd (cval f p) / fval f (re n))%R) in *.
  assert (VB : (cabs V <= fval f (fmax f))%R). { pose proof (cabs_via V Q). lra. }
  destruct (div_fixed_near m f F Sg (re p) (re n) NZ) as (x & Ex & Nx & _). { eapply Rle_trans; [apply (cabs_fst V)|exact VB]. }
  destruct (div_fixed_near m f F Sg (im p) (re n) NZ) as (y & Ey & Ny & _). { eapply Rle_trans; [apply (cabs_snd V)|exact VB]. }
  exists (mkC x y). unfold quotient. rewrite Ec. cbn [bind]. rewrite Ep. cbn [bind]. rewrite En. cbn [bind fixed_ops o_div]. rewrite Ex. cbn [bind]. rewrite Ey. split; [reflexivity|].
  eapply Rle_trans; [apply (csub_tri _ V)|]. pose proof (cabs_two _ _ _ Nx Ny) as T. unfold csub at 1. cbn [cval re im fst snd]. unfold V at 1 2, cval. cbn [fst snd]. lra.
Qed.

(** ** floats *)
Section Float.
Context {prec emax : Z} {Hp : Prec_gt_0 prec} {He : Prec_lt_emax prec emax}.
Notation float := (binary_float prec emax).
Notation rnd := (round radix2 (FLT_exp (3 - emax - prec) prec) ZnearestE).
Notation u := (bpow radix2 (- prec)).
Notation eta := (bpow radix2 (3 - emax - prec)).
Notation fv := (@cvalf prec emax).
Hypotheses (P24 : 24 <= prec) (E40 : 40 <= emax).
Notation h := (emax / 2).
Lemma rnd_two : forall v, (Rabs (rnd v - v) <= u * Rabs v + / 2 * eta)%R.
Proof using Hp.
  intros v. destruct (error_N_FLT radix2 (3 - emax - prec) prec ltac:(exact Hp) (fun x => negb (Z.even x)) v) as (e & t & A & B & _ & D).
  change ZnearestE with (Znearest (fun x => negb (Z.even x))). rewrite D. replace (v * (1 + e) + t - v)%R with (v * e + t)%R by ring.
  eapply Rle_trans; [apply Rabs_triang|]. rewrite Rabs_mult. apply Rplus_le_compat; auto.
  rewrite Rmult_comm. apply Rmult_le_compat_r; [apply Rabs_pos|]. eapply Rle_trans; [exact A|]. right. change (/ 2)%R with (bpow radix2 (-1)). rewrite <- bpow_plus. f_equal. lia.
Qed.
Lemma quotient_float : forall (z w : Cartesian float) Q, cfin z -> cfin w -> cmul Q (fv w) = fv z ->
  (cabs (fv z) <= bpow radix2 (h - 4))%R -> (cabs (fv w) <= bpow radix2 (h - 4))%R -> (bpow radix2 (5 - h) <= cabs (fv w) * cabs (fv w))%R -> (bpow radix2 (5 - h) <= cabs (fv z) * cabs (fv w))%R ->
  exists r, quotient float_ops float_signed z w = Ok r /\ cfin r /\ (cabs (csub (fv r) Q) <= 10 * u * cabs Q + eta)%R.
Proof using P24 E40.
  intros z w Q Fz Fw HQ Bz Bw L1 L2. pose proof (Z.div_mod emax 2 ltac:(lia)) as HL. pose proof (Z.mod_pos_bound emax 2 ltac:(lia)) as HM. assert (US : (0 < u <= / 16777216)%R). { split; [apply bpow_gt_0|]. change (/ 16777216)%R with (bpow radix2 (-24)). apply bpow_le. lia. }
  destruct (conj_float w Fw) as (c & Ec & Fc & Vc). pose proof (cconj_abs (fv w)) as CA.
  destruct (mul_float_u P24 E40 z c Fz Fc Bz ltac:(rewrite Vc, CA; exact Bw) ltac:(rewrite Vc, CA; exact L2)) as (p & Ep & Fp & Np).
  destruct (mul_float_u P24 E40 w c Fw Fc Bw ltac:(rewrite Vc, CA; exact Bw) ltac:(rewrite Vc, CA; exact L1)) as (n & En & Fn & Nn).
  rewrite Vc, CA in Np, Nn. rewrite conj_norm in Nn. set (N := (cabs (fv w) * cabs (fv w))%R) in *.
  assert (N0 : (0 < N)%R) by (eapply Rlt_le_trans; [apply bpow_gt_0|exact L1]).
  assert (Rn : (Rabs (B2R (re n) - N) <= 4 * u * N)%R). { eapply Rle_trans; [apply (cabs_fst (csub (fv n) (N, 0%R)))|exact Nn]. }
  assert (UN : (0 <= u * N <= / 16777216 * N)%R) by (split; [apply Rmult_le_pos|apply Rmult_le_compat_r]; lra).
  assert (LN : (999 / 1000 * N <= B2R (re n))%R) by (apply Rabs_le_inv in Rn; lra).
  assert (AQ : (cabs (fv z) * cabs (fv w) = cabs Q * N)%R) by (rewrite <- HQ, cabs_cmul; unfold N; ring). rewrite AQ in Np.
  pose proof (cabs_pos Q) as Q0.
  pose proof (quot_real (fv z) (fv w) Q (fv p) (B2R (re n)) _ _ ltac:(lra) HQ Np Rn) as QR.
  set (V := (fst (fv p) / B2R (re n), snd (fv p) / B2R (re n))%R) in *.
  assert (UQ : (0 <= u * cabs Q <= / 16777216 * cabs Q)%R) by (split; [apply Rmult_le_pos|apply Rmult_le_compat_r]; lra).
  assert (LE : (cabs (csub V Q) <= 81 / 10 * (u * cabs Q))%R).
  { eapply Rle_trans; [exact QR|]. apply Rmult_le_reg_r with (B2R (re n)); [lra|]. unfold Rdiv. rewrite Rmult_assoc, Rinv_l, Rmult_1_r by lra.
    replace (4 * u * (cabs Q * N) + cabs Q * (4 * u * N))%R with (8 * (u * cabs Q) * N)%R by ring.
    apply Rle_trans with (81 / 10 * (u * cabs Q) * (999 / 1000 * N))%R; [nra|]. apply Rmult_le_compat_l; lra. }
  assert (AV : (cabs V <= 11 / 10 * cabs Q)%R). { pose proof (cabs_via V Q). lra. }
  assert (QB : (cabs Q <= bpow radix2 (emax - 3))%R).
  { apply Rsqr_incr_0; [|auto|apply bpow_ge_0]. unfold Rsqr. rewrite <- bpow_plus.
    apply Rmult_le_reg_r with N; auto. apply Rle_trans with (cabs (fv z) * cabs (fv z))%R; [right; rewrite <- HQ, cabs_cmul; unfold N; ring|].
    apply Rle_trans with (bpow radix2 (h - 4) * bpow radix2 (h - 4))%R; [apply Rmult_le_compat; auto; apply cabs_pos|].
    apply Rle_trans with (bpow radix2 (emax - 3 + (emax - 3)) * bpow radix2 (5 - h))%R; [rewrite <- !bpow_plus; apply bpow_le; lia|]. apply Rmult_le_compat_l; [apply bpow_ge_0|auto]. }
  assert (VB : (cabs V <= bpow radix2 (emax - 2))%R). { replace (emax - 2) with (1 + (emax - 3)) by lia. rewrite bpow_plus. change (bpow radix2 1) with 2%R. lra. }
  destruct (div_r (prec := prec) (emax := emax) (re p) (re n) (proj1 Fp) ltac:(lra) (emax - 2) ltac:(lia)) as [Fx Vx]. { eapply Rle_trans; [apply (cabs_fst V)|exact VB]. }
  destruct (div_r (prec := prec) (emax := emax) (im p) (re n) (proj2 Fp) ltac:(lra) (emax - 2) ltac:(lia)) as [Fy Vy]. { eapply Rle_trans; [apply (cabs_snd V)|exact VB]. }
  exists (mkC (Bdiv mode_NE (re p) (re n)) (Bdiv mode_NE (im p) (re n))). unfold quotient. rewrite Ec. cbn [bind]. rewrite Ep. cbn [bind]. rewrite En. split; [reflexivity|]. split; [split; auto|].
  eapply Rle_trans; [apply (csub_tri _ V)|].
  assert (RV : (cabs (csub (fv (mkC (Bdiv mode_NE (re p) (re n)) (Bdiv mode_NE (im p) (re n)))) V) <= u * cabs V + eta)%R).
  { unfold cvalf, V, csub. cbn [re im fst snd]. rewrite Vx, Vy. set (a := (B2R (re p) / B2R (re n))%R). set (b := (B2R (im p) / B2R (re n))%R).
    pose proof (rnd_two a) as Ra. pose proof (rnd_two b) as Rb. assert (ET : (0 < eta)%R) by apply bpow_gt_0.
    change (cabs (fst (fv p) / B2R (re n), snd (fv p) / B2R (re n))%R) with (cabs (a, b)). pose proof (cabs_pos (a, b)) as C0.
    apply Rle_trans with (cabs (u * Rabs a + / 2 * eta, u * Rabs b + / 2 * eta)%R).
    - unfold cabs. cbn [fst snd]. apply sqrt_le_1_alt. assert (SQ : forall x y, (Rabs x <= y -> x * x <= y * y)%R) by (intros x y X; pose proof (Rabs_pos x); replace (x * x)%R with (Rabs x * Rabs x)%R by (rewrite <- Rabs_mult; apply Rabs_pos_eq; nra); apply Rmult_le_compat; auto).
      apply Rplus_le_compat; apply SQ; auto.
    - eapply Rle_trans; [apply (cabs_tri (u * Rabs a) (u * Rabs b) (/ 2 * eta) (/ 2 * eta))|].
      pose proof (cabs_two (/ 2 * eta) (/ 2 * eta) (/ 2 * eta) ltac:(rewrite Rabs_pos_eq; lra) ltac:(rewrite Rabs_pos_eq; lra)) as T2.
      assert (T1 : (cabs (u * Rabs a, u * Rabs b) = u * cabs (a, b))%R).
      { replace (u * Rabs a, u * Rabs b)%R with (cmul (u, 0)%R (Rabs a, Rabs b)) by (apply ceq; unfold cmul; cbn [fst snd]; ring). rewrite cabs_cmul. f_equal.
        - unfold cabs. cbn [fst snd]. rewrite Rmult_0_l, Rplus_0_r. rewrite sqrt_square; lra.
        - unfold cabs. cbn [fst snd]. rewrite <- !Rabs_mult, !Rabs_pos_eq by nra. reflexivity. }
      rewrite T1. lra. }
  assert (u * cabs V <= 11 / 10 * (u * cabs Q))%R by (replace (11 / 10 * (u * cabs Q))%R with (u * (11 / 10 * cabs Q))%R by ring; apply Rmult_le_compat_l; lra). lra.
Qed.
End Float.

(** ** integers *)
Lemma quotient_int : forall m t, isigned t = true -> forall z w, let a := re z in let b := im z in let c := re w in let d := im w in let N := c * c + d * d in
  N <> 0 -> (Z.abs a + Z.abs b) * (Z.abs c + Z.abs d) <= imax t -> (Z.abs c + Z.abs d) * (Z.abs c + Z.abs d) <= imax t ->
  exists r, quotient (int_ops m t) (int_signed m t) z w = Ok r /\
  (let x := a - (re r * c - im r * d) in let y := b - (re r * d + im r * c) in x * x + y * y < 2 * N) /\
  (forall q1 q2, a = q1 * c - q2 * d -> b = q1 * d + q2 * c -> r = mkC q1 q2).
Proof.
  intros m t S z w a b c d N N0 H1 H2.
  assert (IR : forall n, Z.abs n <= imax t -> in_range t n). { intros n H. unfold in_range, imin, imax in *. rewrite S in *. lia. }
  assert (FI : forall n, Z.abs n <= imax t -> fin m t n = Ok n). { intros n H. unfold fin. apply IR in H. apply in_rangeb_spec in H. rewrite H. reflexivity. }
  assert (NP : 0 < N) by (unfold N in *; nia).
  assert (PB : forall x y X Y, Z.abs x = X -> Z.abs y = Y -> Z.abs (x * y) = X * Y) by (intros; subst; apply Z.abs_mul).
  assert (T1 : 0 <= Z.abs a) by apply Z.abs_nonneg. assert (T2 : 0 <= Z.abs b) by apply Z.abs_nonneg. assert (T3 : 0 <= Z.abs c) by apply Z.abs_nonneg. assert (T4 : 0 <= Z.abs d) by apply Z.abs_nonneg.
  remember (Z.abs a) as ua eqn:Ua. remember (Z.abs b) as ub eqn:Ub. remember (Z.abs c) as uc eqn:Uc. remember (Z.abs d) as ud eqn:Ud. symmetry in Ua, Ub, Uc, Ud.
  pose proof (PB a c _ _ Ua Uc) as P1. pose proof (PB b d _ _ Ub Ud) as P2. pose proof (PB a d _ _ Ua Ud) as P3. pose proof (PB b c _ _ Ub Uc) as P4. pose proof (PB c c _ _ Uc Uc) as P5. pose proof (PB d d _ _ Ud Ud) as P6. pose proof (PB c d _ _ Uc Ud) as P7.
  rewrite Z.mul_add_distr_l, !Z.mul_add_distr_r in H1, H2. rewrite (Z.mul_comm ud uc) in H2.
  pose proof (Z.mul_nonneg_nonneg _ _ T1 T3) as Q1. pose proof (Z.mul_nonneg_nonneg _ _ T2 T4) as Q2. pose proof (Z.mul_nonneg_nonneg _ _ T1 T4) as Q3. pose proof (Z.mul_nonneg_nonneg _ _ T2 T3) as Q4.
  pose proof (Z.mul_nonneg_nonneg _ _ T3 T3) as Q5. pose proof (Z.mul_nonneg_nonneg _ _ T4 T4) as Q6. pose proof (Z.mul_nonneg_nonneg _ _ T3 T4) as Q7.
  assert (DN : ud <= imax t). { assert (ud <= ud * ud) by (clear - T4; nia). clear - H H2 Q5 Q6 Q7 T4. lia. }
  assert (TR : forall x y X Y, Z.abs x = X -> Z.abs y = Y -> X + Y <= imax t -> Z.abs (x + y) <= imax t /\ Z.abs (x - y) <= imax t) by (clear; intros; subst; lia).
  assert (I1 : ua * uc + ub * ud <= imax t) by (clear - H1 Q1 Q2 Q3 Q4; lia). assert (I2 : ub * uc + ua * ud <= imax t) by (clear - H1 Q1 Q2 Q3 Q4; lia).
  assert (I3 : uc * uc + ud * ud <= imax t) by (clear - H2 Q5 Q6 Q7; lia). assert (I4 : uc * ud + uc * ud <= imax t) by (clear - H2 Q5 Q6 Q7; lia).
  destruct (TR _ _ _ _ P1 P2 I1) as [J1 _]. destruct (TR _ _ _ _ P4 P3 I2) as [_ J2]. destruct (TR _ _ _ _ P5 P6 I3) as [J3 _].
  assert (L1 : Z.abs (a * c) <= imax t) by (rewrite P1; clear - I1 Q1 Q2; lia). assert (L2 : Z.abs (- (b * d)) <= imax t) by (rewrite Z.abs_opp, P2; clear - I1 Q1 Q2; lia).
  assert (L3 : Z.abs (- (a * d)) <= imax t) by (rewrite Z.abs_opp, P3; clear - I2 Q3 Q4; lia). assert (L4 : Z.abs (b * c) <= imax t) by (rewrite P4; clear - I2 Q3 Q4; lia).
  assert (L5 : Z.abs (c * c) <= imax t) by (rewrite P5; clear - I3 Q5 Q6; lia). assert (L6 : Z.abs (- (d * d)) <= imax t) by (rewrite Z.abs_opp, P6; clear - I3 Q5 Q6; lia).
  assert (L7 : Z.abs (- (c * d)) <= imax t) by (rewrite Z.abs_opp, P7; clear - I4 Q7; lia). assert (L8 : Z.abs (c * d) <= imax t) by (rewrite P7; clear - I4 Q7; lia).
  assert (L9 : Z.abs (- d) <= imax t) by (rewrite Z.abs_opp, Ud; exact DN). assert (L0 : Z.abs 0 <= imax t) by (cbn; clear - DN T4; lia).
  clear H1 H2 P1 P2 P3 P4 P5 P6 P7 Q1 Q2 Q3 Q4 Q5 Q6 Q7 I1 I2 I3 I4 PB TR T1 T2 T3 T4 Ua Ub Uc Ud DN ua ub uc ud.
  set (A := a * c + b * d). set (B := b * c - a * d). exists (mkC (Z.quot A N) (Z.quot B N)).
  assert (QL : forall x, Z.abs (Z.quot x N) <= Z.abs x). { clear - NP. clearbody N. intros x. rewrite <- Z.quot_abs by lia. rewrite Z.quot_div_nonneg by lia. pose proof (Z.abs_nonneg x). rewrite (Z.abs_eq N) by lia. apply Z.div_le_upper_bound; nia. }
  split.
  - unfold quotient, cartesian_conj. cbn [int_signed o_neg]. fold d. rewrite (FI _ L9). cbn [bind]. unfold cartesian_mul, ops_mul_cartesian. cbn [re im int_ops o_mul o_add o_sub o_div]. fold a b c d.
    rewrite !Z.mul_opp_r, (Z.mul_comm d c), (FI _ L1), (FI _ L2), (FI _ L3), (FI _ L4), (FI _ L5), (FI _ L6), (FI _ L7), (FI _ L8). cbn [bind].
    replace (a * c - - (b * d)) with A by (unfold A; ring). replace (- (a * d) + b * c) with B by (unfold B; ring). replace (c * c - - (d * d)) with N by (unfold N; ring). replace (- (c * d) + c * d) with 0 by ring.
    rewrite (FI A J1), (FI B J2), (FI N J3), (FI 0 L0). cbn [bind re im].
    unfold int_div. apply Z.eqb_neq in N0. rewrite N0.
    assert (RA : in_rangeb t (Z.quot A N) = true) by (apply in_rangeb_spec, IR; eapply Z.le_trans; [apply QL|exact J1]). assert (RB : in_rangeb t (Z.quot B N) = true) by (apply in_rangeb_spec, IR; eapply Z.le_trans; [apply QL|exact J2]).
    rewrite RA. cbn [bind]. rewrite RB. reflexivity.
  - cbn [re im]. set (q1 := Z.quot A N). set (q2 := Z.quot B N). split.
    + set (x := a - (q1 * c - q2 * d)). set (y := b - (q1 * d + q2 * c)). pose proof (quot_err A N N0) as E1. pose proof (quot_err B N N0) as E2. fold q1 in E1. fold q2 in E2. rewrite (Z.abs_eq N) in E1, E2 by lia.
      set (e1 := A - q1 * N). set (e2 := B - q2 * N).
      assert (ID : (x * x + y * y) * N = e1 * e1 + e2 * e2) by (unfold x, y, e1, e2, A, B, N; ring).
      assert (F1 : e1 * e1 < N * N). { replace (e1 * e1) with (Z.abs e1 * Z.abs e1) by (rewrite <- Z.abs_mul; apply Z.abs_eq, Z.square_nonneg). assert (Z.abs e1 < N) by (unfold e1; rewrite <- Z.abs_opp; replace (- (A - q1 * N)) with (q1 * N - A) by ring; exact E1). pose proof (Z.abs_nonneg e1). apply Z.mul_lt_mono_nonneg; assumption. }
      assert (F2 : e2 * e2 < N * N). { replace (e2 * e2) with (Z.abs e2 * Z.abs e2) by (rewrite <- Z.abs_mul; apply Z.abs_eq, Z.square_nonneg). assert (Z.abs e2 < N) by (unfold e2; rewrite <- Z.abs_opp; replace (- (B - q2 * N)) with (q2 * N - B) by ring; exact E2). pose proof (Z.abs_nonneg e2). apply Z.mul_lt_mono_nonneg; assumption. }
      apply (Z.mul_lt_mono_pos_r N); auto. rewrite ID. replace (2 * N * N) with (N * N + N * N) by ring. apply Z.add_lt_mono; assumption.
    + intros k1 k2 E1 E2. assert (A = k1 * N) as KA by (unfold A, N; rewrite E1, E2; ring). assert (B = k2 * N) as KB by (unfold B, N; rewrite E1, E2; ring).
      unfold q1, q2. rewrite KA, KB, !Z.quot_mul by auto. reflexivity.
Qed.
