(** * Recursive filters and sums of products on floats. *)

From Coq Require Import ZArith Reals Lia Lra Psatz Bool List.
From Flocq Require Import Core.Core IEEE754.BinarySingleNaN.
From Verif Require Import Base FloatBase Literals Traits Trig FloatImpl Complex Spec SpecFilter Lemmas FloatLemmas FloatProofs FloatKit FloatArith PowFloat FloatSum FilterProofs ProdProofs PhaseAcc.
Import ListNotations.
Open Scope Z_scope.

Section FF.
Context {prec emax : Z} {Hp : Prec_gt_0 prec} {He : Prec_lt_emax prec emax}.
Notation float := (binary_float prec emax).
Notation fexp := (SpecFloat.fexp prec emax).
Notation rnd := (round radix2 fexp ZnearestE).
Notation u := (bpow radix2 (- prec)).
Notation eta := (bpow radix2 (3 - emax - prec)).
Notation fv := (@cvalf prec emax).

Lemma abs_cs : forall a b c d, (Rabs (a * c) + Rabs (b * d) <= cabs (a, b) * cabs (c, d))%R.
Proof.
  intros. pose proof (cabs_sq (a, b)) as S. pose proof (cabs_sq (c, d)) as T. cbn [fst snd] in *. rewrite !Rabs_mult.
  apply cs_le; try apply cabs_pos; rewrite <- !Rabs_mult, ?S, ?T, !Rabs_pos_eq by nra; lra.
Qed.
Lemma cabs_two : forall a b D, (Rabs a <= D)%R -> (Rabs b <= D)%R -> (cabs (a, b) <= 14143 / 10000 * D)%R.
Proof.
  intros a b D A B. pose proof (Rabs_pos a). apply Rabs_le_inv in A. apply Rabs_le_inv in B. apply cabs_le; [lra|]. cbn [fst snd]. nra.
Qed.

(** one step of [z = z * w + x] *)
Lemma ff_step : 5 <= prec -> forall k, 0 <= k -> 2 * k + 1 < emax -> forall w z x : Cartesian float, cfin w -> cfin z -> cfin x ->
  (cabs (fv w) <= 1)%R -> (cabs (fv z) <= bpow radix2 k)%R -> (cabs (fv x) <= bpow radix2 k)%R ->
  exists r, filt float_ops w z x = Ok r /\ cfin r /\
  (cabs (csub (fv r) (iir (fv w) (fv z) (fv x))) <= 4 * u * (cabs (fv z) * cabs (fv w) + cabs (fv x)) + 3 * eta)%R.
Proof.
  intros P5 k K0 K1 w z x Fw Fz Fx Lw Lz Lx. unfold cvalf in *.
  assert (E5 : prec < emax) by exact He.
  assert (U0 : (0 < u <= / 32)%R). { split; [apply bpow_gt_0|]. change (/ 32)%R with (bpow radix2 (-5)). apply bpow_le. lia. }
  assert (T0 : (0 < eta <= u)%R). { split; [apply bpow_gt_0|]. apply bpow_le. lia. }
  assert (K2 : (1 <= bpow radix2 k)%R). { change 1%R with (bpow radix2 0). apply bpow_le. lia. }
  destruct (fl_mul z w ltac:(lia) Fz Fw k) as (pr & Ep & Fp & D1 & D2); try lia.
  { eapply Rle_trans; [apply (cabs_fst (B2R (re z), B2R (im z)))|exact Lz]. }
  { eapply Rle_trans; [apply (cabs_snd (B2R (re z), B2R (im z)))|exact Lz]. }
  { eapply Rle_trans; [apply (cabs_fst (B2R (re w), B2R (im w)))|lra]. }
  { eapply Rle_trans; [apply (cabs_snd (B2R (re w), B2R (im w)))|lra]. }
  rewrite Ep. cbn [bind].
  pose proof (abs_cs (B2R (re z)) (B2R (im z)) (B2R (re w)) (B2R (im w))) as C1.
  assert (C2 : (Rabs (B2R (re z) * B2R (im w)) + Rabs (B2R (im z) * B2R (re w)) <= cabs (fv z) * cabs (fv w))%R).
  { unfold cvalf. replace (cabs (B2R (re w), B2R (im w))) with (cabs (B2R (im w), B2R (re w))) by (unfold cabs; cbn [fst snd]; f_equal; ring).
    exact (abs_cs (B2R (re z)) (B2R (im z)) (B2R (im w)) (B2R (re w))). }
  pose proof (cabs_mul (fv z) (fv w)) as MM. unfold cvalf in C2, MM. cbn [fst snd] in *.
  pose proof (cabs_pos (B2R (re z), B2R (im z))) as Z0. pose proof (cabs_pos (B2R (re w), B2R (im w))) as W0. pose proof (cabs_pos (B2R (re x), B2R (im x))) as X0.
  set (M := (cabs (B2R (re z), B2R (im z)) * cabs (B2R (re w), B2R (im w)))%R) in *.
  assert (M0 : (0 <= M <= bpow radix2 k)%R). { unfold M. split; [apply Rmult_le_pos; auto|]. clear - Z0 W0 Lw Lz. nra. }
  set (X := cabs (B2R (re x), B2R (im x))) in *.
  set (er := (B2R (re z) * B2R (re w) - B2R (im z) * B2R (im w))%R) in *. set (ei := (B2R (re z) * B2R (im w) + B2R (im z) * B2R (re w))%R) in *.
  set (D := ((2 * u + u * u) * M + 2 * eta)%R).
  assert (UU : (0 <= 2 * u + u * u)%R) by nra.
  assert (D1' : (Rabs (B2R (re pr) - er) <= D)%R). { eapply Rle_trans; [exact D1|]. unfold D. apply Rplus_le_compat_r. apply Rmult_le_compat_l; auto. }
  assert (D2' : (Rabs (B2R (im pr) - ei) <= D)%R). { eapply Rle_trans; [exact D2|]. unfold D. apply Rplus_le_compat_r. apply Rmult_le_compat_l; auto. }
  pose proof (cabs_two _ _ _ D1' D2') as DD.
  assert (DB : (D <= (2 + / 32) * u * M + 2 * eta)%R). { unfold D. apply Rplus_le_compat_r. apply Rmult_le_compat_r; [lra|]. nra. }
  assert (S : (cabs (B2R (re pr) + B2R (re x), B2R (im pr) + B2R (im x)) <= M + 14143 / 10000 * D + X)%R).
  { eapply Rle_trans; [apply cabs_tri|]. fold X. apply Rplus_le_compat_r.
    replace (B2R (re pr), B2R (im pr)) with (er + (B2R (re pr) - er), ei + (B2R (im pr) - ei))%R by (f_equal; ring).
    eapply Rle_trans; [apply cabs_tri|]. rewrite MM. lra. }
  set (V := (M + 14143 / 10000 * D + X)%R) in *.
  assert (VB : (V <= bpow radix2 (k + 2))%R).
  { rewrite bpow_plus. change (bpow radix2 2) with 4%R. unfold V.
    assert (u * M <= / 32 * M)%R by (apply Rmult_le_compat_r; lra). lra. }
  assert (KE : 3 - emax <= k + 2 < emax) by lia.
  pose proof (cabs_fst (B2R (re pr) + B2R (re x), B2R (im pr) + B2R (im x))%R) as S1. pose proof (cabs_snd (B2R (re pr) + B2R (re x), B2R (im pr) + B2R (im x))%R) as S2.
  cbn [fst snd] in S1, S2. destruct Fp as [Fp1 Fp2]. destruct Fx as [Fx1 Fx2].
  destruct (plus_r (re pr) (re x) Fp1 Fx1 (k + 2) KE ltac:(lra)) as [G1 R1]. destruct (plus_r (im pr) (im x) Fp2 Fx2 (k + 2) KE ltac:(lra)) as [G2 R2].
  exists (mkC (Bplus mode_NE (re pr) (re x)) (Bplus mode_NE (im pr) (im x))). split; [reflexivity|]. split; [split; assumption|]. cbn [re im].
  pose proof (plus_rel (re pr) (re x) Fp1 Fx1) as E1. pose proof (plus_rel (im pr) (im x) Fp2 Fx2) as E2. rewrite R1, R2.
  unfold csub, iir. cbn [fst snd]. fold er ei.
  set (s1 := (B2R (re pr) + B2R (re x))%R) in *. set (s2 := (B2R (im pr) + B2R (im x))%R) in *.
  replace (rnd s1 - (er + B2R (re x)))%R with ((rnd s1 - s1) + (B2R (re pr) - er))%R by (unfold s1; ring).
  replace (rnd s2 - (ei + B2R (im x)))%R with ((rnd s2 - s2) + (B2R (im pr) - ei))%R by (unfold s2; ring).
  eapply Rle_trans; [apply cabs_tri|].
  assert (T : (cabs (rnd s1 - s1, rnd s2 - s2) <= u * V)%R).
  { apply Rle_trans with (u * cabs (s1, s2))%R; [|apply Rmult_le_compat_l; [lra|exact S]].
    apply cabs_le; [apply Rmult_le_pos; [lra|apply cabs_pos]|]. cbn [fst snd].
    pose proof (cabs_sq (s1, s2)) as Q. cbn [fst snd] in Q.
    replace (u * cabs (s1, s2) * (u * cabs (s1, s2)))%R with (u * u * (cabs (s1, s2) * cabs (s1, s2)))%R by ring. rewrite Q.
    assert (SQ : forall a s, (Rabs a <= u * Rabs s)%R -> (a * a <= u * u * (s * s))%R).
    { intros a s H. pose proof (Rabs_pos a). replace (a * a)%R with (Rabs a * Rabs a)%R by (rewrite <- Rabs_mult; apply Rabs_pos_eq; nra).
      replace (s * s)%R with (Rabs s * Rabs s)%R by (rewrite <- Rabs_mult; apply Rabs_pos_eq; nra).
      replace (u * u * (Rabs s * Rabs s))%R with (u * Rabs s * (u * Rabs s))%R by ring. apply Rmult_le_compat; auto. }
    pose proof (SQ _ _ E1). pose proof (SQ _ _ E2). lra. }
  eapply Rle_trans; [apply Rplus_le_compat; [exact T|exact DD]|]. unfold V.
  assert (u * D <= / 32 * D)%R. { apply Rmult_le_compat_r; [|lra]. unfold D. assert (0 <= (2 * u + u * u) * M)%R by (apply Rmult_le_pos; lra). lra. }
  assert (0 <= u * M)%R by (apply Rmult_le_pos; lra). assert (0 <= u * X)%R by (apply Rmult_le_pos; lra). lra.
Qed.

Lemma ff_err : 5 <= prec -> forall k, 0 <= k -> 2 * k + 1 < emax -> forall w z x : Cartesian float, cfin w -> cfin z -> cfin x ->
  (cabs (fv w) <= 1)%R -> (cabs (fv z) <= bpow radix2 k)%R -> (cabs (fv x) <= bpow radix2 k)%R -> forall e,
  exists r, filt float_ops w z x = Ok r /\ cfin r /\
  (cabs (fv r) <= cabs (fv z) * cabs (fv w) + cabs (fv x) + (4 * u * (cabs (fv z) * cabs (fv w) + cabs (fv x)) + 3 * eta))%R /\
  (cabs (csub (fv r) (iir (fv w) e (fv x))) <= cabs (csub (fv z) e) * cabs (fv w) + (4 * u * (cabs (fv z) * cabs (fv w) + cabs (fv x)) + 3 * eta))%R.
Proof.
  intros P5 k K0 K1 w z x Fw Fz Fx Lw Lz Lx e. destruct (ff_step P5 k K0 K1 w z x Fw Fz Fx Lw Lz Lx) as (r & Er & Fr & A).
  exists r. split; [exact Er|]. split; [exact Fr|]. set (d := (4 * u * _ + _)%R) in *.
  pose proof (iir_diff (fv w) (fv z) e (fv x)) as D. pose proof (cabs_mul (csub (fv z) e) (fv w)) as M. rewrite <- D in M.
  assert (N : (cabs (iir (fv w) (fv z) (fv x)) <= cabs (fv z) * cabs (fv w) + cabs (fv x))%R).
  { rewrite <- cabs_mul. unfold iir. eapply Rle_trans; [apply cabs_tri|]. rewrite <- (surjective_pairing (fv x)). apply Rle_refl. }
  set (a := iir (fv w) (fv z) (fv x)) in *. set (b := iir (fv w) e (fv x)) in *. split.
  - replace (fv r) with (fst a + fst (csub (fv r) a), snd a + snd (csub (fv r) a))%R by (unfold csub; destruct (fv r); cbn [fst snd]; f_equal; ring).
    eapply Rle_trans; [apply cabs_tri|]. rewrite <- !surjective_pairing. lra.
  - rewrite <- M. replace (csub (fv r) b) with (fst (csub (fv r) a) + fst (csub a b), snd (csub (fv r) a) + snd (csub a b))%R by (unfold csub; cbn [fst snd]; f_equal; ring).
    eapply Rle_trans; [apply cabs_tri|]. rewrite <- !surjective_pairing. lra.
Qed.

Lemma ff_bounded : 5 <= prec -> forall k B, 0 <= k -> 2 * k + 1 < emax -> (0 <= B <= bpow radix2 k)%R -> forall w : Cartesian float, cfin w -> (cabs (fv w) <= 1)%R ->
  forall xs z e, cfin z -> Forall cfin xs ->
  let d := (4 * u * B + 3 * eta)%R in
  (cabs (fv z) + fold_right Rplus 0 (map (fun x => cabs (fv x)) xs) + INR (length xs) * d <= B)%R ->
  exists r, run (filt float_ops w) z xs = Ok r /\ cfin r /\
  (cabs (csub (fv r) (fold_left (iir (fv w)) (map fv xs) e)) <= cabs (csub (fv z) e) + INR (length xs) * d)%R.
Proof.
  intros P5 k B K0 K1 BK w Fw Lw. assert (U0 : (0 < u)%R) by apply bpow_gt_0. assert (T0 : (0 < eta)%R) by apply bpow_gt_0.
  induction xs as [|x xs IH]; intros z e Fz FA d H.
  - exists z. split; [reflexivity|]. split; [exact Fz|]. cbn. lra.
  - cbn [map fold_right length] in H. rewrite S_INR in H. inversion FA as [|? ? Fx FA']; subst.
    assert (N : (0 <= fold_right Rplus 0 (map (fun x => cabs (fv x)) xs))%R).
    { clear. induction xs as [|x xs IH]; cbn; [lra|]. pose proof (cabs_pos (fv x)). cbv beta in *. lra. }
    pose proof (cabs_pos (fv z)) as Z0. pose proof (cabs_pos (fv x)) as X0. pose proof (cabs_pos (fv w)) as W0.
    pose proof (pos_INR (length xs)) as LN. assert (D0 : (0 <= d)%R) by (unfold d; nra).
    assert (L0 : (0 <= INR (length xs) * d)%R) by (apply Rmult_le_pos; auto).
    assert (ZW : (cabs (fv z) * cabs (fv w) <= cabs (fv z))%R) by nra.
    destruct (ff_err P5 k K0 K1 w z x Fw Fz Fx Lw ltac:(lra) ltac:(lra) e) as (r & Er & Fr & A1 & A2).
    set (g := (4 * u * (cabs (fv z) * cabs (fv w) + cabs (fv x)) + 3 * eta)%R) in *.
    assert (G : (g <= d)%R). { unfold g, d. apply Rplus_le_compat_r. apply Rmult_le_compat_l; lra. }
    destruct (IH r (iir (fv w) e (fv x)) Fr FA') as (q & Eq & Fq & A3); [fold d; lra|].
    exists q. rewrite run_cons. rewrite Er. cbn [bind map fold_left length]. split; [exact Eq|]. split; [exact Fq|]. rewrite S_INR. fold d in A3.
    pose proof (cabs_pos (csub (fv z) e)) as E0. assert (cabs (csub (fv z) e) * cabs (fv w) <= cabs (csub (fv z) e))%R by nra. lra.
Qed.

Lemma ff_stable : 5 <= prec -> forall k B X rho, 0 <= k -> 2 * k + 1 < emax -> (B <= bpow radix2 k)%R -> forall w : Cartesian float, cfin w -> (cabs (fv w) <= rho < 1)%R ->
  let d := (4 * u * (rho * B + X) + 3 * eta)%R in (rho * B + X + d <= B)%R ->
  forall xs z e, cfin z -> (cabs (fv z) <= B)%R -> Forall (fun x => cfin x /\ (cabs (fv x) <= X)%R) xs -> (cabs (csub (fv z) e) * (1 - rho) <= d)%R ->
  exists r, run (filt float_ops w) z xs = Ok r /\ cfin r /\ (cabs (fv r) <= B)%R /\
  (cabs (csub (fv r) (fold_left (iir (fv w)) (map fv xs) e)) * (1 - rho) <= d)%R.
Proof.
  intros P5 k B X rho K0 K1 BK w Fw Lw d HB. assert (U0 : (0 < u)%R) by apply bpow_gt_0. assert (T0 : (0 < eta)%R) by apply bpow_gt_0.
  induction xs as [|x xs IH]; intros z e Fz Lz FA H.
  - exists z. split; [reflexivity|]. split; [exact Fz|]. split; [exact Lz|]. cbn. lra.
  - inversion FA as [|? ? [Fx Lx] FA']; subst.
    pose proof (cabs_pos (fv z)) as Z0. pose proof (cabs_pos (fv x)) as X0. pose proof (cabs_pos (fv w)) as W0.
    assert (ZW : (cabs (fv z) * cabs (fv w) <= rho * B)%R) by (rewrite Rmult_comm; apply Rmult_le_compat; lra).
    assert (RB : (0 <= rho * B)%R) by (apply Rmult_le_pos; lra).
    assert (D0 : (0 <= d)%R). { unfold d. assert (0 <= u * (rho * B + X))%R by (apply Rmult_le_pos; lra). lra. }
    destruct (ff_err P5 k K0 K1 w z x Fw Fz Fx ltac:(lra) ltac:(lra) ltac:(lra) e) as (r & Er & Fr & A1 & A2).
    set (g := (4 * u * (cabs (fv z) * cabs (fv w) + cabs (fv x)) + 3 * eta)%R) in *.
    assert (G : (g <= d)%R). { unfold g, d. apply Rplus_le_compat_r. apply Rmult_le_compat_l; lra. }
    destruct (IH r (iir (fv w) e (fv x)) Fr ltac:(lra) FA') as (q & Eq & Fq & A3 & A4).
    { pose proof (cabs_pos (csub (fv z) e)) as E0. set (s := cabs (csub (fv z) e)) in *. set (a := cabs (fv w)) in *.
      assert (s * a <= s * rho)%R by (apply Rmult_le_compat_l; lra).
      eapply Rle_trans; [apply Rmult_le_compat_r; [lra|exact A2]|]. assert (s * a * (1 - rho) <= s * rho * (1 - rho))%R by (apply Rmult_le_compat_r; lra).
      assert (g * (1 - rho) <= d * (1 - rho))%R by (apply Rmult_le_compat_r; lra).
      assert (rho * (s * (1 - rho)) <= rho * d)%R by (apply Rmult_le_compat_l; lra). lra. }
    exists q. rewrite run_cons. rewrite Er. cbn [bind map fold_left length]. auto.
Qed.

Lemma filter_bounded_float : 5 <= prec -> forall k B, 0 <= k -> 2 * k + 1 < emax -> (0 <= B <= bpow radix2 k)%R -> forall w : Cartesian float, cfin w -> (cabs (fv w) <= 1)%R ->
  forall z xs, cfin z -> Forall cfin xs ->
  let d := (4 * u * B + 3 * eta)%R in
  (cabs (fv z) + fold_right Rplus 0 (map (fun x => cabs (fv x)) xs) + INR (length xs) * d <= B)%R ->
  exists r, run (filt float_ops w) z xs = Ok r /\ cfin r /\
  (cabs (csub (fv r) (fold_left (iir (fv w)) (map fv xs) (fv z))) <= INR (length xs) * d)%R.
Proof.
  intros P5 k B K0 K1 BK w Fw Lw z xs Fz FA d H. destruct (ff_bounded P5 k B K0 K1 BK w Fw Lw xs z (fv z) Fz FA H) as (r & A & F & E).
  exists r. rewrite csub_self, Rplus_0_l in E. auto.
Qed.
Lemma filter_stable_float : 5 <= prec -> forall k B X rho, 0 <= k -> 2 * k + 1 < emax -> (0 <= X)%R -> (B <= bpow radix2 k)%R -> forall w : Cartesian float, cfin w -> (cabs (fv w) <= rho < 1)%R ->
  let d := (4 * u * (rho * B + X) + 3 * eta)%R in (rho * B + X + d <= B)%R ->
  forall z xs, cfin z -> (cabs (fv z) <= B)%R -> Forall (fun x => cfin x /\ (cabs (fv x) <= X)%R) xs ->
  exists r, run (filt float_ops w) z xs = Ok r /\ cfin r /\ (cabs (fv r) <= B)%R /\
  (cabs (csub (fv r) (fold_left (iir (fv w)) (map fv xs) (fv z))) <= d / (1 - rho))%R.
Proof.
  intros P5 k B X rho K0 K1 X0 BK w Fw Lw d HB z xs Fz Lz FA. assert (U0 : (0 < u)%R) by apply bpow_gt_0. assert (T0 : (0 < eta)%R) by apply bpow_gt_0.
  pose proof (cabs_pos (fv z)) as Z0. pose proof (cabs_pos (fv w)) as W0.
  assert (RB : (0 <= rho * B)%R) by (apply Rmult_le_pos; lra).
  assert (D0 : (0 <= d)%R). { unfold d. assert (0 <= u * (rho * B + X))%R by (apply Rmult_le_pos; lra). lra. }
  destruct (ff_stable P5 k B X rho K0 K1 BK w Fw Lw HB xs z (fv z) Fz Lz FA) as (r & A1 & A2 & A3 & A4); [rewrite csub_self; fold d; lra|].
  exists r. repeat split; auto; try apply A2. fold d in A4. apply Rmult_le_reg_r with (1 - rho)%R; [lra|]. unfold Rdiv. rewrite (Rmult_assoc d), Rinv_l by lra. lra.
Qed.

(** ** [acc = acc + z * w] over a list of pairs *)
Notation mag2 a b c d := (Rabs (a * c) + Rabs (b * d))%R.
Notation mac := (fun (acc : Cartesian float) zw => p <- cartesian_mul float_ops (fst zw) (snd zw) ;; cartesian_add float_ops acc p).
Notation exr := (fun zw : Cartesian float * Cartesian float => B2R (re (fst zw)) * B2R (re (snd zw)) - B2R (im (fst zw)) * B2R (im (snd zw)))%R.
Notation exi := (fun zw : Cartesian float * Cartesian float => B2R (re (fst zw)) * B2R (im (snd zw)) + B2R (im (fst zw)) * B2R (re (snd zw)))%R.
Notation abr := (fun zw : Cartesian float * Cartesian float => Rabs (B2R (re (fst zw)) * B2R (re (snd zw))) + Rabs (B2R (im (fst zw)) * B2R (im (snd zw))))%R.
Notation abi := (fun zw : Cartesian float * Cartesian float => Rabs (B2R (re (fst zw)) * B2R (im (snd zw))) + Rabs (B2R (im (fst zw)) * B2R (re (snd zw))))%R.

Definition pok k (zw : Cartesian float * Cartesian float) : Prop := cfin (fst zw) /\ cfin (snd zw) /\
  (Rabs (B2R (re (fst zw))) <= bpow radix2 k)%R /\ (Rabs (B2R (im (fst zw))) <= bpow radix2 k)%R /\
  (Rabs (B2R (re (snd zw))) <= bpow radix2 k)%R /\ (Rabs (B2R (im (snd zw))) <= bpow radix2 k)%R.

Lemma mac_products : 2 <= prec -> forall k, 3 - emax <= 2 * k -> 2 * k + 1 < emax -> forall ws, Forall (pok k) ws -> forall acc, exists ps,
  run mac acc ws = run (cartesian_add float_ops) acc ps /\ 
  Forall2 (fun zw pr => cfin pr /\ (Rabs (B2R (re pr) - exr zw) <= (2 * u + u * u) * abr zw + 2 * eta)%R /\
                        (Rabs (B2R (im pr) - exi zw) <= (2 * u + u * u) * abi zw + 2 * eta)%R) ws ps.
Proof.
  intros P2 k K1 K2. induction ws as [|[z w] ws IH]; intros FA acc.
  - exists []. split; [reflexivity|constructor].
  - inversion FA as [|? ? H FA']; subst. destruct H as (Fz & Fw & L1 & L2 & L3 & L4). cbn [fst snd] in *.
    destruct (fl_mul z w P2 Fz Fw k K1 K2 L1 L2 L3 L4) as (pr & Ep & Fp & D1 & D2).
    assert (EA : exists acc', cartesian_add float_ops acc pr = Ok acc') by (eexists; reflexivity). destruct EA as (acc' & EA).
    destruct (IH FA' acc') as (ps & E & F2). exists (pr :: ps). split.
    + rewrite !run_cons. cbn [fst snd]. rewrite Ep. cbn [bind]. rewrite EA. cbn [bind]. exact E.
    + constructor; auto.
Qed.
Lemma sum_near : forall (A B : Type) (ex ab : A -> R) (g : B -> R) c t (ws : list A) (ps : list B), (0 <= c)%R -> (0 <= t)%R ->
  Forall2 (fun a b => Rabs (g b - ex a) <= c * ab a + t)%R ws ps -> (forall a, (Rabs (ex a) <= ab a)%R) ->
  (Rabs (sumR (map g ps) - sumR (map ex ws)) <= c * sumR (map ab ws) + INR (length ws) * t)%R /\
  (sumR (map (fun b => Rabs (g b)) ps) <= (1 + c) * sumR (map ab ws) + INR (length ws) * t)%R.
Proof.
  intros A B ex ab g c t ws ps C0 T0 F2 EA. induction F2 as [|a b ws ps H F2 IH]; [cbn; rewrite Rminus_diag_eq, Rabs_R0 by reflexivity; lra|].
  cbn [map fold_right length]. rewrite S_INR. destruct IH as [I1 I2]. split.
  - replace (g b + sumR (map g ps) - (ex a + sumR (map ex ws)))%R with ((g b - ex a) + (sumR (map g ps) - sumR (map ex ws)))%R by ring.
    eapply Rle_trans; [apply Rabs_triang|]. lra.
  - assert (Rabs (g b) <= Rabs (g b - ex a) + Rabs (ex a))%R. { replace (g b) with ((g b - ex a) + ex a)%R at 1 by ring. apply Rabs_triang. }
    specialize (EA a). lra.
Qed.

Lemma mac_float : 4 <= prec -> forall k, 3 - emax <= 2 * k -> 2 * k + 1 < emax -> forall ws acc, Forall (pok k) ws -> cfin acc ->
  let n := INR (length ws) in let sum := fold_right Rplus 0%R in
  let Ar := (Rabs (B2R (re acc)) + sum (map abr ws))%R in let Ai := (Rabs (B2R (im acc)) + sum (map abi ws))%R in
  (n * u <= / 2)%R -> (Ar <= bpow radix2 (emax - 4))%R -> (Ai <= bpow radix2 (emax - 4))%R ->
  exists r, run mac acc ws = Ok r /\ cfin r /\
  (Rabs (B2R (re r) - (B2R (re acc) + sum (map exr ws))) <= (2 * n + 5) * u * Ar + 4 * n * eta)%R /\
  (Rabs (B2R (im r) - (B2R (im acc) + sum (map exi ws))) <= (2 * n + 5) * u * Ai + 4 * n * eta)%R.
Proof.
  intros P4 k K1 K2 ws acc FA Fa n sum Ar Ai NU HR HI. assert (E5 : prec < emax) by exact He.
  assert (U0 : (0 < u <= / 16)%R). { split; [apply bpow_gt_0|]. change (/ 16)%R with (bpow radix2 (-4)). apply bpow_le. lia. }
  assert (T0 : (0 < eta)%R) by apply bpow_gt_0. pose proof (pos_INR (length ws)) as N0. fold n in N0.
  destruct (mac_products ltac:(lia) k K1 K2 ws FA acc) as (ps & E & F2).
  assert (LEN : length ps = length ws) by (clear - F2; induction F2; cbn; auto).
  assert (C0 : (0 <= 2 * u + u * u)%R) by nra.
  destruct (sum_near _ _ exr abr (fun p : Cartesian float => B2R (re p)) (2 * u + u * u) (2 * eta) ws ps C0 ltac:(lra)) as [R1 R2].
  { clear - F2. induction F2 as [|a b ws ps H F2 IH]; constructor; [apply H|exact IH]. }
  { intros a. cbv beta. unfold Rminus. eapply Rle_trans; [apply Rabs_triang|]. rewrite Rabs_Ropp. lra. }
  destruct (sum_near _ _ exi abi (fun p : Cartesian float => B2R (im p)) (2 * u + u * u) (2 * eta) ws ps C0 ltac:(lra)) as [I1 I2].
  { clear - F2. induction F2 as [|a b ws ps H F2 IH]; constructor; [apply H|exact IH]. }
  { intros a. cbv beta. apply Rabs_triang. }
  fold n in R1, R2, I1, I2. fold sum in R1, R2, I1, I2.
  assert (NN : forall g : Cartesian float * Cartesian float -> R, (forall x, (0 <= g x)%R) -> (0 <= sum (map g ws))%R).
  { intros g G. unfold sum. clear - G. induction ws as [|w ws IH]; cbn; [lra|]. specialize (G w). lra. }
  assert (MR0 : (0 <= sum (map abr ws))%R) by (apply NN; intros x; pose proof (Rabs_pos (B2R (re (fst x)) * B2R (re (snd x)))); pose proof (Rabs_pos (B2R (im (fst x)) * B2R (im (snd x)))); lra).
  assert (MI0 : (0 <= sum (map abi ws))%R) by (apply NN; intros x; pose proof (Rabs_pos (B2R (re (fst x)) * B2R (im (snd x)))); pose proof (Rabs_pos (B2R (im (fst x)) * B2R (re (snd x)))); lra).
  assert (NT : (n * eta <= bpow radix2 (emax - 4))%R).
  { apply Rle_trans with (/ 2 * bpow radix2 (3 - emax))%R.
    - unfold Zminus. rewrite (bpow_plus radix2 (3 + - emax)). replace (n * (bpow radix2 (3 + - emax) * u))%R with (n * u * bpow radix2 (3 + - emax))%R by ring.
      apply Rmult_le_compat_r; [apply bpow_ge_0|exact NU].
    - pose proof (bpow_gt_0 radix2 (3 - emax)). apply Rle_trans with (bpow radix2 (3 - emax)); [lra|]. apply bpow_le. lia. }
  assert (B4 : bpow radix2 (emax - 2) = (4 * bpow radix2 (emax - 4))%R).
  { replace (emax - 2) with (2 + (emax - 4)) by ring. rewrite bpow_plus. reflexivity. }
  pose proof (@sum_float prec emax _ _ ltac:(lia) ps acc) as SF. cbv zeta in SF. rewrite LEN in SF. fold n in SF. cbn [map fold_right] in SF. fold sum in SF.
  pose proof (Rabs_pos (B2R (re acc))) as A0. pose proof (Rabs_pos (B2R (im acc))) as A1.
  assert (UU : (2 * u + u * u <= 17 / 8 * u)%R) by (assert (u * u <= / 16 * u)%R by (apply Rmult_le_compat_r; lra); lra).
  assert (PR : ((1 + (2 * u + u * u)) * sum (map abr ws) <= (1 + 1 / 7) * sum (map abr ws))%R) by (apply Rmult_le_compat_r; lra).
  assert (PI : ((1 + (2 * u + u * u)) * sum (map abi ws) <= (1 + 1 / 7) * sum (map abi ws))%R) by (apply Rmult_le_compat_r; lra).
  destruct SF as (r & Er & F1 & G1 & S1 & S2); auto.
  { intros w [<-|Hw]; [exact Fa|]. clear - F2 Hw. induction F2 as [|a b ws ps H F2 IH]; [destruct Hw|]. destruct Hw as [<-|Hw]; [apply H|auto]. }
  { rewrite B4. unfold Ar in HR. lra. }
  { rewrite B4. unfold Ai in HI. lra. }
  exists r. rewrite E. split; [exact Er|]. split; [split; assumption|].
  assert (NU0 : (0 <= n * u)%R) by (apply Rmult_le_pos; lra).
  assert (FIN : forall v s x a m bs, (Rabs (v - s) <= 2 * (n * u) * bs)%R -> (Rabs (s - x) <= (2 * u + u * u) * m + n * (2 * eta))%R ->
     (bs <= a + ((1 + (2 * u + u * u)) * m + n * (2 * eta)))%R -> (0 <= a)%R -> (0 <= m)%R ->
     (Rabs (v - x) <= (2 * n + 5) * u * (a + m) + 4 * n * eta)%R).
  { clear - NU NU0 U0 T0 UU C0 N0. intros v s x a m bs H1 H2 H3 Ha Hm. replace (v - x)%R with ((v - s) + (s - x))%R by ring. eapply Rle_trans; [apply Rabs_triang|].
    assert (X1 : (2 * (n * u) * bs <= 2 * (n * u) * (a + ((1 + (2 * u + u * u)) * m + n * (2 * eta))))%R) by (apply Rmult_le_compat_l; lra).
    assert (X2 : (2 * (n * u) * ((2 * u + u * u) * m) <= 1 * ((2 * u + u * u) * m))%R) by (apply Rmult_le_compat_r; [apply Rmult_le_pos; lra|lra]).
    assert (X3 : (2 * (n * u) * (n * (2 * eta)) <= 1 * (n * (2 * eta)))%R) by (apply Rmult_le_compat_r; [apply Rmult_le_pos; lra|lra]).
    assert (X4 : ((2 * u + u * u) * m <= 17 / 8 * u * m)%R) by (apply Rmult_le_compat_r; lra).
    assert (X5 : (0 <= u * a)%R) by (apply Rmult_le_pos; lra). assert (X6 : (0 <= u * m)%R) by (apply Rmult_le_pos; lra).
    set (c := (2 * u + u * u)%R) in *. set (q := (n * u)%R) in *.
    replace ((2 * n + 5) * u * (a + m))%R with (2 * q * a + 2 * q * m + 5 * (u * a) + 5 * (u * m))%R by (unfold q; ring). nra. }
  split.
  - eapply FIN; [exact S1| |  apply Rplus_le_compat_l; exact R2|auto|auto].
    replace (B2R (re acc) + sum (map (fun w => B2R (re w)) ps) - (B2R (re acc) + sum (map exr ws)))%R with (sum (map (fun w => B2R (re w)) ps) - sum (map exr ws))%R by ring. exact R1.
  - eapply FIN; [exact S2| |  apply Rplus_le_compat_l; exact I2|auto|auto].
    replace (B2R (im acc) + sum (map (fun w => B2R (im w)) ps) - (B2R (im acc) + sum (map exi ws)))%R with (sum (map (fun w => B2R (im w)) ps) - sum (map exi ws))%R by ring. exact I1.
Qed.
End FF.
