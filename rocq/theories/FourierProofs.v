(** * Fourier sums: accumulating samples times computed unit numbers. *)

From Coq Require Import ZArith Reals Lia Lra Psatz Bool List.
From Flocq Require Import Core.Core IEEE754.BinarySingleNaN.
From Verif Require Import Base FloatBase Literals Traits Trig IntImpl FixedPrim FixedImpl FloatImpl Complex Spec SpecFilter SpecRotor SpecFourier
  Lemmas FloatLemmas FloatKit ScalarProofs ScalarProofs2 WrapProofs WrapProofs2 ComplexProofs3 ProdProofs FilterProofs FloatArith PowFloat FloatSum FloatFilter PhaseAcc TrigMore MagMul RotorProofs.
Import ListNotations.
Open Scope Z_scope.

Section Real.
Open Scope R_scope.
Definition csum {A} (t : A -> R * R) (ws : list A) : R * R := fold_right (fun w s => cadd (t w) s) (0, 0) ws.
Definition rsum {A} (t : A -> R) (ws : list A) : R := fold_right (fun w s => t w + s) 0 ws.
Lemma cabs_cadd : forall z w, cabs (cadd z w) <= cabs z + cabs w.
Proof. intros [a b] [c d]. apply cabs_tri. Qed.
Lemma cadd_step : forall r acc' acc p t s, cabs (csub r (cadd acc (cadd t s))) <= cabs (csub r (cadd acc' s)) + cabs (csub acc' (cadd acc p)) + cabs (csub p t).
Proof.
  intros [r1 r2] [a1 a2] [b1 b2] [p1 p2] [t1 t2] [s1 s2]. unfold csub, cadd. cbn [fst snd].
  replace (r1 - (b1 + (t1 + s1))) with ((r1 - (a1 + s1)) + ((a1 - (b1 + p1)) + (p1 - t1))) by ring.
  replace (r2 - (b2 + (t2 + s2))) with ((r2 - (a2 + s2)) + ((a2 - (b2 + p2)) + (p2 - t2))) by ring.
  eapply Rle_trans; [apply cabs_tri|]. pose proof (cabs_tri (a1 - (b1 + p1)) (a2 - (b2 + p2)) (p1 - t1) (p2 - t2)). lra.
Qed.
Lemma csub_add0 : forall z, csub z (cadd z (0, 0)) = (0, 0).
Proof. intros [a b]. unfold csub, cadd. cbn [fst snd]. f_equal; ring. Qed.
Lemma cabs0 : cabs (0, 0) = 0.
Proof. unfold cabs. cbn [fst snd]. rewrite !Rmult_0_l, Rplus_0_l. apply sqrt_0. Qed.
Lemma rsum_pos : forall A (t : A -> R) ws, (forall w, In w ws -> 0 <= t w) -> 0 <= rsum t ws.
Proof. intros A t ws. induction ws as [|w ws IH]; intros H; cbn [rsum fold_right]; [lra|]. pose proof (H w (or_introl eq_refl)). assert (0 <= rsum t ws) by (apply IH; intros; apply H; right; auto). unfold rsum in *. lra. Qed.
End Real.

Lemma add_fixed_near : forall m f, supported f = true -> fsigned f = true -> forall z w, (cabs (cadd (cval f z) (cval f w)) <= fval f (fmax f))%R ->
  exists r, cartesian_add (fixed_ops m f) z w = Ok r /\ cval f r = cadd (cval f z) (cval f w).
Proof.
  intros m f S Sg z w H.
  pose proof (Rle_trans _ _ _ (cabs_fst _) H) as H1. pose proof (Rle_trans _ _ _ (cabs_snd _) H) as H2. unfold cadd, cval in H1, H2. cbn [fst snd] in H1, H2.
  rewrite <- fval_add in H1, H2. apply fval_inj_range in H1, H2; auto. apply in_rangeb_spec in H1, H2.
  exists (mkC (re z + re w) (im z + im w)). split; [|unfold cval, cadd; cbn [re im fst snd]; rewrite !fval_add; reflexivity].
  unfold cartesian_add. cbn [fixed_ops o_add]. unfold fx_add. rewrite !fx_fin_ok by auto. reflexivity.
Qed.

Lemma acc_fixed : forall m f, supported f = true -> fsigned f = true -> forall A (prod : nat -> A -> res (Cartesian Z)) (t : A -> R * R) (e b : A -> R) ws,
  (forall w, In w ws -> exists p, returns (fun fuel => prod fuel w) p /\ (cabs (csub (cval f p) (t w)) <= e w)%R /\ (cabs (cval f p) <= b w)%R) ->
  forall acc, (cabs (cval f acc) + rsum b ws <= fval f (fmax f))%R ->
  exists r, returns (fun fuel => run (fun acc w => p <- prod fuel w ;; cartesian_add (fixed_ops m f) acc p) acc ws) r /\
  (cabs (csub (cval f r) (cadd (cval f acc) (csum t ws))) <= rsum e ws)%R.
Proof.
  intros m f S Sg A prod t e b ws. induction ws as [|w ws IH]; intros H acc B.
  - exists acc. split; [exists O; reflexivity|]. cbn [csum rsum fold_right]. rewrite csub_add0, cabs0. lra.
  - destruct (H w (or_introl eq_refl)) as (p & [n1 Ep] & Np & Bp). cbn [rsum fold_right] in B. fold (rsum b ws) in B.
    assert (P0 : (0 <= rsum b ws)%R). { apply rsum_pos. intros v Hv. destruct (H v (or_intror Hv)) as (q & _ & _ & Bq). eapply Rle_trans; [apply cabs_pos|exact Bq]. }
    pose proof (cabs_cadd (cval f acc) (cval f p)) as T. destruct (add_fixed_near m f S Sg acc p ltac:(lra)) as (a & Ea & Va).
    destruct (IH (fun v Hv => H v (or_intror Hv)) a ltac:(rewrite Va; lra)) as (r & [n2 Er] & Nr).
    exists r. split.
    + exists (max n1 n2). intros fuel L. unfold run. cbn [fold_left bind]. rewrite Ep by lia. cbn [bind]. rewrite Ea. apply (Er fuel). lia.
    + cbn [csum rsum fold_right]. fold (csum t ws). fold (rsum e ws). pose proof (cadd_step (cval f r) (cval f a) (cval f acc) (cval f p) (t w) (csum t ws)) as C.
      rewrite Va, csub_self in C. rewrite <- Va in C. lra.
Qed.

Notation vals f ws := (map (fun xa => (cval f (fst xa), fval f (snd xa))) ws).
Lemma fourier_sum : forall A (g1 : A -> R * R) (g2 : A -> R) ws, fourier (map (fun x => (g1 x, g2 x)) ws) = csum (fun x => cmul (g1 x) (cis (g2 x))) ws.
Proof. intros. induction ws as [|w ws IH]; [reflexivity|]. cbn [map fourier csum fold_right fst snd]. f_equal. exact IH. Qed.
Lemma total_sum : forall A (g1 : A -> R * R) (g2 : A -> R) ws, total (map (fun x => (g1 x, g2 x)) ws) = rsum (fun x => cabs (g1 x)) ws.
Proof. intros. induction ws as [|w ws IH]; [reflexivity|]. cbn [map total rsum fold_right fst snd]. f_equal. exact IH. Qed.
Lemma rsum_lin : forall A (t : A -> R) c g ws, rsum (fun x => (t x * c + g)%R) ws = (rsum t ws * c + INR (length ws) * g)%R.
Proof. intros. induction ws as [|w ws IH]; [cbn; ring|]. cbn [rsum fold_right length]. rewrite S_INR. unfold rsum in IH. rewrite IH. unfold rsum. ring. Qed.

Lemma fourier_fixed : forall m f, supported f = true -> fsigned f = true -> ffrac f <= fwidth f - 20 -> forall (ws : list (Cartesian Z * Z)) acc,
  (forall x a, In (x, a) ws -> (Rabs (fval f a) <= PI)%R) ->
  let d := (14143 / 10000 * e f)%R in let n := INR (length ws) in let T := total (vals f ws) in
  (cabs (cval f acc) + T * (1 + d) + n * g f <= fval f (fmax f))%R ->
  exists r, returns (fun fuel => run (fun acc xa => p <- (w <- rotor_fixed m f fuel (snd xa) ;; cartesian_mul (fixed_ops m f) (fst xa) w) ;; cartesian_add (fixed_ops m f) acc p) acc ws) r /\
  (cabs (csub (cval f r) (cadd (cval f acc) (fourier (vals f ws)))) <= T * d + n * g f)%R.
Proof.
  intros m f Hf S I ws acc Ha d n T B. pose proof (supported_fwf f Hf) as W.
  assert (U : (0 < ulp f)%R) by apply bpow_gt_0. assert (D0 : (0 < d)%R) by (unfold d; nra).
  unfold T, n in *. rewrite fourier_sum, total_sum in *. rewrite <- (rsum_lin _ _ d (g f)). rewrite Rplus_assoc, <- (rsum_lin _ _ (1 + d) (g f)) in B.
  apply acc_fixed with (b := fun x => (cabs (cval f (fst x)) * (1 + d) + g f)%R); auto.
  intros [x a] Hin. cbn [fst snd].
  assert (LE : (cabs (cval f x) * (1 + d) + g f <= rsum (fun xa => cabs (cval f (fst xa)) * (1 + d) + g f) ws)%R).
  { clear - Hin D0 U. induction ws as [|w ws IH]; [destruct Hin|]. cbn [rsum fold_right].
    assert (Q : forall v, (0 <= cabs (cval f v) * (1 + d) + g f)%R) by (intros v; pose proof (cabs_pos (cval f v)); nra).
    pose proof (rsum_pos _ (fun xa => (cabs (cval f (fst xa)) * (1 + d) + g f)%R) ws (fun v _ => Q _)) as P. unfold rsum in *.
    destruct Hin as [->|Hin]; [cbn [fst]; lra|]. pose proof (IH Hin). pose proof (Q (fst w)). lra. }
  destruct (rotate_fixed m f Hf S I x a (Ha x a Hin)) as (r & R & N & _). { pose proof (cabs_pos (cval f acc)). fold d. lra. }
  fold d in N. exists r. split; auto. split; auto.
  pose proof (cabs_via (cval f r) (cmul (cval f x) (cis (fval f a)))) as V. rewrite cabs_cmul, cis_abs in V. lra.
Qed.

Section Float.
Context {prec emax : Z} {Hp : Prec_gt_0 prec} {He : Prec_lt_emax prec emax}.
Notation float := (binary_float prec emax).
Notation u := (bpow radix2 (- prec)).
Notation fv := (@cvalf prec emax).
Hypothesis E3 : 3 <= emax.

Lemma add_float_rel : forall z w : Cartesian float, cfin z -> cfin w -> (cabs (fv z) + cabs (fv w) <= bpow radix2 (emax - 1))%R ->
  exists r, cartesian_add float_ops z w = Ok r /\ cfin r /\ (cabs (csub (fv r) (cadd (fv z) (fv w))) <= u * cabs (cadd (fv z) (fv w)))%R.
Proof using E3.
  intros z w Fz Fw B. pose proof (cabs_cadd (fv z) (fv w)) as T. assert (U : (0 < u)%R) by apply bpow_gt_0.
  assert (B1 : (Rabs (B2R (re z) + B2R (re w)) <= bpow radix2 (emax - 1))%R) by (pose proof (cabs_fst (cadd (fv z) (fv w))) as H; cbn [cadd fst cvalf] in H; lra).
  assert (B2 : (Rabs (B2R (im z) + B2R (im w)) <= bpow radix2 (emax - 1))%R) by (pose proof (cabs_snd (cadd (fv z) (fv w))) as H; cbn [cadd snd cvalf] in H; lra).
  destruct Fz as [Fz1 Fz2], Fw as [Fw1 Fw2].
  destruct (plus_r (prec := prec) (emax := emax) (re z) (re w) Fz1 Fw1 (emax - 1) ltac:(lia) B1) as [Fr Vr].
  destruct (plus_r (prec := prec) (emax := emax) (im z) (im w) Fz2 Fw2 (emax - 1) ltac:(lia) B2) as [Fi Vi].
  exists (mkC (Bplus mode_NE (re z) (re w)) (Bplus mode_NE (im z) (im w))). split; [reflexivity|]. split; [split; auto|].
  pose proof (plus_rel (prec := prec) (emax := emax) (re z) (re w) Fz1 Fw1) as P1. pose proof (plus_rel (prec := prec) (emax := emax) (im z) (im w) Fz2 Fw2) as P2.
  apply cabs_le; [apply Rmult_le_pos; [lra|apply cabs_pos]|].
  replace (u * cabs (cadd (fv z) (fv w)) * (u * cabs (cadd (fv z) (fv w))))%R with (u * u * (cabs (cadd (fv z) (fv w)) * cabs (cadd (fv z) (fv w))))%R by ring.
  rewrite cabs_sq. cbn [cadd csub cvalf fst snd re im]. rewrite Vr, Vi.
  set (x := (B2R (re z) + B2R (re w))%R) in *. set (y := (B2R (im z) + B2R (im w))%R) in *.
  assert (SQ : forall a b, (Rabs a <= u * Rabs b -> a * a <= u * u * (b * b))%R).
  { intros a b H. assert (Q : forall c, (c * c = Rabs c * Rabs c)%R) by (intros c; rewrite <- Rabs_mult; symmetry; apply Rabs_pos_eq; nra). rewrite (Q a), (Q b). pose proof (Rabs_pos a). replace (u * u * (Rabs b * Rabs b))%R with (u * Rabs b * (u * Rabs b))%R by ring. apply Rmult_le_compat; auto. }
  pose proof (SQ _ _ P1). pose proof (SQ _ _ P2). lra.
Qed.
Lemma add_float_near : forall z w : Cartesian float, cfin z -> cfin w -> (cabs (fv z) + cabs (fv w) <= bpow radix2 (emax - 1))%R ->
  exists r, cartesian_add float_ops z w = Ok r /\ cfin r /\ (cabs (csub (fv r) (cadd (fv z) (fv w))) <= u * (cabs (fv z) + cabs (fv w)))%R.
Proof using E3.
  intros z w Fz Fw B. destruct (add_float_rel z w Fz Fw B) as (r & E & F & N). exists r. split; auto. split; auto.
  eapply Rle_trans; [exact N|]. apply Rmult_le_compat_l; [left; apply bpow_gt_0|apply cabs_cadd].
Qed.
Lemma acc_float : forall A (prod : nat -> A -> res (Cartesian float)) (t : A -> R * R) (e b : A -> R) ws,
  (forall w, In w ws -> exists p, returns (fun fuel => prod fuel w) p /\ cfin p /\ (cabs (csub (fv p) (t w)) <= e w)%R /\ (cabs (fv p) <= b w)%R) ->
  forall acc, cfin acc -> ((1 + u) ^ length ws * (cabs (fv acc) + rsum b ws) <= bpow radix2 (emax - 1))%R ->
  exists r, returns (fun fuel => run (fun acc w => p <- prod fuel w ;; cartesian_add float_ops acc p) acc ws) r /\ cfin r /\
  (cabs (csub (fv r) (cadd (fv acc) (csum t ws))) <= rsum e ws + ((1 + u) ^ length ws - 1) * (cabs (fv acc) + rsum b ws))%R.
Proof using E3.
  intros A prod t e b ws. induction ws as [|w ws IH]; intros H acc Fa B.
  - exists acc. split; [exists O; reflexivity|]. split; auto. cbn [csum rsum fold_right length pow]. rewrite csub_add0, cabs0. lra.
  - destruct (H w (or_introl eq_refl)) as (p & [n1 Ep] & Fp & Np & Bp). cbn [rsum fold_right length pow] in *. fold (rsum b ws) in *.
    assert (P0 : (0 <= rsum b ws)%R). { apply rsum_pos. intros v Hv. destruct (H v (or_intror Hv)) as (q & _ & _ & _ & Bq). eapply Rle_trans; [apply cabs_pos|exact Bq]. }
    assert (U : (0 < u)%R) by apply bpow_gt_0. assert (Q : (1 <= (1 + u) ^ length ws)%R) by (apply pow_R1_Rle; lra).
    set (q := ((1 + u) ^ length ws)%R) in *. pose proof (cabs_pos (fv acc)) as A0. pose proof (cabs_pos (fv p)) as C0.
    assert (S1 : (cabs (fv acc) + cabs (fv p) <= cabs (fv acc) + (b w + rsum b ws))%R) by lra.
    assert (S2 : (1 * (cabs (fv acc) + (b w + rsum b ws)) <= (1 + u) * q * (cabs (fv acc) + (b w + rsum b ws)))%R) by (apply Rmult_le_compat_r; nra).
    destruct (add_float_near acc p Fa Fp ltac:(lra)) as (a & Ea & Fa' & Va).
    pose proof (cabs_via (fv a) (cadd (fv acc) (fv p))) as V. pose proof (cabs_cadd (fv acc) (fv p)) as T.
    assert (BA : (cabs (fv a) <= (1 + u) * (cabs (fv acc) + b w))%R). { assert (u * (cabs (fv acc) + cabs (fv p)) <= u * (cabs (fv acc) + b w))%R by (apply Rmult_le_compat_l; lra). lra. }
    assert (BQ : (cabs (fv a) + rsum b ws <= (1 + u) * (cabs (fv acc) + (b w + rsum b ws)))%R) by nra.
    destruct (IH (fun v Hv => H v (or_intror Hv)) a Fa') as (r & [n2 Er] & Fr & Nr).
    { eapply Rle_trans; [apply Rmult_le_compat_l; [lra|exact BQ]|]. replace (q * ((1 + u) * (cabs (fv acc) + (b w + rsum b ws))))%R with ((1 + u) * q * (cabs (fv acc) + (b w + rsum b ws)))%R by ring. exact B. }
    exists r. split; [|split; auto].
    + exists (max n1 n2). intros fuel L. unfold run. cbn [fold_left bind]. rewrite Ep by lia. cbn [bind]. rewrite Ea. apply (Er fuel). lia.
    + cbn [csum fold_right]. fold (csum t ws). fold (rsum e ws). pose proof (cadd_step (fv r) (fv a) (fv acc) (fv p) (t w) (csum t ws)) as C.
      assert (X1 : ((q - 1) * (cabs (fv a) + rsum b ws) <= (q - 1) * ((1 + u) * (cabs (fv acc) + b w) + rsum b ws))%R) by (apply Rmult_le_compat_l; lra).
      assert (X2 : (u * (cabs (fv acc) + cabs (fv p)) <= u * (cabs (fv acc) + b w))%R) by (apply Rmult_le_compat_l; lra).
      assert (X3 : (0 <= u * q * rsum b ws)%R) by (apply Rmult_le_pos; [nra|auto]).
      nra.
Qed.
Notation eta := (bpow radix2 (3 - emax - prec)).
Notation fvals ws := (map (fun xa : Cartesian float * float => (fv (fst xa), B2R (snd xa))) ws).
Lemma fourier_any : 24 <= prec -> 100 <= emax -> forall (ws : list (Cartesian float * float)) acc, cfin acc ->
  (forall x a, In (x, a) ws -> (cabs (fv x) <= bpow radix2 (emax - 10))%R -> exists r, returns (fun fuel => w <- rotor fuel a ;; cartesian_mul float_ops x w) r /\ cfin r /\
     (cabs (csub (fv r) (cmul (fv x) (cis (B2R a)))) <= 8 / 1000000 * cabs (fv x) + 3 * eta)%R) ->
  let n := INR (length ws) in let T := total (fvals ws) in (n * u <= / 2)%R -> (cabs (fv acc) + T <= bpow radix2 (emax - 10))%R ->
  exists r, returns (fun fuel => run (fun acc xa => p <- (w <- rotor fuel (snd xa) ;; cartesian_mul float_ops (fst xa) w) ;; cartesian_add float_ops acc p) acc ws) r /\ cfin r /\
  (cabs (csub (fv r) (cadd (fv acc) (fourier (fvals ws)))) <= T * (8 / 1000000 + 3 * n * u) + 2 * n * u * cabs (fv acc) + 6 * n * eta)%R.
Proof using E3.
  intros P24 E100 ws acc Fa H n T NU B. unfold T in *. rewrite fourier_sum, total_sum in *.
  set (X := rsum (fun xa => cabs (fv (fst xa))) ws) in *. assert (U : (0 < u)%R) by apply bpow_gt_0. assert (ET : (0 < eta)%R) by apply bpow_gt_0.
  assert (N0 : (0 <= n)%R) by apply pos_INR. assert (X0 : (0 <= X)%R) by (apply rsum_pos; intros; apply cabs_pos).
  pose proof (cabs_pos (fv acc)) as A0. pose proof (bern_high u (length ws) ltac:(lra) NU) as BH. fold n in BH.
  assert (Q1 : (1 <= (1 + u) ^ length ws)%R) by (apply pow_R1_Rle; lra).
  assert (UB : (u <= / 16777216)%R). { change (/ 16777216)%R with (bpow radix2 (-24)). apply bpow_le. lia. }
  assert (NE : (n * eta <= 1)%R). { replace (n * eta)%R with ((n * u) * bpow radix2 (3 - emax))%R by (rewrite Rmult_assoc, <- bpow_plus; do 2 f_equal; lia).
    assert (bpow radix2 (3 - emax) <= 1)%R by (change 1%R with (bpow radix2 0); apply bpow_le; lia). pose proof (bpow_gt_0 radix2 (3 - emax)). nra. }
  assert (BB : (1 <= bpow radix2 (emax - 10))%R) by (change 1%R with (bpow radix2 0); apply bpow_le; lia).
  assert (BE : (bpow radix2 (emax - 1) = 512 * bpow radix2 (emax - 10))%R) by (replace (emax - 1) with (9 + (emax - 10)) by lia; rewrite bpow_plus; reflexivity).
  destruct (acc_float (Cartesian float * float) (fun fuel xa => w <- rotor fuel (snd xa) ;; cartesian_mul float_ops (fst xa) w)
    (fun xa => cmul (fv (fst xa)) (cis (B2R (snd xa)))) (fun xa => cabs (fv (fst xa)) * (8 / 1000000) + 3 * eta)%R (fun xa => cabs (fv (fst xa)) * (1 + 8 / 1000000) + 3 * eta)%R ws) with (acc := acc) as (r & R & Fr & N).
  - intros [x a] Hin. cbn [fst snd]. assert (LE : (cabs (fv x) <= X)%R).
    { unfold X. clear - Hin. induction ws as [|w ws IH]; [destruct Hin|]. cbn [rsum fold_right].
      pose proof (rsum_pos _ (fun xa : Cartesian float * float => cabs (fv (fst xa))) ws (fun v _ => cabs_pos _)) as P. unfold rsum in *.
      destruct Hin as [->|Hin]; [cbn [fst]; lra|]. pose proof (IH Hin). pose proof (cabs_pos (fv (fst w))). lra. }
    destruct (H x a Hin ltac:(lra)) as (r & R & Fr & N). exists r. split; auto. split; auto. split; [lra|].
    pose proof (cabs_via (fv r) (cmul (fv x) (cis (B2R a)))) as V. rewrite cabs_cmul, cis_abs in V. lra.
  - exact Fa.
  - rewrite rsum_lin. fold X. fold n. apply Rle_trans with (2 * (cabs (fv acc) + (X * (1 + 8 / 1000000) + n * (3 * eta))))%R; [apply Rmult_le_compat_r; nra|lra].
  - exists r. split; auto. split; auto. rewrite !rsum_lin in N. fold X in N. fold n in N. eapply Rle_trans; [exact N|].
    set (Y := (cabs (fv acc) + (X * (1 + 8 / 1000000) + n * (3 * eta)))%R) in *.
    assert (Y0 : (0 <= Y)%R) by (unfold Y; nra).
    assert (S : (((1 + u) ^ length ws - 1) * Y <= 2 * (n * u) * Y)%R) by (apply Rmult_le_compat_r; lra).
    assert (S1 : (2 * (n * u) * (n * (3 * eta)) <= 1 * (n * (3 * eta)))%R) by (apply Rmult_le_compat_r; [nra|lra]).
    assert (S2 : (0 <= n * u * X)%R) by (apply Rmult_le_pos; [apply Rmult_le_pos; lra|auto]).
    apply Rle_trans with (X * (8 / 1000000) + n * (3 * eta) + 2 * (n * u) * Y)%R; [lra|]. unfold Y. lra.
Qed.
End Float.

Notation fvals ws := (map (fun xa => (cvalf (fst xa), B2R (snd xa))) ws).
Lemma fourier_f32 : forall (ws : list (Cartesian f32 * f32)) acc, finite acc ->
  (forall x a, In (x, a) ws -> finite x /\ is_finite a = true /\ (Rabs (B2R a) <= PI)%R) ->
  let n := INR (length ws) in let T := total (fvals ws) in let u := bpow radix2 (-24) in (n * u <= / 2)%R -> (cabs (cvalf acc) + T <= bpow radix2 63)%R ->
  exists r, returns (fun fuel => run (fun acc xa => p <- (w <- rotor fuel (snd xa) ;; cartesian_mul float_ops (fst xa) w) ;; cartesian_add float_ops acc p) acc ws) r /\ finite r /\
  (cabs (csub (cvalf r) (cadd (cvalf acc) (fourier (fvals ws)))) <= T * (8 / 1000000 + 3 * n * u) + 2 * n * u * cabs (cvalf acc) + 6 * n * bpow radix2 (-149))%R.
Proof.
  intros ws acc Fa H n T u NU B. assert (B' : (bpow radix2 63 <= bpow radix2 (128 - 10))%R) by (apply bpow_le; lia).
  refine (fourier_any (prec := 24) (emax := 128) ltac:(lia) ltac:(lia) ltac:(lia) ws acc Fa _ NU (Rle_trans _ _ _ B B')).
  intros x a Hin _. destruct (H x a Hin) as (Fx & Fx' & X).
  assert (LE : (cabs (cvalf x) <= T)%R).
  { unfold T. rewrite total_sum. clear - Hin. induction ws as [|w ws IH]; [destruct Hin|]. cbn [rsum fold_right].
    pose proof (rsum_pos _ (fun xa : Cartesian f32 * f32 => cabs (cvalf (fst xa))) ws (fun v _ => cabs_pos _)) as P. unfold rsum in *.
    destruct Hin as [->|Hin]; [cbn [fst]; lra|]. pose proof (IH Hin). pose proof (cabs_pos (cvalf (fst w))). lra. }
  destruct (rotate_f32 x a Fx Fx' X) as (r & R & Fr & N & _); [pose proof (cabs_pos (cvalf acc)); lra|]. exists r. auto.
Qed.
Lemma fourier_f64 : forall (ws : list (Cartesian f64 * f64)) acc, finite acc ->
  (forall x a, In (x, a) ws -> finite x /\ is_finite a = true /\ (Rabs (B2R a) <= PI)%R) ->
  let n := INR (length ws) in let T := total (fvals ws) in let u := bpow radix2 (-53) in (n * u <= / 2)%R -> (cabs (cvalf acc) + T <= bpow radix2 511)%R ->
  exists r, returns (fun fuel => run (fun acc xa => p <- (w <- rotor fuel (snd xa) ;; cartesian_mul float_ops (fst xa) w) ;; cartesian_add float_ops acc p) acc ws) r /\ finite r /\
  (cabs (csub (cvalf r) (cadd (cvalf acc) (fourier (fvals ws)))) <= T * (8 / 1000000 + 3 * n * u) + 2 * n * u * cabs (cvalf acc) + 6 * n * bpow radix2 (-1074))%R.
Proof.
  intros ws acc Fa H n T u NU B. assert (B' : (bpow radix2 511 <= bpow radix2 (1024 - 10))%R) by (apply bpow_le; lia).
  refine (fourier_any (prec := 53) (emax := 1024) ltac:(lia) ltac:(lia) ltac:(lia) ws acc Fa _ NU (Rle_trans _ _ _ B B')).
  intros x a Hin _. destruct (H x a Hin) as (Fx & Fx' & X).
  assert (LE : (cabs (cvalf x) <= T)%R).
  { unfold T. rewrite total_sum. clear - Hin. induction ws as [|w ws IH]; [destruct Hin|]. cbn [rsum fold_right].
    pose proof (rsum_pos _ (fun xa : Cartesian f64 * f64 => cabs (cvalf (fst xa))) ws (fun v _ => cabs_pos _)) as P. unfold rsum in *.
    destruct Hin as [->|Hin]; [cbn [fst]; lra|]. pose proof (IH Hin). pose proof (cabs_pos (cvalf (fst w))). lra. }
  destruct (rotate_f64 x a Fx Fx' X) as (r & R & Fr & N & _); [pose proof (cabs_pos (cvalf acc)); lra|]. exists r. auto.
Qed.
