(** * Accuracy of sums of float complex numbers (proofs for C97). *)

From Coq Require Import ZArith Reals Lia Lra Psatz Bool List.
From Flocq Require Import Core.Core Relative Plus_error IEEE754.BinarySingleNaN.
From Verif Require Import Base FloatBase Literals Traits Trig FloatImpl Complex Spec Lemmas FloatLemmas FloatProofs FloatArith PowFloat.
Import ListNotations.
Open Scope Z_scope.

Notation sumR l := (fold_right Rplus 0%R l).

Section Sum.
Context {prec emax : Z} {Hp : Prec_gt_0 prec} {He : Prec_lt_emax prec emax}.
Notation float := (binary_float prec emax).
Notation fexp := (SpecFloat.fexp prec emax).
Notation rnd := (round radix2 fexp ZnearestE).
Notation u := (bpow radix2 (- prec)).

Lemma plus_rel : forall a b : float, is_finite a = true -> is_finite b = true ->
  (Rabs (rnd (B2R a + B2R b) - (B2R a + B2R b)) <= u * Rabs (B2R a + B2R b))%R.
Proof using Hp.
  intros a b Fa Fb. pose proof (u_bound (prec := prec)) as UB.
  destruct (FLT_plus_error_N_ex radix2 (3 - emax - prec) prec (fun x => negb (Z.even x)) (B2R a) (B2R b)) as (e & E & R).
  - apply (generic_format_B2R prec emax).
  - apply (generic_format_B2R prec emax).
  - change (round radix2 (FLT_exp (3 - emax - prec) prec) (Znearest (fun x => negb (Z.even x))) (B2R a + B2R b)) with (rnd (B2R a + B2R b)) in R.
    rewrite R. replace ((B2R a + B2R b) * (1 + e) - (B2R a + B2R b))%R with (e * (B2R a + B2R b))%R by ring. rewrite Rabs_mult.
    apply Rmult_le_compat_r; [apply Rabs_pos|]. eapply Rle_trans; [exact E|].
    assert (EU : u_ro radix2 prec = u). { unfold u_ro. rewrite bpow_plus. change (bpow radix2 1) with 2%R. lra. } rewrite EU.
    apply Rmult_le_reg_r with (1 + u)%R; [lra|]. unfold Rdiv. rewrite Rmult_assoc, Rinv_l by lra. nra.
Qed.

Lemma fold_acc : forall (E3 : 3 <= emax) (xs : list float) (s : float) S A k, is_finite s = true -> (forall x, In x xs -> is_finite x = true) ->
  (Rabs S <= A)%R -> (Rabs (B2R s - S) <= ((1 + u) ^ k - 1) * A)%R ->
  (A + sumR (map (fun x => Rabs (B2R x)) xs) <= bpow radix2 (emax - 2))%R -> (INR (k + length xs) * u <= / 2)%R ->
  let r := fold_left (fun a b => Bplus mode_NE a b) xs s in
  is_finite r = true /\ (Rabs (B2R r - (S + sumR (map B2R xs))) <= ((1 + u) ^ (k + length xs) - 1) * (A + sumR (map (fun x => Rabs (B2R x)) xs)))%R.
Proof.
  intros E3. pose proof (u_bound (prec := prec)) as UB.
  induction xs as [|x xs IH]; intros s S A k Fs Fx HS HE HA HU; cbn [map fold_right fold_left length] in *.
  - rewrite Nat.add_0_r, !Rplus_0_r in *. auto.
  - assert (Fx0 : is_finite x = true) by (apply Fx; left; reflexivity). set (B := sumR (map (fun x => Rabs (B2R x)) xs)) in *.
    assert (B0 : (0 <= B)%R). { unfold B. clear. induction xs as [|y ys IH]; simpl; [lra|]. pose proof (Rabs_pos (B2R y)). lra. }
    pose proof (Rabs_pos (B2R x)) as X0. pose proof (Rabs_pos S) as S0.
    assert (UK : (INR k * u <= / 2)%R).
    { eapply Rle_trans; [|exact HU]. apply Rmult_le_compat_r; [lra|]. apply le_INR. lia. }
    pose proof (bern_high u k ltac:(lra) UK) as BH. assert (PK : (1 <= (1 + u) ^ k)%R) by (apply pow_R1_Rle; lra).
    assert (SUM : (Rabs (B2R s + B2R x) <= (1 + u) ^ k * (A + Rabs (B2R x)))%R).
    { replace (B2R s + B2R x)%R with ((B2R s - S) + S + B2R x)%R by ring.
      eapply Rle_trans; [apply Rabs_triang|]. eapply Rle_trans; [apply Rplus_le_compat_r, Rabs_triang|]. nra. }
    assert (AB : (Rabs (B2R s + B2R x) <= bpow radix2 (emax - 1))%R).
    { eapply Rle_trans; [exact SUM|]. replace (emax - 1) with (emax - 2 + 1) by ring. rewrite bpow_plus. change (bpow radix2 1) with 2%R. nra. }
    assert (FT : (Rabs (rnd (B2R s + B2R x)) < bpow radix2 emax)%R).
    { apply Rle_lt_trans with (bpow radix2 (emax - 1)); [|apply bpow_lt; lia].
      apply abs_round_le_generic; [apply (fexp_correct prec emax Hp) | apply valid_rnd_N | | exact AB].
      apply generic_format_bpow. unfold SpecFloat.fexp, SpecFloat.emin. unfold Prec_gt_0 in Hp. lia. }
    destruct (plus_ok s x Fs Fx0 FT) as [F R]. pose proof (plus_rel s x Fs Fx0) as PR.
    destruct (IH (Bplus mode_NE s x) (S + B2R x)%R (A + Rabs (B2R x))%R (Datatypes.S k)) as [G1 G2]; [exact F | intros y Hy; apply Fx; right; exact Hy | | | | |].
    + eapply Rle_trans; [apply Rabs_triang|]. lra.
    + rewrite R. replace (rnd (B2R s + B2R x) - (S + B2R x))%R with ((rnd (B2R s + B2R x) - (B2R s + B2R x)) + (B2R s - S))%R by ring.
      eapply Rle_trans; [apply Rabs_triang|]. simpl. nra.
    + fold B. lra.
    + replace (Datatypes.S k + length xs)%nat with (k + Datatypes.S (length xs))%nat by lia. auto.
    + split; [exact G1|]. fold B in G2. replace (Datatypes.S k + length xs)%nat with (k + Datatypes.S (length xs))%nat in G2 by lia.
      replace (S + (B2R x + sumR (map B2R xs)))%R with (S + B2R x + sumR (map B2R xs))%R by ring.
      replace (A + (Rabs (B2R x) + B))%R with (A + Rabs (B2R x) + B)%R by ring. exact G2.
Qed.

Lemma run_parts : forall (ws : list (Cartesian float)) z, run (cartesian_add float_ops) z ws =
  Ok (mkC (fold_left (fun a b => Bplus mode_NE a b) (map re ws) (re z)) (fold_left (fun a b => Bplus mode_NE a b) (map im ws) (im z))).
Proof.
  unfold run. induction ws as [|w ws IH]; intros z; cbn [fold_left map]; [destruct z; reflexivity|].
  cbn [bind]. change (cartesian_add float_ops z w) with (Ok (mkC (Bplus mode_NE (re z) (re w)) (Bplus mode_NE (im z) (im w)))). apply (IH (mkC _ _)).
Qed.

Lemma sum_float : 3 <= emax -> forall (ws : list (Cartesian float)) z,
  (forall w, In w (z :: ws) -> is_finite (re w) = true /\ is_finite (im w) = true) ->
  let n := INR (length ws) in
  let ar := sumR (map (fun w => Rabs (B2R (re w))) (z :: ws)) in let ai := sumR (map (fun w => Rabs (B2R (im w))) (z :: ws)) in
  (n * u <= / 2)%R -> (ar <= bpow radix2 (emax - 2))%R -> (ai <= bpow radix2 (emax - 2))%R ->
  exists r, run (cartesian_add float_ops) z ws = Ok r /\ is_finite (re r) = true /\ is_finite (im r) = true /\
  (Rabs (B2R (re r) - sumR (map (fun w => B2R (re w)) (z :: ws))) <= 2 * (n * u) * ar)%R /\
  (Rabs (B2R (im r) - sumR (map (fun w => B2R (im w)) (z :: ws))) <= 2 * (n * u) * ai)%R.
Proof.
  intros E3 ws z F n ar ai HU HR HI. pose proof (u_bound (prec := prec)) as UB. eexists. split; [apply run_parts|]. cbn [re im].
  pose proof (bern_high u (length ws) ltac:(lra) HU) as BH. fold n in BH.
  assert (K : forall (p : Cartesian float -> float), (forall w, In w (z :: ws) -> is_finite (p w) = true) ->
    (sumR (map (fun w => Rabs (B2R (p w))) (z :: ws)) <= bpow radix2 (emax - 2))%R ->
    let r := fold_left (fun a b => Bplus mode_NE a b) (map p ws) (p z) in is_finite r = true /\
    (Rabs (B2R r - sumR (map (fun w => B2R (p w)) (z :: ws))) <= 2 * (n * u) * sumR (map (fun w => Rabs (B2R (p w))) (z :: ws)))%R).
  { intros p Fp Hs r. pose proof (fold_acc E3 (map p ws) (p z) (B2R (p z)) (Rabs (B2R (p z))) 0) as G. cbv zeta in G. fold r in G.
    rewrite !map_map, map_length, Nat.add_0_l in G. cbn [map fold_right] in Hs |- *. destruct G as [G1 G2]; auto.
    - apply Fp. left; auto.
    - intros x Hx. apply in_map_iff in Hx. destruct Hx as (w & <- & Hw). apply Fp. right; auto.
    - apply Rle_refl.
    - rewrite Rminus_diag_eq, Rabs_R0 by reflexivity. simpl. lra.
    - split; [exact G1|]. eapply Rle_trans; [exact G2|]. apply Rmult_le_compat_r; [|lra].
      assert (forall l : list (Cartesian float), 0 <= sumR (map (fun w => Rabs (B2R (p w))) l))%R.
      { induction l as [|y ys IH]; simpl; [lra|]. pose proof (Rabs_pos (B2R (p y))). lra. }
      specialize (H ws). pose proof (Rabs_pos (B2R (p z))). lra. }
  destruct (K re (fun w Hw => proj1 (F w Hw)) HR) as [A1 A2]. destruct (K im (fun w Hw => proj2 (F w Hw)) HI) as [B1 B2].
  repeat split; auto.
Qed.
End Sum.
