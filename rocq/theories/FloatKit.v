(** * Rounding-error bounds for the float operations. *)

From Coq Require Import ZArith Reals Lia Lra Bool.
From Flocq Require Import Core.Core IEEE754.BinarySingleNaN.
From Verif Require Import Base FloatBase Literals Traits FloatImpl FloatLemmas.
Open Scope Z_scope.

Section Kit.
Context {prec emax : Z} {Hp : Prec_gt_0 prec} {He : Prec_lt_emax prec emax}.
Notation float := (binary_float prec emax).
Notation fexp := (SpecFloat.fexp prec emax).
Notation rnd := (round radix2 fexp ZnearestE).
Notation format := (generic_format radix2 fexp).
Hypothesis P24 : 24 <= prec.
Hypothesis E10 : prec + 20 <= emax.
Let Vexp : Valid_exp fexp := fexp_correct prec emax _.

Definition eps : R := bpow radix2 (- prec).
Lemma eps_bound : (0 < eps <= 6 / 100000000)%R.
Proof using P24.
  split; [apply bpow_gt_0|]. unfold eps. apply Rle_trans with (bpow radix2 (-24)); [apply bpow_le; lia|].
  change (bpow radix2 (-24)) with (/ IZR (2 ^ 24))%R. change (2 ^ 24) with 16777216. lra.
Qed.
Lemma emin_val : SpecFloat.emin prec emax = 3 - emax - prec.
Proof. reflexivity. Qed.
Lemma fexp_val : forall e, fexp e = Z.max (e - prec) (3 - emax - prec).
Proof. intros. unfold SpecFloat.fexp, SpecFloat.emin. lia. Qed.

Lemma rnd_err : forall v e, (Rabs v <= bpow radix2 e)%R -> 3 - emax <= e -> (Rabs (rnd v - v) <= / 2 * bpow radix2 (e - prec))%R.
Proof using Vexp. clear P24 E10.
  intros v e H He'. destruct (Rle_lt_or_eq_dec _ _ H) as [L|Q].
  - eapply Rle_trans; [apply error_le_half_ulp; auto|]. apply Rmult_le_compat_l; [lra|].
    destruct (Req_dec v 0) as [->|Nz].
    + change fexp with (FLT_exp (3 - emax - prec) prec). rewrite ulp_FLT_0 by apply Hp. apply bpow_le. lia.
    + rewrite ulp_neq_0 by auto. apply bpow_le. unfold cexp. rewrite fexp_val.
      pose proof (mag_le_bpow radix2 v e Nz L). lia.
  - assert (F : format v).
    { apply generic_format_abs_inv. rewrite Q. apply generic_format_bpow. rewrite fexp_val. pose proof (prec_gt_0 prec). lia. }
    rewrite round_generic by (auto; apply valid_rnd_N). rewrite Rminus_diag_eq by auto. rewrite Rabs_R0.
    pose proof (bpow_gt_0 radix2 (e - prec)). lra.
Qed.

Lemma rnd_le : forall v e, (Rabs v <= bpow radix2 e)%R -> 3 - emax <= e -> (Rabs (rnd v) <= bpow radix2 e)%R.
Proof using Vexp. clear P24 E10.
  intros v e H He'. apply abs_round_le_generic; auto.
  - apply valid_rnd_N.
  - apply generic_format_bpow. rewrite fexp_val. pose proof (prec_gt_0 prec). lia.
Qed.
Lemma rnd_fits : forall v e, (Rabs v <= bpow radix2 e)%R -> 3 - emax <= e < emax -> (Rabs (rnd v) < bpow radix2 emax)%R.
Proof using Vexp. clear P24 E10. intros v e H He'. apply Rle_lt_trans with (bpow radix2 e); [apply rnd_le; auto; lia | apply bpow_lt; lia]. Qed.

(** the operations, for results bounded by [2^e] *)
Lemma plus_r : forall x y : float, is_finite x = true -> is_finite y = true -> forall e, 3 - emax <= e < emax ->
  (Rabs (B2R x + B2R y) <= bpow radix2 e)%R ->
  is_finite (Bplus mode_NE x y) = true /\ B2R (Bplus mode_NE x y) = rnd (B2R x + B2R y).
Proof using Vexp. clear P24 E10.
  intros x y Fx Fy e L B. pose proof (Bplus_correct prec emax _ _ mode_NE x y Fx Fy) as H.
  change (round_mode mode_NE) with ZnearestE in H. rewrite Rlt_bool_true in H by (eapply rnd_fits; eauto). tauto.
Qed.
Lemma minus_r : forall x y : float, is_finite x = true -> is_finite y = true -> forall e, 3 - emax <= e < emax ->
  (Rabs (B2R x - B2R y) <= bpow radix2 e)%R ->
  is_finite (Bminus mode_NE x y) = true /\ B2R (Bminus mode_NE x y) = rnd (B2R x - B2R y).
Proof using Vexp. clear P24 E10.
  intros x y Fx Fy e L B. pose proof (Bminus_correct prec emax _ _ mode_NE x y Fx Fy) as H.
  change (round_mode mode_NE) with ZnearestE in H. rewrite Rlt_bool_true in H by (eapply rnd_fits; eauto). tauto.
Qed.
Lemma mult_r : forall x y : float, is_finite x = true -> is_finite y = true -> forall e, 3 - emax <= e < emax ->
  (Rabs (B2R x * B2R y) <= bpow radix2 e)%R ->
  is_finite (Bmult mode_NE x y) = true /\ B2R (Bmult mode_NE x y) = rnd (B2R x * B2R y).
Proof using Vexp. clear P24 E10.
  intros x y Fx Fy e L B. pose proof (Bmult_correct prec emax _ _ mode_NE x y) as H.
  change (round_mode mode_NE) with ZnearestE in H. rewrite Rlt_bool_true in H by (eapply rnd_fits; eauto).
  rewrite Fx, Fy in H. tauto.
Qed.
Lemma div_r : forall x y : float, is_finite x = true -> B2R y <> 0%R -> forall e, 3 - emax <= e < emax ->
  (Rabs (B2R x / B2R y) <= bpow radix2 e)%R ->
  is_finite (Bdiv mode_NE x y) = true /\ B2R (Bdiv mode_NE x y) = rnd (B2R x / B2R y).
Proof using Vexp. clear P24 E10.
  intros x y Fx Ny e L B. pose proof (Bdiv_correct prec emax _ _ mode_NE x y Ny) as H.
  change (round_mode mode_NE) with ZnearestE in H. rewrite Rlt_bool_true in H by (eapply rnd_fits; eauto).
  rewrite Fx in H. tauto.
Qed.

(** exact scaling by powers of two *)
Lemma scale_format : forall v e, format v -> 0 <= e \/ (v = 0%R) \/ (3 - emax - mag radix2 v <= e) -> format (v * bpow radix2 e).
Proof using Vexp. clear P24 E10.
  intros v e F H. destruct (Req_dec v 0) as [->|Nz]; [rewrite Rmult_0_l; apply generic_format_0|].
  assert (F' : FLT_format radix2 (3 - emax - prec) prec v).
  { apply FLT_format_generic; auto. }
  destruct F' as [[M E] F1 F2 F3]. cbn [Fnum Fexp] in *.
  destruct H as [H|[H|H]]; [| contradiction|].
  - change fexp with (FLT_exp (3 - emax - prec) prec). apply generic_format_FLT. exists (Float radix2 M (E + e)); cbn [Fnum Fexp]; [|exact F2|lia].
    rewrite F1. unfold F2R. cbn [Fnum Fexp]. rewrite bpow_plus. ring.
  - unfold generic_format in F. change fexp with (FLT_exp (3 - emax - prec) prec) in *.
    rewrite F. unfold F2R. cbn [Fnum Fexp]. rewrite Rmult_assoc, <- bpow_plus.
    set (M' := Ztrunc _). change (IZR M' * bpow radix2 (cexp radix2 (FLT_exp (3 - emax - prec) prec) v + e))%R with (F2R (Float radix2 M' (cexp radix2 (FLT_exp (3 - emax - prec) prec) v + e))).
    apply generic_format_F2R. intros NM. unfold cexp at 1.
    assert (EQ : F2R (Float radix2 M' (cexp radix2 (FLT_exp (3 - emax - prec) prec) v + e)) = (v * bpow radix2 e)%R).
    { unfold F2R. cbn [Fnum Fexp]. rewrite bpow_plus, <- Rmult_assoc. f_equal. symmetry. exact F. }
    rewrite EQ, mag_mult_bpow by auto. unfold cexp, FLT_exp. lia.
Qed.

Lemma lit_conv : forall (x : f64), is_finite x = true -> (Rabs (B2R x) <= 1024)%R ->
  is_finite (float_of_float prec emax x) = true /\ B2R (float_of_float prec emax x) = rnd (B2R x).
Proof using E10 P24.
  intros x F B. destruct x as [s|s| |s m e H]; try discriminate.
  - cbn. rewrite round_0 by apply valid_rnd_N. auto.
  - pose proof (binary_normalize_correct prec emax _ _ mode_NE (cond_Zopp s (Z.pos m)) e s) as N. cbv zeta in N.
    change (round_mode mode_NE) with ZnearestE in N.
    change (F2R (Float radix2 (cond_Zopp s (Z.pos m)) e)) with (B2R (B754_finite s m e H)) in N.
    rewrite Rlt_bool_true in N; [|].
    + cbn [float_of_float]. tauto.
    + apply (rnd_fits _ 10); [change (bpow radix2 10) with (IZR 1024); auto | lia].
Qed.
Lemma lit_exact : forall (x : f64) k, is_finite x = true -> (B2R x = IZR k / 16)%R -> Z.abs k < 2 ^ prec -> Z.abs k <= 16384 ->
  is_finite (float_of_float prec emax x) = true /\ B2R (float_of_float prec emax x) = (IZR k / 16)%R.
Proof using E10 P24.
  intros x k F V K K2. apply IZR_le in K2. rewrite abs_IZR in K2.
  destruct (lit_conv x F) as [A B].
  - rewrite V. unfold Rdiv. rewrite Rabs_mult, (Rabs_pos_eq (/ 16)) by lra. lra.
  - split; auto. rewrite B, V. apply round_generic; [apply valid_rnd_N|].
    change (IZR k / 16)%R with (IZR k * bpow radix2 (-4))%R.
    change fexp with (FLT_exp (3 - emax - prec) prec). apply generic_format_FLT. exists (Float radix2 k (-4)); cbn [Fnum Fexp]; [reflexivity|exact K|lia].
Qed.
Lemma lit_approx : forall (x : f64) v, is_finite x = true -> (Rabs (B2R x - v) <= / 1000000000000000)%R -> (Rabs v <= 999 / 1000)%R ->
  is_finite (float_of_float prec emax x) = true /\ (Rabs (B2R (float_of_float prec emax x) - v) <= / 2 * eps + / 1000000000000000)%R.
Proof using E10 P24.
  intros x v F H V. assert (B : (Rabs (B2R x) <= 1)%R).
  { replace (B2R x) with ((B2R x - v) + v)%R by ring. eapply Rle_trans; [apply Rabs_triang|]. lra. }
  destruct (lit_conv x F) as [A E]; [lra|]. split; auto. rewrite E.
  replace (rnd (B2R x) - v)%R with ((rnd (B2R x) - B2R x) + (B2R x - v))%R by ring.
  eapply Rle_trans; [apply Rabs_triang|]. apply Rplus_le_compat; auto.
  apply (rnd_err _ 0); [exact B|]. lia.
Qed.

Lemma small_int : forall z, Z.abs z <= 1000000 -> B2R (float_of_Z prec emax z) = IZR z /\ is_finite (float_of_Z prec emax z) = true.
Proof using P24.
  intros z H. destruct (float_of_Z_exact z) as [A [B _]]; auto.
  apply Z.le_lt_trans with 1000000; auto. apply Z.lt_le_trans with (2 ^ 24); [reflexivity|]. apply Z.pow_le_mono_r; lia.
Qed.
End Kit.
