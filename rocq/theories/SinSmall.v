(** * Exactly which fixed-point formats keep the sine within [-1, 1]. *)

From Coq Require Import ZArith Reals Lia Lra Psatz List Bool.
From Flocq Require Import Core.Core IEEE754.BinarySingleNaN.
From Verif Require Import Base FloatBase Literals Traits Trig FixedPrim FixedImpl Spec SpecAngle
  Lemmas ScalarProofs ScalarProofs2 WrapProofs SinReal SinFixed RangeProofs.
Import ListNotations.
Open Scope Z_scope.

Definition sinb (f : fty) (x : Z) : Z := zpoly (fone f) (zfold (pi_bits f) x).
Definition sin_in (f : fty) : bool :=
  let p := pi_bits f in
  forallb (fun k => Z.abs (sinb f (k - p)) <=? fone f) (upto (Z.to_nat (2 * p + 1))).
Lemma sin_in_all : forallb (fun k => sin_in (mkFty true 64 k)) (upto 7) = true.
Proof. vm_compute. reflexivity. Qed.
Lemma sin_in_ok : forall f, 0 <= ffrac f <= 6 -> forall x, Z.abs x <= pi_bits f -> Z.abs (sinb f x) <= fone f.
Proof.
  intros [sg w F] H x Hx. cbn [ffrac] in H. pose proof sin_in_all as A. rewrite forallb_forall in A.
  specialize (A F (upto_in 7 F ltac:(change (Z.of_nat 7) with 7; lia))). cbv beta in A. unfold sin_in in A.
  rewrite forallb_forall in A. set (p := pi_bits (mkFty true 64 F)) in *. change (pi_bits (mkFty sg w F)) with p in Hx.
  specialize (A (x + p) (upto_in (Z.to_nat (2 * p + 1)) (x + p) ltac:(lia))). cbv beta in A.
  replace (x + p - p) with x in A by lia. apply Z.leb_le in A. exact A.
Qed.
(** an angle whose sine is out of range, by number of fractional bits *)
Definition over_arg (f : fty) : Z :=
  match ffrac f with
  | 7 => -201 | 8 => -390 | 9 => -781 | 10 => -1607 | 11 => -3213 | 12 => -6425 | 13 => -12851 | 14 => -25699 | 15 => -51467
  | _ => pi_bits f / 2
  end.
Definition sin_out (f : fty) : bool := (Z.abs (over_arg f) <=? pi_bits f) && (fone f <? Z.abs (sinb f (over_arg f))).
Lemma sin_out_all : forallb (fun k => sin_out (mkFty true 64 (k + 7))) (upto 38) = true.
Proof. vm_compute. reflexivity. Qed.
Lemma sin_out_ok : forall f, 7 <= ffrac f <= 44 -> sin_out f = true.
Proof.
  intros [sg w F] H. cbn [ffrac] in H. pose proof sin_out_all as A. rewrite forallb_forall in A.
  specialize (A (F - 7) (upto_in 38 (F - 7) ltac:(change (Z.of_nat 38) with 38; lia))). cbv beta in A.
  replace (F - 7 + 7) with F in A by lia. exact A.
Qed.

Lemma fval_abs_le : forall f x y, 0 <= ffrac f -> (Rabs (fval f x) <= fval f y)%R <-> Z.abs x <= y.
Proof.
  intros f x y F. rewrite !fval_eq by auto. pose proof (fone_IZR_pos f F) as P. apply Rinv_0_lt_compat in P.
  unfold Rdiv. rewrite Rabs_mult, (Rabs_right (/ _)) by lra. rewrite <- abs_IZR. split; intros H.
  - apply le_IZR. apply Rmult_le_reg_r with (/ IZR (fone f))%R; auto.
  - apply Rmult_le_compat_r; [lra|]. apply IZR_le. auto.
Qed.
Lemma fval_one : forall f, 0 <= ffrac f -> fval f (fone f) = 1%R.
Proof. intros f F. rewrite fval_eq by auto. apply Rinv_r. pose proof (fone_IZR_pos f F). lra. Qed.

Lemma sin_le_one_iff : forall m f, supported f = true -> fsigned f = true -> ffrac f <= fwidth f - 20 ->
  exists p, mixed_pi (fixed_pi m f) = Ok p /\
  ((forall x, (Rabs (fval f x) <= fval f p)%R -> exists r, fixed_sin m f x = Ok r /\ (Rabs (fval f r) <= 1)%R) <-> ffrac f <= 6).
Proof.
  intros m f S Sg F. pose proof (supported_fwf f S) as W. pose proof (proj1 W) as F0. pose proof (supported_inv f S) as [Wd Fr].
  exists (pi_bits f). split; [apply fixed_pi_eq; auto|]. split.
  - intros H. destruct (Z_le_gt_dec (ffrac f) 6) as [L|G]; auto. exfalso.
    pose proof (sin_out_ok f ltac:(lia)) as O. unfold sin_out in O. apply andb_prop in O. destruct O as [O1 O2].
    apply Z.leb_le in O1. apply Z.ltb_lt in O2.
    destruct (H (over_arg f)) as (r & Er & B); [apply fval_abs_le; auto|].
    pose proof (sin_bits m f W Sg F (over_arg f) O1) as Es. assert (E2 : Ok r = Ok (sinb f (over_arg f))) by (rewrite <- Er; exact Es).
    assert (Eq : r = sinb f (over_arg f)) by congruence. rewrite <- (fval_one f F0) in B. apply fval_abs_le in B; auto. rewrite Eq in B. lia.
  - intros L x Hx. apply fval_abs_le in Hx; auto. exists (sinb f x). split; [apply (sin_bits m f W Sg F x Hx)|].
    rewrite <- (fval_one f F0). apply fval_abs_le; auto. apply sin_in_ok; auto.
Qed.
