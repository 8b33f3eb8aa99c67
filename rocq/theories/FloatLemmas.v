(** * Lemmas about the rounded operations of Flocq's [binary_float] (nearest-even). *)

From Coq Require Import ZArith Reals Lia Lra Bool.
From Flocq Require Import Core.Core IEEE754.BinarySingleNaN.
From Verif Require Import Base FloatBase.
Open Scope Z_scope.

Section FL.
Context {prec emax : Z} {Hp : Prec_gt_0 prec} {He : Prec_lt_emax prec emax}.
Notation float := (binary_float prec emax).
Notation fexp := (SpecFloat.fexp prec emax).
Notation rnd := (round radix2 fexp ZnearestE).

Lemma finite_not_nan : forall x : float, is_finite x = true -> is_nan x = false.
Proof. now destruct x. Qed.

Lemma finite_cases : forall x : float, is_finite x = true ->
  (exists s, x = B754_zero s) \/ (exists s m e H, x = B754_finite s m e H).
Proof. destruct x; intros; try discriminate; [left|right]; eauto. Qed.

Lemma Bmult_ext : forall x y x' y' : float,
  is_finite x = true -> is_finite y = true -> is_finite x' = true -> is_finite y' = true ->
  (B2R x * B2R y = B2R x' * B2R y')%R ->
  xorb (Bsign x) (Bsign y) = xorb (Bsign x') (Bsign y') ->
  Bmult mode_NE x y = Bmult mode_NE x' y'.
Proof.
  intros x y x' y' Fx Fy Fx' Fy' E S.
  pose proof (Bmult_correct prec emax _ _ mode_NE x y) as H.
  pose proof (Bmult_correct prec emax _ _ mode_NE x' y') as H'.
  rewrite E in H. destruct (Rlt_bool _ _).
  - destruct H as [H1 [H2 H3]], H' as [H1' [H2' H3']].
    rewrite Fx, Fy in H2. rewrite Fx', Fy' in H2'. simpl in H2, H2'.
    apply B2R_Bsign_inj; auto; [congruence|].
    rewrite H3, H3' by (apply finite_not_nan; auto). exact S.
  - apply B2SF_inj. congruence.
Qed.

Lemma Bdiv_ext : forall x y x' y' : float,
  is_finite x = true -> is_finite x' = true ->
  B2R y <> 0%R -> B2R y' <> 0%R ->
  (B2R x / B2R y = B2R x' / B2R y')%R ->
  xorb (Bsign x) (Bsign y) = xorb (Bsign x') (Bsign y') ->
  Bdiv mode_NE x y = Bdiv mode_NE x' y'.
Proof.
  intros x y x' y' Fx Fx' Ny Ny' E S.
  pose proof (Bdiv_correct prec emax _ _ mode_NE x y Ny) as H.
  pose proof (Bdiv_correct prec emax _ _ mode_NE x' y' Ny') as H'.
  rewrite E in H. destruct (Rlt_bool _ _).
  - destruct H as [H1 [H2 H3]], H' as [H1' [H2' H3']].
    rewrite Fx in H2. rewrite Fx' in H2'.
    apply B2R_Bsign_inj; auto; [congruence|].
    rewrite H3, H3' by (apply finite_not_nan; auto). exact S.
  - apply B2SF_inj. congruence.
Qed.

Lemma B2R_sign_le : forall x : float, is_finite x = true ->
  (if Bsign x then B2R x <= 0 else 0 <= B2R x)%R.
Proof.
  intros [s|s| |s m e H] F; try discriminate; simpl.
  - destruct s; lra.
  - destruct s; simpl; [apply F2R_le_0 | apply F2R_ge_0]; simpl; lia.
Qed.

Lemma emax_pos : (0 < bpow radix2 emax)%R.
Proof. apply bpow_gt_0. Qed.

Lemma Bplus_ext : forall x y x' y' : float,
  is_finite x = true -> is_finite y = true -> is_finite x' = true -> is_finite y' = true ->
  (B2R x + B2R y = B2R x' + B2R y')%R ->
  ((B2R x + B2R y = 0)%R -> andb (Bsign x) (Bsign y) = andb (Bsign x') (Bsign y')) ->
  Bplus mode_NE x y = Bplus mode_NE x' y'.
Proof.
  intros x y x' y' Fx Fy Fx' Fy' E S.
  pose proof (Bplus_correct prec emax _ _ mode_NE x y Fx Fy) as H.
  pose proof (Bplus_correct prec emax _ _ mode_NE x' y' Fx' Fy') as H'.
  rewrite E in H. destruct (Rlt_bool_spec (Rabs (round radix2 fexp (round_mode mode_NE) (B2R x' + B2R y'))) (bpow radix2 emax)) as [L|L].
  - destruct H as [H1 [H2 H3]], H' as [H1' [H2' H3']].
    apply B2R_Bsign_inj; auto; [congruence|].
    rewrite H3, H3'. destruct (Rcompare_spec (B2R x' + B2R y') 0); auto.
    apply S. lra.
  - destruct H as [H1 H2], H' as [H1' H2'].
    apply B2SF_inj. rewrite H1, H1'. f_equal.
    pose proof (B2R_sign_le x Fx) as A. pose proof (B2R_sign_le y Fy) as B.
    pose proof (B2R_sign_le x' Fx') as A'. pose proof (B2R_sign_le y' Fy') as B'.
    rewrite <- H2 in B. rewrite <- H2' in B'.
    destruct (Bsign x), (Bsign x'); auto; exfalso.
    + assert (Z : (B2R x' + B2R y' = 0)%R) by lra. rewrite Z, round_0, Rabs_R0 in L by apply valid_rnd_round_mode.
      pose proof emax_pos. lra.
    + assert (Z : (B2R x' + B2R y' = 0)%R) by lra. rewrite Z, round_0, Rabs_R0 in L by apply valid_rnd_round_mode.
      pose proof emax_pos. lra.
Qed.

Lemma Bmult_comm : forall x y : float, Bmult mode_NE x y = Bmult mode_NE y x.
Proof.
  intros x y. destruct (is_finite x) eqn:Fx, (is_finite y) eqn:Fy.
  - apply Bmult_ext; auto; [lra | apply xorb_comm].
  - destruct x as [?|?| |? ? ? ?], y as [?|?| |? ? ? ?]; try discriminate; simpl; auto; f_equal; apply xorb_comm.
  - destruct x as [?|?| |? ? ? ?], y as [?|?| |? ? ? ?]; try discriminate; simpl; auto; f_equal; apply xorb_comm.
  - destruct x as [?|?| |? ? ? ?], y as [?|?| |? ? ? ?]; try discriminate; simpl; auto; f_equal; apply xorb_comm.
Qed.

Lemma Bplus_comm : forall x y : float, Bplus mode_NE x y = Bplus mode_NE y x.
Proof.
  intros x y. destruct (is_finite x) eqn:Fx, (is_finite y) eqn:Fy.
  - apply Bplus_ext; auto; [lra | intros; apply andb_comm].
  - destruct x as [?|?| |? ? ? ?], y as [?|?| |? ? ? ?]; try discriminate; simpl; auto.
  - destruct x as [?|?| |? ? ? ?], y as [?|?| |? ? ? ?]; try discriminate; simpl; auto.
  - destruct x as [?|[]| |? ? ? ?], y as [?|[]| |? ? ? ?]; try discriminate; simpl; auto.
Qed.

Lemma Bminus_plus : forall x y : float, Bminus mode_NE x y = Bplus mode_NE x (Bopp y).
Proof. intros [?|?| |? ? ? ?] [?|?| |? ? ? ?]; reflexivity. Qed.

Lemma Bsign_opp : forall x : float, is_nan x = false -> Bsign (Bopp x) = negb (Bsign x).
Proof. intros x. destruct x; simpl; auto; discriminate. Qed.

Lemma Bmult_opp_l : forall x y : float, Bmult mode_NE (Bopp x) y = Bopp (Bmult mode_NE x y).
Proof.
  intros x y. destruct (is_finite x) eqn:Fx, (is_finite y) eqn:Fy.
  - pose proof (Bmult_correct prec emax _ _ mode_NE x y) as H.
    pose proof (Bmult_correct prec emax _ _ mode_NE (Bopp x) y) as H'.
    rewrite B2R_Bopp in H'. replace (- B2R x * B2R y)%R with (- (B2R x * B2R y))%R in H' by ring.
    change (round_mode mode_NE) with ZnearestE in *. rewrite round_NE_opp, Rabs_Ropp in H'.
    rewrite (Bsign_opp x) in H' by (apply finite_not_nan; auto).
    destruct (Rlt_bool _ _).
    + destruct H as [H1 [H2 H3]], H' as [H1' [H2' H3']].
      rewrite is_finite_Bopp in H2'. rewrite Fx, Fy in *. simpl in H2, H2'.
      apply B2R_Bsign_inj; auto.
      * rewrite is_finite_Bopp. auto.
      * rewrite B2R_Bopp. congruence.
      * rewrite Bsign_opp by (apply finite_not_nan; auto).
        rewrite H3, H3' by (apply finite_not_nan; auto). now rewrite negb_xorb_l.
    + assert (I : exists s, Bmult mode_NE x y = B754_infinity s /\ s = xorb (Bsign x) (Bsign y)).
      { exists (xorb (Bsign x) (Bsign y)). split; auto. apply B2SF_inj. rewrite H. reflexivity. }
      destruct I as [s [-> Es]]. apply B2SF_inj. rewrite H'. simpl. rewrite Es. f_equal. now rewrite negb_xorb_l.
  - destruct x as [?|?| |? ? ? ?], y as [?|?| |? ? ? ?]; try discriminate; simpl; auto; f_equal; now rewrite negb_xorb_l.
  - destruct x as [?|?| |? ? ? ?], y as [?|?| |? ? ? ?]; try discriminate; simpl; auto; f_equal; now rewrite negb_xorb_l.
  - destruct x as [?|?| |? ? ? ?], y as [?|?| |? ? ? ?]; try discriminate; simpl; auto; f_equal; now rewrite negb_xorb_l.
Qed.

Lemma Bmult_opp_r : forall x y : float, Bmult mode_NE x (Bopp y) = Bopp (Bmult mode_NE x y).
Proof. intros. rewrite Bmult_comm, Bmult_opp_l, Bmult_comm. reflexivity. Qed.

Lemma Bdiv_opp_l : forall x y : float, Bdiv mode_NE (Bopp x) y = Bopp (Bdiv mode_NE x y).
Proof.
  intros x y. destruct (is_finite x) eqn:Fx; [destruct (is_finite_strict y) eqn:Fy|].
  - assert (Ny : B2R y <> 0%R).
    { destruct y as [?|?| |s m e Hb]; try discriminate. simpl.
      destruct s; [apply Rlt_not_eq, F2R_lt_0 | apply Rgt_not_eq, F2R_gt_0]; simpl; lia. }
    pose proof (Bdiv_correct prec emax _ _ mode_NE x y Ny) as H.
    pose proof (Bdiv_correct prec emax _ _ mode_NE (Bopp x) y Ny) as H'.
    rewrite B2R_Bopp in H'. replace (- B2R x / B2R y)%R with (- (B2R x / B2R y))%R in H' by (field; auto).
    change (round_mode mode_NE) with ZnearestE in *. rewrite round_NE_opp, Rabs_Ropp in H'.
    rewrite (Bsign_opp x) in H' by (apply finite_not_nan; auto).
    destruct (Rlt_bool _ _).
    + destruct H as [H1 [H2 H3]], H' as [H1' [H2' H3']].
      rewrite is_finite_Bopp in H2'. rewrite Fx in *.
      apply B2R_Bsign_inj; auto.
      * rewrite is_finite_Bopp. auto.
      * rewrite B2R_Bopp. congruence.
      * rewrite Bsign_opp by (apply finite_not_nan; auto).
        rewrite H3, H3' by (apply finite_not_nan; auto). now rewrite negb_xorb_l.
    + assert (I : exists s, Bdiv mode_NE x y = B754_infinity s /\ s = xorb (Bsign x) (Bsign y)).
      { exists (xorb (Bsign x) (Bsign y)). split; auto. apply B2SF_inj. rewrite H. reflexivity. }
      destruct I as [s [-> Es]]. apply B2SF_inj. rewrite H'. simpl. rewrite Es. f_equal. now rewrite negb_xorb_l.
  - destruct x as [?|?| |? ? ? ?], y as [?|?| |? ? ? ?]; try discriminate; simpl; auto; f_equal; now rewrite negb_xorb_l.
  - destruct x as [?|?| |? ? ? ?], y as [?|?| |? ? ? ?]; try discriminate; simpl; auto; f_equal; now rewrite negb_xorb_l.
Qed.

(** negating both operands of a sum negates it, except that an exact zero keeps sign + *)
Lemma Bplus_opp : forall x y : float,
  (is_finite x = true -> is_finite y = true -> (B2R x + B2R y <> 0)%R) ->
  Bplus mode_NE (Bopp x) (Bopp y) = Bopp (Bplus mode_NE x y).
Proof.
  intros x y NZ. destruct (is_finite x) eqn:Fx, (is_finite y) eqn:Fy.
  - specialize (NZ eq_refl eq_refl).
    pose proof (Bplus_correct prec emax _ _ mode_NE x y Fx Fy) as H.
    pose proof (Bplus_correct prec emax _ _ mode_NE (Bopp x) (Bopp y)) as H'.
    rewrite !is_finite_Bopp, !B2R_Bopp in H'. specialize (H' Fx Fy).
    replace (- B2R x + - B2R y)%R with (- (B2R x + B2R y))%R in H' by ring.
    change (round_mode mode_NE) with ZnearestE in *. rewrite round_NE_opp, Rabs_Ropp in H'.
    destruct (Rlt_bool _ _).
    + destruct H as [H1 [H2 H3]], H' as [H1' [H2' H3']].
      apply B2R_Bsign_inj; auto.
      * rewrite is_finite_Bopp. auto.
      * rewrite B2R_Bopp. congruence.
      * rewrite Bsign_opp by (apply finite_not_nan; auto). rewrite H3, H3'.
        destruct (Rcompare_spec (- (B2R x + B2R y)) 0), (Rcompare_spec (B2R x + B2R y) 0); auto; lra.
    + destruct H as [H1 _], H' as [H1' _].
      assert (I : Bplus mode_NE x y = B754_infinity (Bsign x)) by (apply B2SF_inj; rewrite H1; reflexivity).
      rewrite I. apply B2SF_inj. rewrite H1'. simpl.
      rewrite Bsign_opp by (apply finite_not_nan; auto). reflexivity.
  - destruct x as [?|?| |? ? ? ?], y as [?|?| |? ? ? ?]; try discriminate; simpl; auto.
  - destruct x as [?|?| |? ? ? ?], y as [?|?| |? ? ? ?]; try discriminate; simpl; auto.
  - destruct x as [?|[]| |? ? ? ?], y as [?|[]| |? ? ? ?]; try discriminate; simpl; auto.
Qed.

Lemma round_B2R : forall x : float, rnd (B2R x) = B2R x.
Proof. intros. apply round_generic; [apply valid_rnd_N | apply generic_format_B2R]. Qed.

Lemma Bmult_Bone_l : forall x : float, Bmult mode_NE Bone x = x.
Proof.
  intros x. destruct (is_finite x) eqn:Fx.
  - pose proof (Bmult_correct prec emax _ _ mode_NE Bone x) as H.
    rewrite Bone_correct, Rmult_1_l in H. change (round_mode mode_NE) with ZnearestE in H.
    rewrite round_B2R, Rlt_bool_true in H by apply abs_B2R_lt_emax.
    destruct H as [H1 [H2 H3]]. rewrite is_finite_Bone, Fx in H2. simpl in H2.
    apply B2R_Bsign_inj; auto. rewrite H3 by (apply finite_not_nan; auto).
    rewrite Bsign_Bone. apply xorb_false_l.
  - pose proof (is_finite_strict_Bone prec emax _ _) as S. pose proof (Bsign_Bone prec emax _ _) as B.
    destruct (Bone : float) as [?|?| |? ? ? ?]; try discriminate. simpl in B. subst.
    destruct x as [?|[]| |? ? ? ?]; try discriminate; simpl; auto.
Qed.

(** ** Conversions *)
Lemma float_of_Z_correct : forall z,
  (Rabs (rnd (IZR z)) < bpow radix2 emax)%R ->
  B2R (float_of_Z prec emax z) = rnd (IZR z) /\ is_finite (float_of_Z prec emax z) = true /\
  Bsign (float_of_Z prec emax z) = (z <? 0).
Proof.
  intros z L. unfold float_of_Z.
  pose proof (binary_normalize_correct prec emax _ _ mode_NE z 0 false) as H. cbv zeta in H.
  change (round_mode mode_NE) with ZnearestE in H.
  assert (E : F2R (Float radix2 z 0) = IZR z) by (unfold F2R; simpl; ring).
  rewrite E in H. rewrite Rlt_bool_true in H by auto.
  destruct H as [H1 [H2 H3]]. repeat split; auto. rewrite H3.
  rewrite (Rcompare_IZR z 0). unfold Z.ltb. destruct (z ?= 0); auto.
Qed.

Lemma IZR_format : forall z, Z.abs z < 2 ^ prec -> generic_format radix2 fexp (IZR z).
Proof.
  intros z Hz. change (SpecFloat.fexp prec emax) with (FLT_exp (SpecFloat.emin prec emax) prec).
  apply generic_format_FLT. exists (Float radix2 z 0); simpl.
  - unfold F2R; simpl. ring.
  - exact Hz.
  - unfold SpecFloat.emin. pose proof (prec_gt_0 prec). pose proof (prec_lt_emax prec emax). lia.
Qed.

Lemma float_of_Z_exact : forall z, Z.abs z < 2 ^ prec ->
  B2R (float_of_Z prec emax z) = IZR z /\ is_finite (float_of_Z prec emax z) = true /\
  Bsign (float_of_Z prec emax z) = (z <? 0).
Proof.
  intros z Hz. pose proof (round_generic radix2 fexp ZnearestE (IZR z) (IZR_format z Hz)) as G.
  destruct (float_of_Z_correct z) as [H1 [H2 H3]].
  - rewrite G. rewrite <- abs_IZR.
    apply Rlt_le_trans with (IZR (2 ^ prec)); [now apply IZR_lt|].
    change 2 with (radix_val radix2). pose proof (prec_gt_0 prec). rewrite IZR_Zpower by lia.
    apply bpow_le. pose proof (prec_lt_emax prec emax). lia.
  - rewrite H1, G. auto.
Qed.

Lemma float_of_Z_one : 1 < prec -> float_of_Z prec emax 1 = Bone.
Proof.
  intros P1. destruct (float_of_Z_exact 1) as [H1 [H2 H3]].
  - simpl. apply Z.pow_gt_1; lia.
  - apply B2R_Bsign_inj; [exact H2 | apply is_finite_Bone | |].
    + rewrite H1, Bone_correct. reflexivity.
    + rewrite H3, Bsign_Bone. reflexivity.
Qed.

Lemma float_of_Z_zero : float_of_Z prec emax 0 = B754_zero false.
Proof. reflexivity. Qed.
End FL.
