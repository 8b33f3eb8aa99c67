(** * Accuracy of complex arithmetic on floats (proofs for C84). *)

From Coq Require Import ZArith Reals Lia Lra Psatz List Bool.
From Flocq Require Import Core.Core IEEE754.BinarySingleNaN.
From Flocq Require Import Relative.
From Verif Require Import Base FloatBase Literals Traits Trig FloatImpl Complex Spec FloatLemmas FloatKit MagProofs.
Open Scope Z_scope.

Section FA.
Context {prec emax : Z} {Hp : Prec_gt_0 prec} {He : Prec_lt_emax prec emax}.
Notation float := (binary_float prec emax).
Notation rnd := (round radix2 (SpecFloat.fexp prec emax) ZnearestE).
Notation u := (bpow radix2 (- prec)).
Notation eta := (bpow radix2 (3 - emax - prec)).

Definition cfin (z : Cartesian float) : Prop := is_finite (re z) = true /\ is_finite (im z) = true.

Lemma plus_ok : forall x y : float, is_finite x = true -> is_finite y = true -> (Rabs (rnd (B2R x + B2R y)) < bpow radix2 emax)%R ->
  is_finite (Bplus mode_NE x y) = true /\ B2R (Bplus mode_NE x y) = rnd (B2R x + B2R y).
Proof. intros x y Fx Fy H. pose proof (Bplus_correct prec emax _ _ mode_NE x y Fx Fy) as C. cbn [round_mode] in C. rewrite Rlt_bool_true in C by auto. tauto. Qed.
Lemma minus_ok : forall x y : float, is_finite x = true -> is_finite y = true -> (Rabs (rnd (B2R x - B2R y)) < bpow radix2 emax)%R ->
  is_finite (Bminus mode_NE x y) = true /\ B2R (Bminus mode_NE x y) = rnd (B2R x - B2R y).
Proof. intros x y Fx Fy H. pose proof (Bminus_correct prec emax _ _ mode_NE x y Fx Fy) as C. cbn [round_mode] in C. rewrite Rlt_bool_true in C by auto. tauto. Qed.
Lemma mult_ok : forall x y : float, is_finite x = true -> is_finite y = true -> (Rabs (rnd (B2R x * B2R y)) < bpow radix2 emax)%R ->
  is_finite (Bmult mode_NE x y) = true /\ B2R (Bmult mode_NE x y) = rnd (B2R x * B2R y).
Proof. intros x y Fx Fy H. pose proof (Bmult_correct prec emax _ _ mode_NE x y) as C. cbn [round_mode] in C. rewrite Rlt_bool_true, Fx, Fy in C by auto. tauto. Qed.
Lemma div_ok : forall x y : float, is_finite x = true -> B2R y <> 0%R -> (Rabs (rnd (B2R x / B2R y)) < bpow radix2 emax)%R ->
  is_finite (Bdiv mode_NE x y) = true /\ B2R (Bdiv mode_NE x y) = rnd (B2R x / B2R y).
Proof. intros x y Fx Ny H. pose proof (Bdiv_correct prec emax _ _ mode_NE x y Ny) as C. cbn [round_mode] in C. rewrite Rlt_bool_true, Fx in C by auto. tauto. Qed.

Lemma fl_add_sub : forall z w : Cartesian float, cfin z -> cfin w ->
  ((Rabs (rnd (B2R (re z) + B2R (re w))) < bpow radix2 emax)%R -> (Rabs (rnd (B2R (im z) + B2R (im w))) < bpow radix2 emax)%R ->
   exists r, cartesian_add float_ops z w = Ok r /\ cfin r /\ B2R (re r) = rnd (B2R (re z) + B2R (re w)) /\ B2R (im r) = rnd (B2R (im z) + B2R (im w))) /\
  ((Rabs (rnd (B2R (re z) - B2R (re w))) < bpow radix2 emax)%R -> (Rabs (rnd (B2R (im z) - B2R (im w))) < bpow radix2 emax)%R ->
   exists r, cartesian_sub float_ops z w = Ok r /\ cfin r /\ B2R (re r) = rnd (B2R (re z) - B2R (re w)) /\ B2R (im r) = rnd (B2R (im z) - B2R (im w))).
Proof.
  intros [a b] [c d] [Fa Fb] [Fc Fd]. cbn [re im] in *. split; intros H1 H2; eexists; (split; [reflexivity|]); unfold cfin; cbn [re im].
  - destruct (plus_ok a c Fa Fc H1) as [? ?], (plus_ok b d Fb Fd H2) as [? ?]. auto.
  - destruct (minus_ok a c Fa Fc H1) as [? ?], (minus_ok b d Fb Fd H2) as [? ?]. auto.
Qed.

(** two rounded products combined by a rounded sum *)
Lemma sum2 : forall p q x y e1 e2, (Rabs (x - p) <= u * Rabs p + / 2 * eta)%R -> (Rabs (y - q) <= u * Rabs q + / 2 * eta)%R ->
  (Rabs (e1 - (x + y)) <= u * Rabs (x + y) + / 2 * eta)%R -> e2 = (p + q)%R -> (u <= / 4)%R ->
  (Rabs (e1 - e2) <= (2 * u + u * u) * (Rabs p + Rabs q) + 2 * eta)%R.
Proof.
  intros p q x y e1 e2 X Y E1 E2 U. subst e2. pose proof (bpow_gt_0 radix2 (- prec)) as U0. pose proof (bpow_gt_0 radix2 (3 - emax - prec)) as T0.
  set (v := u) in *. set (t := eta) in *.
  assert (D : (Rabs ((x + y) - (p + q)) <= v * (Rabs p + Rabs q) + t)%R).
  { replace ((x + y) - (p + q))%R with ((x - p) + (y - q))%R by ring. eapply Rle_trans; [apply Rabs_triang|]. lra. }
  assert (S : (Rabs (x + y) <= (Rabs p + Rabs q) * (1 + v) + t)%R).
  { replace (x + y)%R with ((p + q) + ((x + y) - (p + q)))%R by ring. eapply Rle_trans; [apply Rabs_triang|]. pose proof (Rabs_triang p q). lra. }
  replace (e1 - (p + q))%R with ((e1 - (x + y)) + ((x + y) - (p + q)))%R by ring. eapply Rle_trans; [apply Rabs_triang|].
  apply (Rmult_le_compat_l v) in S; [|lra]. assert (v * t <= / 4 * t)%R by (apply Rmult_le_compat_r; lra). lra.
Qed.

Lemma fl_mul : forall z w : Cartesian float, 2 <= prec -> cfin z -> cfin w -> forall k, 3 - emax <= 2 * k -> 2 * k + 1 < emax ->
  (Rabs (B2R (re z)) <= bpow radix2 k)%R -> (Rabs (B2R (im z)) <= bpow radix2 k)%R ->
  (Rabs (B2R (re w)) <= bpow radix2 k)%R -> (Rabs (B2R (im w)) <= bpow radix2 k)%R ->
  exists r, cartesian_mul float_ops z w = Ok r /\ cfin r /\
  (Rabs (B2R (re r) - (B2R (re z) * B2R (re w) - B2R (im z) * B2R (im w))) <=
     (2 * u + u * u) * (Rabs (B2R (re z) * B2R (re w)) + Rabs (B2R (im z) * B2R (im w))) + 2 * eta)%R /\
  (Rabs (B2R (im r) - (B2R (re z) * B2R (im w) + B2R (im z) * B2R (re w))) <=
     (2 * u + u * u) * (Rabs (B2R (re z) * B2R (im w)) + Rabs (B2R (im z) * B2R (re w))) + 2 * eta)%R.
Proof.
  intros [a b] [c d] P2 [Fa Fb] [Fc Fd] k K1 K2 La Lb Lc Ld. cbn [re im] in *.
  assert (U4 : (u <= / 4)%R) by (change (/ 4)%R with (bpow radix2 (-2)); apply bpow_le; lia).
  assert (M : forall x y : float, (Rabs (B2R x) <= bpow radix2 k)%R -> (Rabs (B2R y) <= bpow radix2 k)%R -> (Rabs (B2R x * B2R y) <= bpow radix2 (2 * k))%R).
  { intros x y X Y. rewrite Rabs_mult. replace (2 * k) with (k + k) by lia. rewrite bpow_plus. apply Rmult_le_compat; auto using Rabs_pos. }
  assert (K : 3 - emax <= 2 * k < emax) by lia.
  destruct (mult_r a c Fa Fc _ K (M a c La Lc)) as [F1 V1]. destruct (mult_r b d Fb Fd _ K (M b d Lb Ld)) as [F2 V2].
  destruct (mult_r a d Fa Fd _ K (M a d La Ld)) as [F3 V3]. destruct (mult_r b c Fb Fc _ K (M b c Lb Lc)) as [F4 V4].
  assert (B : forall x y : float, (Rabs (B2R x) <= bpow radix2 k)%R -> (Rabs (B2R y) <= bpow radix2 k)%R -> B2R (Bmult mode_NE x y) = rnd (B2R x * B2R y) -> (Rabs (B2R (Bmult mode_NE x y)) <= bpow radix2 (2 * k))%R).
  { intros x y X Y E. rewrite E. apply rnd_le; auto. }
  pose proof (B a c La Lc V1) as B1. pose proof (B b d Lb Ld V2) as B2. pose proof (B a d La Ld V3) as B3. pose proof (B b c Lb Lc V4) as B4. clear B M.
  assert (KK : 3 - emax <= 2 * k + 1 < emax) by lia.
  destruct (minus_r _ _ F1 F2 _ KK) as [F5 V5].
  { rewrite bpow_plus. change (bpow radix2 1) with 2%R. unfold Rminus. eapply Rle_trans; [apply Rabs_triang|]. rewrite Rabs_Ropp. lra. }
  destruct (plus_r _ _ F3 F4 _ KK) as [F6 V6].
  { rewrite bpow_plus. change (bpow radix2 1) with 2%R. eapply Rle_trans; [apply Rabs_triang|]. lra. }
  eexists. split; [reflexivity|]. unfold cfin. cbn [re im]. split; [auto|]. split.
  - rewrite V5. replace (Rabs (B2R b * B2R d)) with (Rabs (- (B2R b * B2R d))) by apply Rabs_Ropp.
    apply (sum2 (B2R a * B2R c) (- (B2R b * B2R d)) (B2R (Bmult mode_NE a c)) (- B2R (Bmult mode_NE b d))).
    + rewrite V1. apply rnd_rel.
    + rewrite V2, Rabs_Ropp. replace (- rnd (B2R b * B2R d) - - (B2R b * B2R d))%R with (- (rnd (B2R b * B2R d) - B2R b * B2R d))%R by ring. rewrite Rabs_Ropp. apply rnd_rel.
    + apply rnd_rel.
    + reflexivity.
    + auto.
  - rewrite V6. apply (sum2 (B2R a * B2R d) (B2R b * B2R c) (B2R (Bmult mode_NE a d)) (B2R (Bmult mode_NE b c))).
    + rewrite V3. apply rnd_rel.
    + rewrite V4. apply rnd_rel.
    + apply rnd_rel.
    + reflexivity.
    + auto.
Qed.

(** scalars of any type converting to the float [s] *)
Lemma fl_scalar : forall T1 (O1 : MixedOps T1) (C : MixedNumConversion T1 float) (Z1 : MixedZero T1) (z : Cartesian float) (x : T1) (s : float),
  cfin z -> is_finite s = true -> mixed_from_num C x = Ok s ->
  ((Rabs (rnd (B2R (re z) * B2R s)) < bpow radix2 emax)%R -> (Rabs (rnd (B2R (im z) * B2R s)) < bpow radix2 emax)%R ->
   exists r, cartesian_mul_scalar float_ops C z x = Ok r /\ cfin r /\ B2R (re r) = rnd (B2R (re z) * B2R s) /\ B2R (im r) = rnd (B2R (im z) * B2R s)) /\
  (B2R s <> 0%R -> (exists x0, mixed_zero Z1 = Ok x0 /\ o_eq O1 x x0 = false) ->
   (Rabs (rnd (B2R (re z) / B2R s)) < bpow radix2 emax)%R -> (Rabs (rnd (B2R (im z) / B2R s)) < bpow radix2 emax)%R ->
   exists r, cartesian_div_scalar O1 float_ops C Z1 float_real z x = Ok r /\ cartesian_div_assign_scalar O1 float_ops C Z1 float_real z x = Ok r /\
     cfin r /\ B2R (re r) = rnd (B2R (re z) / B2R s) /\ B2R (im r) = rnd (B2R (im z) / B2R s)).
Proof.
  intros T1 O1 C Z1 [a b] x s [Fa Fb] Fs E. cbn [re im] in *. split.
  - intros H1 H2. unfold cartesian_mul_scalar. rewrite E. cbn [bind re im float_ops o_mul]. eexists. split; [reflexivity|]. unfold cfin. cbn [re im].
    destruct (mult_ok a s Fa Fs H1) as [? ?], (mult_ok b s Fb Fs H2) as [? ?]. auto.
  - intros S0 (x0 & E0 & N) H1 H2. unfold cartesian_div_scalar, cartesian_div_assign_scalar. rewrite E0. cbn [bind]. rewrite N, E. cbn [bind re im float_ops o_div].
    eexists. split; [reflexivity|]. split; [reflexivity|]. unfold cfin. cbn [re im].
    destruct (div_ok a s Fa S0 H1) as [? ?], (div_ok b s Fb S0 H2) as [? ?]. auto.
Qed.
End FA.
