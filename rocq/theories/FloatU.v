(** * Rounded operations with errors counted in units of 2^-prec. *)

From Coq Require Import ZArith Reals Lia Lra Psatz List Bool.
From Flocq Require Import Core.Core IEEE754.BinarySingleNaN.
From Verif Require Import Base FloatBase Literals Traits Trig FloatImpl Spec Lemmas FloatLemmas FloatProofs FloatWrap
  WrapProofs2 SqrtReal FloatKit NiirfFloat SinReal SinFloat.
Import ListNotations.
Open Scope Z_scope.

Section Ops.
Context {prec emax : Z} {Hp : Prec_gt_0 prec} {He : Prec_lt_emax prec emax}.
Notation float := (binary_float prec emax).
Notation fexp := (SpecFloat.fexp prec emax).
Notation rnd := (round radix2 fexp ZnearestE).
Hypothesis P24 : 24 <= prec <= 100.
Hypothesis E10 : prec + 20 <= emax <= 2000.
Notation B2R := (@B2R prec emax).
Notation fin x := (is_finite x = true).
Notation U := (bpow radix2 (- prec)).

Lemma U_pos : (0 < U <= / 16777216)%R.
Proof using P24.
  split; [apply bpow_gt_0|]. apply Rle_trans with (bpow radix2 (-24)); [apply bpow_le; lia|]. apply Req_le. reflexivity.
Qed.
Lemma errU : forall v k K, -10 <= k < 10 -> bpow radix2 k = K -> (Rabs v <= K)%R -> (Rabs (rnd v - v) <= K / 2 * U)%R.
Proof using P24 E10 Hp He.
  intros v k K Hk <- H. eapply Rle_trans; [apply (rnd_err (prec := prec) (emax := emax) v k); auto; lia|].
  unfold Zminus. rewrite bpow_plus. lra.
Qed.
Lemma leU : forall e, (0 <= e -> e * U <= e / 16777216)%R.
Proof using P24. intros e H. pose proof U_pos as [_ L]. apply Rmult_le_compat_l with (r := e) in L; lra. Qed.

Lemma mulU : forall (a b : float) (A B ea eb MA MB K E : R) k, fin a -> fin b -> (0 <= ea)%R -> (0 <= eb)%R ->
  (Rabs (B2R a - A) <= ea * U)%R -> (Rabs (B2R b - B) <= eb * U)%R -> (Rabs A <= MA)%R -> (Rabs B <= MB)%R ->
  -10 <= k < 10 -> bpow radix2 k = K -> ((MA + ea / 16777216) * (MB + eb / 16777216) <= K)%R ->
  (ea * MB + MA * eb + ea * eb / 16777216 + K / 2 <= E)%R ->
  fin (Bmult mode_NE a b) /\ (Rabs (B2R (Bmult mode_NE a b) - A * B) <= E * U)%R.
Proof using P24 E10 Hp He.
  intros a b A B ea eb MA MB K E k Fa Fb Ea Eb Ha Hb HA HB Hk HK1 HK HE. pose proof U_pos as [U0 U1].
  pose proof (leU ea Ea) as La. pose proof (leU eb Eb) as Lb.
  assert (PA : (0 <= MA)%R) by (pose proof (Rabs_pos A); lra). assert (PB : (0 <= MB)%R) by (pose proof (Rabs_pos B); lra).
  assert (X : (Rabs (B2R a * B2R b) <= bpow radix2 k)%R).
  { eapply Rle_trans; [apply mul_bound; [apply (near_abs _ A (ea * U) MA) | apply (near_abs _ B (eb * U) MB)]; auto|]. rewrite HK1.
    eapply Rle_trans; [|exact HK]. apply Rmult_le_compat; try lra; assert (0 <= ea * U)%R by (apply Rmult_le_pos; lra); assert (0 <= eb * U)%R by (apply Rmult_le_pos; lra); lra. }
  destruct (mult_r (prec := prec) (emax := emax) a b Fa Fb k ltac:(lia) X) as [F V]. split; auto. rewrite V.
  rewrite HK1 in X. pose proof (errU _ k K Hk HK1 X) as R.
  replace (rnd (B2R a * B2R b) - A * B)%R with ((rnd (B2R a * B2R b) - B2R a * B2R b) + ((B2R a - A) * B + A * (B2R b - B) + (B2R a - A) * (B2R b - B)))%R by ring.
  eapply Rle_trans; [apply Rabs_triang|].
  assert (Y : (Rabs ((B2R a - A) * B + A * (B2R b - B) + (B2R a - A) * (B2R b - B)) <= (ea * U) * MB + MA * (eb * U) + (ea * U) * (eb / 16777216))%R).
  { apply add_bound; [apply add_bound|]; apply mul_bound; auto. lra. }
  apply Rle_trans with ((ea * MB + MA * eb + ea * eb / 16777216 + K / 2) * U)%R; [lra|]. apply Rmult_le_compat_r; lra.
Qed.

Lemma addU : forall (a b : float) (A B ea eb M K E : R) k, fin a -> fin b -> (0 <= ea)%R -> (0 <= eb)%R ->
  (Rabs (B2R a - A) <= ea * U)%R -> (Rabs (B2R b - B) <= eb * U)%R -> (Rabs (A + B) <= M)%R ->
  -10 <= k < 10 -> bpow radix2 k = K -> (M + ea / 16777216 + eb / 16777216 <= K)%R -> (ea + eb + K / 2 <= E)%R ->
  fin (Bplus mode_NE a b) /\ (Rabs (B2R (Bplus mode_NE a b) - (A + B)) <= E * U)%R.
Proof using P24 E10 Hp He.
  intros a b A B ea eb M K E k Fa Fb Ea Eb Ha Hb HM Hk HK1 HK HE. pose proof U_pos as [U0 U1].
  pose proof (leU ea Ea) as La. pose proof (leU eb Eb) as Lb.
  assert (Y : (Rabs (B2R a + B2R b - (A + B)) <= ea * U + eb * U)%R).
  { replace (B2R a + B2R b - (A + B))%R with ((B2R a - A) + (B2R b - B))%R by ring. apply add_bound; auto. }
  assert (X : (Rabs (B2R a + B2R b) <= bpow radix2 k)%R).
  { eapply Rle_trans; [apply (near_abs _ (A + B) (ea * U + eb * U) M); auto|]. lra. }
  destruct (plus_r (prec := prec) (emax := emax) a b Fa Fb k ltac:(lia) X) as [F V]. split; auto. rewrite V.
  rewrite HK1 in X. pose proof (errU _ k K Hk HK1 X) as R.
  replace (rnd (B2R a + B2R b) - (A + B))%R with ((rnd (B2R a + B2R b) - (B2R a + B2R b)) + (B2R a + B2R b - (A + B)))%R by ring.
  eapply Rle_trans; [apply Rabs_triang|]. apply Rle_trans with ((ea + eb + K / 2) * U)%R; [lra|]. apply Rmult_le_compat_r; lra.
Qed.
Lemma subU : forall (a b : float) (A B ea eb M K E : R) k, fin a -> fin b -> (0 <= ea)%R -> (0 <= eb)%R ->
  (Rabs (B2R a - A) <= ea * U)%R -> (Rabs (B2R b - B) <= eb * U)%R -> (Rabs (A - B) <= M)%R ->
  -10 <= k < 10 -> bpow radix2 k = K -> (M + ea / 16777216 + eb / 16777216 <= K)%R -> (ea + eb + K / 2 <= E)%R ->
  fin (Bminus mode_NE a b) /\ (Rabs (B2R (Bminus mode_NE a b) - (A - B)) <= E * U)%R.
Proof using P24 E10 Hp He.
  intros a b A B ea eb M K E k Fa Fb Ea Eb Ha Hb HM Hk HK1 HK HE. rewrite Bminus_plus.
  apply (addU a (Bopp b) A (- B) ea eb M K E k); auto.
  - rewrite is_finite_Bopp. auto.
  - rewrite B2R_Bopp. replace (- B2R b - - B)%R with (- (B2R b - B))%R by ring. rewrite Rabs_Ropp. auto.
Qed.

(** division by an exactly represented positive integer *)
Lemma divcU : forall (a : float) (A ea MA K E : R) k c, fin a -> (0 <= ea)%R ->
  (Rabs (B2R a - A) <= ea * U)%R -> (Rabs A <= MA)%R -> 0 < c <= 1000000 ->
  -10 <= k < 10 -> bpow radix2 k = K -> ((MA + ea / 16777216) / IZR c <= K)%R -> (ea / IZR c + K / 2 <= E)%R ->
  fin (Bdiv mode_NE a (float_of_Z prec emax c)) /\ (Rabs (B2R (Bdiv mode_NE a (float_of_Z prec emax c)) - A / IZR c) <= E * U)%R.
Proof using P24 E10 Hp He.
  intros a A ea MA K E k c Fa Ea Ha HA Hc Hk HK1 HK HE. pose proof U_pos as [U0 U1]. pose proof (leU ea Ea) as La.
  destruct (small_int (prec := prec) (emax := emax) ltac:(lia) c ltac:(lia)) as [Vc Fc].
  assert (C : (0 < IZR c)%R) by (apply IZR_lt; lia). assert (C' : (0 < / IZR c)%R) by (apply Rinv_0_lt_compat; auto).
  assert (X : (Rabs (B2R a / B2R (float_of_Z prec emax c)) <= bpow radix2 k)%R).
  { rewrite Vc. unfold Rdiv. rewrite Rabs_mult, (Rabs_pos_eq (/ IZR c)) by lra. rewrite HK1. eapply Rle_trans; [|exact HK].
    apply Rmult_le_compat_r; [lra|]. eapply Rle_trans; [eapply near_abs; eauto|]. lra. }
  assert (Nz : B2R (float_of_Z prec emax c) <> 0%R) by (rewrite Vc; lra).
  destruct (div_r (prec := prec) (emax := emax) a _ Fa Nz k ltac:(lia) X) as [F V]. split; auto. rewrite V.
  rewrite HK1 in X. pose proof (errU _ k K Hk HK1 X) as R. rewrite Vc in *.
  replace (rnd (B2R a / IZR c) - A / IZR c)%R with ((rnd (B2R a / IZR c) - B2R a / IZR c) + (B2R a - A) * / IZR c)%R by (field; lra).
  eapply Rle_trans; [apply Rabs_triang|]. rewrite (Rabs_mult _ (/ IZR c)), (Rabs_pos_eq (/ IZR c)) by lra.
  assert (Y : (Rabs (B2R a - A) * / IZR c <= ea * U * / IZR c)%R) by (apply Rmult_le_compat_r; lra).
  apply Rle_trans with ((ea / IZR c + K / 2) * U)%R; [unfold Rdiv in *; lra|]. apply Rmult_le_compat_r; lra.
Qed.
End Ops.

(** ** the sine polynomial *)
Section SinU.
Context {prec emax : Z} {Hp : Prec_gt_0 prec} {He : Prec_lt_emax prec emax}.
Notation float := (binary_float prec emax).
Notation B2R := (@B2R prec emax).
Notation fin x := (is_finite x = true).
Notation U := (bpow radix2 (- prec)).
Notation int z := (float_of_Z prec emax z).
Notation "a ++. b" := (Bplus mode_NE a b) (at level 50, left associativity).
Notation "a --. b" := (Bminus mode_NE a b) (at level 50, left associativity).
Notation "a **. b" := (Bmult mode_NE a b) (at level 40, left associativity).
Notation "a //. b" := (Bdiv mode_NE a b) (at level 40, left associativity).
Hypothesis P24 : 24 <= prec <= 100.
Hypothesis E10 : prec + 20 <= emax <= 2000.

Lemma fpoly_U : forall z : float, fin z -> (Rabs (B2R z) <= 15711 / 10000)%R ->
  fin (fpoly z) /\ (Rabs (B2R (fpoly z) - P9 (B2R z)) <= 6 * U)%R.
Proof using P24 E10 Hp He.
  intros z F H. unfold fpoly. rewrite powi_3, powi_5, powi_7, powi_9. unfold P9.
  set (v := B2R z) in *.
  assert (E0 : (Rabs (B2R z - v) <= 0 * U)%R) by (unfold v; rewrite Rminus_diag_eq, Rabs_R0 by auto; lra).
  assert (V2 : (Rabs (v ^ 2) <= 2469 / 1000)%R).
  { rewrite <- RPow_abs. eapply Rle_trans; [apply pow_incr; split; [apply Rabs_pos|exact H]|]. cbn [pow]. lra. }
  assert (V3 : (Rabs (v ^ 3) <= 3879 / 1000)%R).
  { rewrite <- RPow_abs. eapply Rle_trans; [apply pow_incr; split; [apply Rabs_pos|exact H]|]. cbn [pow]. lra. }
  assert (V4 : (Rabs (v ^ 4) <= 61 / 10)%R).
  { rewrite <- RPow_abs. eapply Rle_trans; [apply pow_incr; split; [apply Rabs_pos|exact H]|]. cbn [pow]. lra. }
  assert (V5 : (Rabs (v ^ 5) <= 96 / 10)%R).
  { rewrite <- RPow_abs. eapply Rle_trans; [apply pow_incr; split; [apply Rabs_pos|exact H]|]. cbn [pow]. lra. }
  assert (V7 : (Rabs (v ^ 7) <= 237 / 10)%R).
  { rewrite <- RPow_abs. eapply Rle_trans; [apply pow_incr; split; [apply Rabs_pos|exact H]|]. cbn [pow]. lra. }
  assert (V8 : (Rabs (v ^ 8) <= 372 / 10)%R).
  { rewrite <- RPow_abs. eapply Rle_trans; [apply pow_incr; split; [apply Rabs_pos|exact H]|]. cbn [pow]. lra. }
  assert (V9 : (Rabs (v ^ 9) <= 584 / 10)%R).
  { rewrite <- RPow_abs. eapply Rle_trans; [apply pow_incr; split; [apply Rabs_pos|exact H]|]. cbn [pow]. lra. }
  destruct (mulU P24 E10 z z v v 0 0 (15711/10000) (15711/10000) 4 2 2 F F) as [F2 A2]; auto; try lia; try lra.
  set (z2 := z **. z) in *. replace (v * v)%R with (v ^ 2)%R in A2 by ring. clearbody z2.
  destruct (mulU P24 E10 z z2 v (v ^ 2) 0 2 (15711/10000) (2469/1000) 4 (515/100) 2 F F2) as [F3 A3]; auto; try lia; try lra.
  set (z3 := z **. z2) in *. replace (v * v ^ 2)%R with (v ^ 3)%R in A3 by ring. clearbody z3.
  destruct (mulU P24 E10 z2 z2 (v ^ 2) (v ^ 2) 2 2 (2469/1000) (2469/1000) 8 14 3 F2 F2) as [F4 A4]; auto; try lia; try lra.
  set (z4 := z2 **. z2) in *. replace (v ^ 2 * v ^ 2)%R with (v ^ 4)%R in A4 by ring. clearbody z4.
  destruct (mulU P24 E10 z z4 v (v ^ 4) 0 14 (15711/10000) (61/10) 16 30 4 F F4) as [F5 A5]; auto; try lia; try lra.
  set (z5 := z **. z4) in *. replace (v * v ^ 4)%R with (v ^ 5)%R in A5 by ring. clearbody z5.
  destruct (mulU P24 E10 z3 z4 (v ^ 3) (v ^ 4) (515/100) 14 (3879/1000) (61/10) 32 102 5 F3 F4) as [F7 A7]; auto; try lia; try lra.
  set (z7 := z3 **. z4) in *. replace (v ^ 3 * v ^ 4)%R with (v ^ 7)%R in A7 by ring. clearbody z7.
  destruct (mulU P24 E10 z4 z4 (v ^ 4) (v ^ 4) 14 14 (61/10) (61/10) 64 203 6 F4 F4) as [F8 A8]; auto; try lia; try lra.
  set (z8 := z4 **. z4) in *. replace (v ^ 4 * v ^ 4)%R with (v ^ 8)%R in A8 by ring. clearbody z8.
  destruct (mulU P24 E10 z z8 v (v ^ 8) 0 203 (15711/10000) (372/10) 64 352 6 F F8) as [F9 A9]; auto; try lia; try lra.
  set (z9 := z **. z8) in *. replace (v * v ^ 8)%R with (v ^ 9)%R in A9 by ring. clearbody z9.
  destruct (divcU P24 E10 z3 (v ^ 3) (515/100) (3879/1000) 1 (136/100) 0 6 F3) as [G3 B3]; auto; try lia; try lra.
  set (t3 := z3 //. int 6) in *. clearbody t3.
  destruct (divcU P24 E10 z5 (v ^ 5) 30 (96/10) (/8) (32/100) (-3) 120 F5) as [G5 B5]; auto; try lia; try lra.
  set (t5 := z5 //. int 120) in *. clearbody t5.
  destruct (divcU P24 E10 z7 (v ^ 7) 102 (237/10) (/128) (25/1000) (-7) 5040 F7) as [G7 B7]; auto; try lia; try lra.
  set (t7 := z7 //. int 5040) in *. clearbody t7.
  destruct (divcU P24 E10 z9 (v ^ 9) 352 (584/10) (/1024) (2/1000) (-10) 362880 F9) as [G9 B9]; auto; try lia; try lra.
  set (t9 := z9 //. int 362880) in *. clearbody t9.
  assert (T3 : (Rabs (v - v ^ 3 / 6) <= 1)%R).
  { assert (P : forall w, (0 <= w <= 15711/10000 -> 0 <= w - w ^ 3 / 6 <= 999/1000)%R).
    { intros w Hw. split; [nra|]. assert (0 <= (w - 14142/10000)^2 * (w + 28284/10000))%R by (apply Rmult_le_pos; [apply pow2_ge_0|lra]).
      assert (w ^ 3 = (w - 14142/10000)^2 * (w + 28284/10000) + 3 * (14142/10000)^2 * w - 2 * (14142/10000)^3)%R by field. nra. }
    apply Rabs_le_inv in H. destruct (Rle_dec 0 v) as [S|S].
    - specialize (P v ltac:(lra)). apply Rabs_le. lra.
    - specialize (P (- v)%R ltac:(lra)). replace ((- v) ^ 3)%R with (- v ^ 3)%R in P by ring. apply Rabs_le. lra. }
  assert (T5 : (Rabs (v - v ^ 3 / 6 + v ^ 5 / 120) <= 11 / 10)%R) by (apply Rabs_le_inv in T3, V5; apply Rabs_le; lra).
  assert (T7 : (Rabs (v - v ^ 3 / 6 + v ^ 5 / 120 - v ^ 7 / 5040) <= 12 / 10)%R) by (apply Rabs_le_inv in T5, V7; apply Rabs_le; lra).
  assert (T9 : (Rabs (v - v ^ 3 / 6 + v ^ 5 / 120 - v ^ 7 / 5040 + v ^ 9 / 362880) <= 13 / 10)%R) by (apply Rabs_le_inv in T7, V9; apply Rabs_le; lra).
  destruct (subU P24 E10 z t3 v (v ^ 3 / 6) 0 (136/100) 1 2 (236/100) 1 F G3) as [S3 D3]; auto; try lia; try lra.
  destruct (addU P24 E10 _ t5 _ (v ^ 5 / 120) (236/100) (32/100) (11/10) 2 (368/100) 1 S3 G5 ltac:(lra) ltac:(lra) D3) as [S5 D5]; auto; try lia; try lra.
  destruct (subU P24 E10 _ t7 _ (v ^ 7 / 5040) (368/100) (25/1000) (12/10) 2 (471/100) 1 S5 G7 ltac:(lra) ltac:(lra) D5) as [S7 D7]; auto; try lia; try lra.
  destruct (addU P24 E10 _ t9 _ (v ^ 9 / 362880) (471/100) (2/1000) (13/10) 2 (572/100) 1 S7 G9 ltac:(lra) ltac:(lra) D7) as [S9 D9]; auto; try lia; try lra.
  split; auto. pose proof (bpow_gt_0 radix2 (- prec)). lra.
Qed.
End SinU.
