(** * Relative accuracy and sign of the polynomial sine on floats (proofs for C93). *)

From Coq Require Import ZArith Reals Lia Lra Psatz List Bool.
From Flocq Require Import Core.Core IEEE754.BinarySingleNaN.
From Verif Require Import Base FloatBase Literals Traits Trig FixedPrim FixedImpl FloatImpl Spec Lemmas FloatLemmas FloatProofs FloatWrap
  WrapProofs2 SqrtReal FloatKit NiirfFloat SinReal SinFloat MagProofs AtanFloat AtanProofs AtanRange AtanNan TrigMore.
Open Scope Z_scope.

Section Rel.
Context {prec emax : Z} {Hp : Prec_gt_0 prec} {He : Prec_lt_emax prec emax}.
Notation float := (binary_float prec emax).
Notation fexp := (SpecFloat.fexp prec emax).
Notation rnd := (round radix2 fexp ZnearestE).
Notation B2R := (@B2R prec emax).
Notation fin x := (is_finite x = true).
Notation int z := (float_of_Z prec emax z).
Notation "a ++. b" := (Bplus mode_NE a b) (at level 50, left associativity).
Notation "a --. b" := (Bminus mode_NE a b) (at level 50, left associativity).
Notation "a **. b" := (Bmult mode_NE a b) (at level 40, left associativity).
Notation "a //. b" := (Bdiv mode_NE a b) (at level 40, left associativity).
Notation ep := (bpow radix2 (- prec)).
Hypothesis P24 : 24 <= prec <= 100.
Hypothesis E10 : prec + 20 <= emax <= 2000.
Hypothesis E128 : 128 <= emax.
Let Vexp : Valid_exp fexp := fexp_correct prec emax _.

(** ** arguments that are not tiny: every rounding error is a multiple of [u = 2^-prec t] *)
Section Normal.
Variable t : R.
Hypothesis T1 : (bpow radix2 (-60) <= t)%R.
Hypothesis T2 : (t <= 15711 / 10000)%R.
Notation u := (ep * t)%R.

Lemma ep_val : (0 < ep <= 6 / 100000000)%R.
Proof using P24. exact (@eps_bound prec ltac:(lia)). Qed.
Lemma t_pos : (0 < t)%R.
Proof using T1. clear - T1. pose proof (bpow_gt_0 radix2 (-60)). lra. Qed.
Lemma u_val : (0 < u <= / 10000000)%R.
Proof using P24 T1 T2. clear - P24 T1 T2. pose proof ep_val. pose proof t_pos. split; [apply Rmult_lt_0_compat; lra|].
  apply Rle_trans with (6 / 100000000 * (15711 / 10000))%R; [apply Rmult_le_compat; lra | lra]. Qed.
Lemma theta_le : (/ 2 * bpow radix2 (3 - emax - prec) <= / 1000 * u)%R.
Proof using P24 E10 E128 T1.
  apply Rle_trans with (/ 2 * bpow radix2 (-10 + (- prec + -60)))%R.
  - apply Rmult_le_compat_l; [lra|]. apply bpow_le. lia.
  - rewrite !bpow_plus. change (bpow radix2 (-10)) with (/ 1024)%R. pose proof ep_val.
    assert (ep * bpow radix2 (-60) <= u)%R by (apply Rmult_le_compat_l; lra). pose proof (bpow_gt_0 radix2 (-60)). 
    assert (0 < ep * bpow radix2 (-60))%R by (apply Rmult_lt_0_compat; lra). lra.
Qed.
Lemma rnd_u : forall v V c M, (Rabs (v - V) <= c * u -> Rabs V <= M * t -> 0 <= c <= 60000 -> Rabs (rnd v - V) <= (c + M + / 200) * u)%R.
Proof using P24 E10 E128 T1 T2 Hp.
  intros v V c M H1 H2 C. pose proof (rnd_rel (prec := prec) (emax := emax) v) as R. pose proof theta_le as TH. pose proof ep_val as EP. pose proof u_val as U.
  assert (A : (Rabs v <= M * t + c * u)%R) by (eapply near_abs; eauto).
  assert (B : (ep * Rabs v <= M * u + / 250 * u)%R).
  { apply Rle_trans with (ep * (M * t + c * u))%R; [apply Rmult_le_compat_l; lra|].
    replace (ep * (M * t + c * u))%R with (M * u + (ep * c) * u)%R by ring. apply Rplus_le_compat_l. apply Rmult_le_compat_r; [lra|].
    apply Rle_trans with (6 / 100000000 * 60000)%R; [apply Rmult_le_compat; lra | lra]. }
  replace (rnd v - V)%R with ((rnd v - v) + (v - V))%R by ring. eapply Rle_trans; [apply Rabs_triang|]. lra.
Qed.

Lemma mul_u : forall (a b : float) A B ca cb MA MB M c, fin a -> fin b ->
  (Rabs (B2R a - A) <= ca * u -> Rabs (B2R b - B) <= cb * u -> Rabs A <= MA -> Rabs B <= MB -> Rabs (A * B) <= M * t ->
  0 <= ca <= 200 -> 0 <= cb <= 200 -> 0 <= MA -> 0 <= MB -> MA * MB <= 60 -> ca * MB + MA * cb + M + / 100 <= c -> c <= 400 ->
  fin (a **. b) /\ Rabs (B2R (a **. b) - A * B) <= c * u)%R.
Proof using P24 E10 E128 T1 T2 Hp He Vexp.
  intros a b A B ca cb MA MB M c Fa Fb Ha Hb HA HB HM Ca Cb Pa Pb PM HC HC4. pose proof u_val as U.
  assert (M0 : (0 <= M)%R). { pose proof t_pos. pose proof (Rabs_pos (A * B)). destruct (Rle_or_lt 0 M); auto. assert (M * t < 0)%R by nra. lra. }
  assert (D : (Rabs (B2R a * B2R b - A * B) <= (ca * MB + MA * cb + / 250) * u)%R).
  { replace (B2R a * B2R b - A * B)%R with ((B2R a - A) * B + A * (B2R b - B) + (B2R a - A) * (B2R b - B))%R by ring.
    replace ((ca * MB + MA * cb + / 250) * u)%R with (ca * u * MB + MA * (cb * u) + / 250 * u)%R by ring.
    apply add_bound; [apply add_bound|]; [apply mul_bound; auto | apply mul_bound; auto |].
    apply Rle_trans with (ca * u * (cb * u))%R; [apply mul_bound; auto|].
    replace (ca * u * (cb * u))%R with (ca * cb * u * u)%R by ring. apply Rmult_le_compat_r; [lra|].
    apply Rle_trans with (40000 * / 10000000)%R; [|lra]. apply Rmult_le_compat; try lra; [apply Rmult_le_pos; lra|].
    replace 40000%R with (200 * 200)%R by lra. apply Rmult_le_compat; lra. }
  assert (C0 : (0 <= ca * MB + MA * cb)%R) by (apply Rplus_le_le_0_compat; apply Rmult_le_pos; lra).
  assert (X : (Rabs (B2R a * B2R b) <= bpow radix2 6)%R).
  { eapply Rle_trans; [apply (near_abs _ (A * B) ((ca * MB + MA * cb + / 250) * u) 60); auto|].
    - apply Rle_trans with (MA * MB)%R; auto. apply mul_bound; auto.
    - change (bpow radix2 6) with 64%R. assert ((ca * MB + MA * cb + / 250) * u <= 401 * / 10000000)%R by (apply Rmult_le_compat; lra). lra. }
  destruct (mult_r (prec := prec) (emax := emax) a b Fa Fb 6 ltac:(lia) X) as [F V]. split; auto. rewrite V.
  eapply Rle_trans; [apply (rnd_u _ _ _ M D HM); lra|]. apply Rmult_le_compat_r; lra.
Qed.
Lemma add_u : forall (a b : float) A B ca cb M c, fin a -> fin b ->
  (Rabs (B2R a - A) <= ca * u -> Rabs (B2R b - B) <= cb * u -> Rabs (A + B) <= M * t -> M <= 10 ->
  0 <= ca <= 200 -> 0 <= cb <= 200 -> ca + cb + M + / 100 <= c ->
  fin (a ++. b) /\ Rabs (B2R (a ++. b) - (A + B)) <= c * u)%R.
Proof using P24 E10 E128 T1 T2 Hp He Vexp.
  intros a b A B ca cb M c Fa Fb Ha Hb HM HM2 Ca Cb HC. pose proof u_val as U. pose proof t_pos as TP.
  assert (D : (Rabs (B2R a + B2R b - (A + B)) <= (ca + cb) * u)%R).
  { replace (B2R a + B2R b - (A + B))%R with ((B2R a - A) + (B2R b - B))%R by ring. rewrite Rmult_plus_distr_r. apply add_bound; auto. }
  assert (X : (Rabs (B2R a + B2R b) <= bpow radix2 6)%R).
  { eapply Rle_trans; [apply (near_abs _ (A + B) ((ca + cb) * u) 16); auto|].
    - apply Rle_trans with (1 := HM). apply Rle_trans with (10 * t)%R; [apply Rmult_le_compat_r; lra | lra].
    - change (bpow radix2 6) with 64%R. assert ((ca + cb) * u <= 400 * / 10000000)%R by (apply Rmult_le_compat; lra). lra. }
  destruct (plus_r (prec := prec) (emax := emax) a b Fa Fb 6 ltac:(lia) X) as [F V]. split; auto. rewrite V.
  eapply Rle_trans; [apply (rnd_u _ _ _ M D HM); lra|]. apply Rmult_le_compat_r; lra.
Qed.
Lemma sub_u : forall (a b : float) A B ca cb M c, fin a -> fin b ->
  (Rabs (B2R a - A) <= ca * u -> Rabs (B2R b - B) <= cb * u -> Rabs (A - B) <= M * t -> M <= 10 ->
  0 <= ca <= 200 -> 0 <= cb <= 200 -> ca + cb + M + / 100 <= c ->
  fin (a --. b) /\ Rabs (B2R (a --. b) - (A - B)) <= c * u)%R.
Proof using P24 E10 E128 T1 T2 Hp He Vexp.
  intros a b A B ca cb M c Fa Fb Ha Hb HM HM2 Ca Cb HC. rewrite Bminus_plus. apply (add_u a (Bopp b) A (- B) ca cb M c); auto.
  - rewrite is_finite_Bopp; auto.
  - rewrite B2R_Bopp. replace (- B2R b - - B)%R with (- (B2R b - B))%R by ring. rewrite Rabs_Ropp. auto.
Qed.
Lemma div_u : forall (a : float) A ca M c k, fin a -> 0 < k <= 1000000 ->
  (Rabs (B2R a - A) <= ca * u -> Rabs A <= M * t -> M <= 60 -> 0 <= ca <= 400 -> (ca + M) / IZR k + / 100 <= c ->
  fin (a //. int k) /\ Rabs (B2R (a //. int k) - A / IZR k) <= c * u)%R.
Proof using P24 E10 E128 T1 T2 Hp He Vexp.
  intros a A ca M c k Fa Hk Ha HA HM Ca HC. pose proof u_val as U. pose proof t_pos as TP.
  destruct (small_int (prec := prec) (emax := emax) ltac:(lia) k ltac:(lia)) as [Vc Fc].
  assert (C1 : (1 <= IZR k)%R) by (apply IZR_le; lia). assert (C' : (0 < / IZR k <= 1)%R) by (split; [apply Rinv_0_lt_compat; lra | rewrite <- Rinv_1; apply Rinv_le; lra]).
  assert (D : (Rabs (B2R a / IZR k - A / IZR k) <= ca / IZR k * u)%R).
  { replace (B2R a / IZR k - A / IZR k)%R with ((B2R a - A) * / IZR k)%R by (field; lra). rewrite Rabs_mult, (Rabs_pos_eq (/ IZR k)) by lra.
    replace (ca / IZR k * u)%R with (ca * u * / IZR k)%R by (field; lra). apply Rmult_le_compat_r; lra. }
  assert (HD : (Rabs (A / IZR k) <= M / IZR k * t)%R).
  { unfold Rdiv. rewrite Rabs_mult, (Rabs_pos_eq (/ IZR k)) by lra. replace (M * / IZR k * t)%R with (M * t * / IZR k)%R by ring. apply Rmult_le_compat_r; lra. }
  assert (M0 : (0 <= M)%R). { pose proof (Rabs_pos A). destruct (Rle_or_lt 0 M); auto. assert (M * t < 0)%R by nra. lra. }
  assert (CK : (0 <= ca / IZR k <= ca)%R). { unfold Rdiv. split; [apply Rmult_le_pos; lra|]. rewrite <- (Rmult_1_r ca) at 2. apply Rmult_le_compat_l; lra. }
  assert (MK : (0 <= M / IZR k <= M)%R). { unfold Rdiv. split; [apply Rmult_le_pos; lra|]. rewrite <- (Rmult_1_r M) at 2. apply Rmult_le_compat_l; lra. }
  assert (X : (Rabs (B2R a / B2R (int k)) <= bpow radix2 7)%R).
  { rewrite Vc. eapply Rle_trans; [apply (near_abs _ _ _ (60 * t) D)|].
    - apply Rle_trans with (1 := HD). apply Rmult_le_compat_r; lra.
    - change (bpow radix2 7) with 128%R. assert (ca / IZR k * u <= 400 * / 10000000)%R by (apply Rmult_le_compat; lra). lra. }
  assert (Nz : B2R (int k) <> 0%R) by (rewrite Vc; lra).
  destruct (div_r (prec := prec) (emax := emax) a _ Fa Nz 7 ltac:(lia) X) as [F V]. split; auto. rewrite V, Vc.
  eapply Rle_trans; [apply (rnd_u _ _ _ (M / IZR k) D HD); lra|]. apply Rmult_le_compat_r; [lra|]. unfold Rdiv in *. lra.
Qed.
End Normal.

Lemma fpoly_rel : forall z : float, fin z -> (bpow radix2 (-60) <= B2R z <= 15711 / 10000)%R ->
  fin (fpoly z) /\ (Rabs (B2R (fpoly z) - P9 (B2R z)) <= 6 * (ep * B2R z))%R.
Proof using P24 E10 E128 Hp He Vexp.
  intros z F [T1 T2]. unfold fpoly. rewrite powi_3, powi_5, powi_7, powi_9. unfold P9.
  set (v := B2R z) in *.
  assert (V0 : (0 < v)%R) by (pose proof (bpow_gt_0 radix2 (-60)); lra).
  assert (E0 : (Rabs (B2R z - v) <= 0 * (ep * v))%R) by (unfold v; rewrite Rminus_diag_eq, Rabs_R0 by auto; lra).
  assert (W : forall n c, ((15711 / 10000) ^ n <= c)%R -> (Rabs (v ^ n) <= c)%R).
  { intros n c H. rewrite Rabs_pos_eq by (apply pow_le; lra). eapply Rle_trans; [apply pow_incr; split; [lra|exact T2]|]. exact H. }
  assert (W' : forall n c, ((15711 / 10000) ^ n <= c)%R -> (Rabs (v ^ S n) <= c * v)%R).
  { intros n c H. rewrite <- tech_pow_Rmult, Rabs_mult, (Rabs_pos_eq v) by lra. rewrite Rmult_comm. apply Rmult_le_compat_r; [lra|]. apply W; auto. }
  assert (V1 : (Rabs v <= 15711 / 10000)%R) by (rewrite Rabs_pos_eq; lra).
  pose proof (W 2%nat (2469 / 1000)%R ltac:(cbn [pow]; lra)) as V2. pose proof (W 3%nat (3879 / 1000)%R ltac:(cbn [pow]; lra)) as V3.
  pose proof (W 4%nat (61 / 10)%R ltac:(cbn [pow]; lra)) as V4. pose proof (W 8%nat (372 / 10)%R ltac:(cbn [pow]; lra)) as V8.
  pose proof (W' 1%nat (15711 / 10000)%R ltac:(cbn [pow]; lra)) as U2. pose proof (W' 2%nat (2469 / 1000)%R ltac:(cbn [pow]; lra)) as U3.
  pose proof (W' 3%nat (3879 / 1000)%R ltac:(cbn [pow]; lra)) as U4. pose proof (W' 4%nat (61 / 10)%R ltac:(cbn [pow]; lra)) as U5.
  pose proof (W' 6%nat (151 / 10)%R ltac:(cbn [pow]; lra)) as U7. pose proof (W' 7%nat (237 / 10)%R ltac:(cbn [pow]; lra)) as U8.
  pose proof (W' 8%nat (372 / 10)%R ltac:(cbn [pow]; lra)) as U9. clear W W'.
  assert (R2 : (v * v = v ^ 2)%R) by ring. assert (R3 : (v * v ^ 2 = v ^ 3)%R) by ring. assert (R4 : (v ^ 2 * v ^ 2 = v ^ 4)%R) by ring.
  assert (R5 : (v * v ^ 4 = v ^ 5)%R) by ring. assert (R7 : (v ^ 3 * v ^ 4 = v ^ 7)%R) by ring. assert (R8 : (v ^ 4 * v ^ 4 = v ^ 8)%R) by ring. assert (R9 : (v * v ^ 8 = v ^ 9)%R) by ring.
  destruct (mul_u v T1 T2 z z v v 0 0 (15711/10000) (15711/10000) (15711/10000) (1582/1000) F F) as [F2 A2]; auto; try lra; try (rewrite R2; lra).
  set (z2 := z **. z) in *. rewrite R2 in A2. clearbody z2.
  destruct (mul_u v T1 T2 z z2 v (v ^ 2) 0 (1582/1000) (15711/10000) (2469/1000) (2469/1000) (497/100) F F2) as [F3 A3]; auto; try lra; try (rewrite R3; lra).
  set (z3 := z **. z2) in *. rewrite R3 in A3. clearbody z3.
  destruct (mul_u v T1 T2 z2 z2 (v ^ 2) (v ^ 2) (1582/1000) (1582/1000) (2469/1000) (2469/1000) (3879/1000) (1171/100) F2 F2) as [F4 A4]; auto; try lra; try (rewrite R4; lra).
  set (z4 := z2 **. z2) in *. rewrite R4 in A4. clearbody z4.
  destruct (mul_u v T1 T2 z z4 v (v ^ 4) 0 (1171/100) (15711/10000) (61/10) (61/10) (2452/100) F F4) as [F5 A5]; auto; try lra; try (rewrite R5; lra).
  set (z5 := z **. z4) in *. rewrite R5 in A5. clearbody z5.
  destruct (mul_u v T1 T2 z3 z4 (v ^ 3) (v ^ 4) (497/100) (1171/100) (3879/1000) (61/10) (151/10) 91 F3 F4) as [F7 A7]; auto; try lra; try (rewrite R7; lra).
  set (z7 := z3 **. z4) in *. rewrite R7 in A7. clearbody z7.
  destruct (mul_u v T1 T2 z4 z4 (v ^ 4) (v ^ 4) (1171/100) (1171/100) (61/10) (61/10) (237/10) 167 F4 F4) as [F8 A8]; auto; try lra; try (rewrite R8; lra).
  set (z8 := z4 **. z4) in *. rewrite R8 in A8. clearbody z8.
  destruct (mul_u v T1 T2 z z8 v (v ^ 8) 0 167 (15711/10000) (372/10) (372/10) 300 F F8) as [F9 A9]; auto; try lra; try (rewrite R9; lra).
  set (z9 := z **. z8) in *. rewrite R9 in A9. clearbody z9.
  destruct (div_u v T1 T2 z3 (v ^ 3) (497/100) (2469/1000) (126/100) 6 F3) as [G3 B3]; auto; try lia; try lra.
  set (t3 := z3 //. int 6) in *. clearbody t3.
  destruct (div_u v T1 T2 z5 (v ^ 5) (2452/100) (61/10) (27/100) 120 F5) as [G5 B5]; auto; try lia; try lra.
  set (t5 := z5 //. int 120) in *. clearbody t5.
  destruct (div_u v T1 T2 z7 (v ^ 7) 91 (151/10) (4/100) 5040 F7) as [G7 B7]; auto; try lia; try lra.
  set (t7 := z7 //. int 5040) in *. clearbody t7.
  destruct (div_u v T1 T2 z9 (v ^ 9) 300 (372/10) (2/100) 362880 F9) as [G9 B9]; auto; try lia; try lra.
  set (t9 := z9 //. int 362880) in *. clearbody t9.
  (* the partial sums lie between 0 and v *)
  rewrite Rabs_pos_eq in U3, U5, U7, U9 by (apply pow_le; lra).
  assert (N3 : (0 < v ^ 3)%R) by (apply pow_lt; lra). assert (N5 : (0 < v ^ 5)%R) by (apply pow_lt; lra).
  assert (N7 : (0 < v ^ 7)%R) by (apply pow_lt; lra). assert (N9 : (0 < v ^ 9)%R) by (apply pow_lt; lra).
  rewrite Rabs_pos_eq in V2, V4 by (apply pow_le; lra).
  assert (L5 : (v ^ 5 <= 2469 / 1000 * v ^ 3)%R) by (replace (v ^ 5)%R with (v ^ 2 * v ^ 3)%R by ring; apply Rmult_le_compat_r; lra).
  assert (L7 : (v ^ 7 <= 2469 / 1000 * v ^ 5)%R) by (replace (v ^ 7)%R with (v ^ 2 * v ^ 5)%R by ring; apply Rmult_le_compat_r; lra).
  assert (L9 : (v ^ 9 <= 2469 / 1000 * v ^ 7)%R) by (replace (v ^ 9)%R with (v ^ 2 * v ^ 7)%R by ring; apply Rmult_le_compat_r; lra).
  assert (S3 : (Rabs (v - v ^ 3 / 6) <= 1 * v)%R) by (apply Rabs_le; lra).
  assert (S5 : (Rabs (v - v ^ 3 / 6 + v ^ 5 / 120) <= 1 * v)%R) by (apply Rabs_le; lra).
  assert (S7 : (Rabs (v - v ^ 3 / 6 + v ^ 5 / 120 - v ^ 7 / 5040) <= 1 * v)%R) by (apply Rabs_le; lra).
  assert (S9 : (Rabs (v - v ^ 3 / 6 + v ^ 5 / 120 - v ^ 7 / 5040 + v ^ 9 / 362880) <= 1 * v)%R) by (apply Rabs_le; lra).
  clear U2 U3 U4 U5 U7 U8 U9 V2 V3 V4 V8 L5 L7 L9 N3 N5 N7 N9 A2 A3 A4 A5 A7 A8 A9 R2 R3 R4 R5 R7 R8 R9.
  destruct (sub_u v T1 T2 z t3 v (v ^ 3 / 6) 0 (126/100) 1 (227/100) F G3) as [H3 D3]; auto; try lra.
  destruct (add_u v T1 T2 _ t5 _ (v ^ 5 / 120) _ (27/100) 1 (355/100) H3 G5 D3) as [H5 D5]; auto; try lra.
  destruct (sub_u v T1 T2 _ t7 _ (v ^ 7 / 5040) _ (4/100) 1 (460/100) H5 G7 D5) as [H7 D7]; auto; try lra.
  destruct (add_u v T1 T2 _ t9 _ (v ^ 9 / 362880) _ (2/100) 1 (563/100) H7 G9 D7) as [H9 D9]; auto; try lra.
  split; auto. pose proof ep_val. assert (0 < ep * v)%R by (apply Rmult_lt_0_compat; lra). eapply Rle_trans; [exact D9|]. apply Rmult_le_compat_r; lra.
Qed.

(** ** tiny arguments are returned unchanged *)
Lemma fexp_v : forall e, fexp e = Z.max (e - prec) (3 - emax - prec).
Proof using. reflexivity. Qed.
Lemma absorb : forall t w, generic_format radix2 fexp t -> (0 < t)%R -> (0 <= w <= rnd (bpow radix2 (-120) * t))%R -> rnd (t - w) = t /\ rnd (t + w) = t.
Proof using P24 E10 E128 Hp Vexp.
  intros t w G T [W0 W1].
  destruct (Req_dec w 0) as [->|Wn]. { rewrite Rminus_0_r, Rplus_0_r. split; apply round_generic; auto; apply valid_rnd_N. }
  assert (W : (0 < w)%R) by lra. pose proof (bpow_gt_0 radix2 (-120)) as B0.
  assert (L : (bpow radix2 (2 - emax - prec) < bpow radix2 (-120) * t)%R).
  { apply Rnot_le_lt. intros C. apply (rnd_zero_iff P24 E10) in C; [lra|]. apply Rmult_le_pos; lra. }
  pose proof (rnd_rel (prec := prec) (emax := emax) (bpow radix2 (-120) * t)) as R. rewrite (Rabs_pos_eq (_ * t)) in R by (apply Rmult_le_pos; lra).
  assert (EH : (/ 2 * bpow radix2 (3 - emax - prec) = bpow radix2 (2 - emax - prec))%R).
  { replace (3 - emax - prec) with (1 + (2 - emax - prec)) by ring. rewrite bpow_plus. change (bpow radix2 1) with 2%R. lra. }
  rewrite EH in R. pose proof ep_val as EP. apply Rabs_le_inv in R. set (d := (bpow radix2 (-120) * t)%R) in *.
  assert (D0 : (0 < d)%R) by (apply Rmult_lt_0_compat; lra).
  assert (W2 : (w <= 3 * d)%R). { assert (ep * d <= 1 * d)%R by (apply Rmult_le_compat_r; lra). lra. }
  (* t is normal *)
  assert (TN : (bpow radix2 (3 - emax - prec + prec - 1) <= t)%R).
  { apply Rle_trans with (bpow radix2 (120 + (2 - emax - prec))); [apply bpow_le; lia|]. rewrite bpow_plus.
    apply Rle_trans with (bpow radix2 120 * d)%R; [apply Rmult_le_compat_l; [apply bpow_ge_0|lra]|]. unfold d. rewrite <- Rmult_assoc, <- bpow_plus. cbn [Z.add bpow]. simpl. lra. }
  assert (UL : (Ulp.ulp radix2 fexp t <= t * bpow radix2 (1 - prec))%R).
  { pose proof (ulp_FLT_le radix2 (3 - emax - prec) prec t) as Q. rewrite (Rabs_pos_eq t) in Q by lra. exact (Q TN). }
  assert (UG : forall x, (Rabs x * ep < Ulp.ulp radix2 fexp x)%R) by (intros x; exact (ulp_FLT_gt radix2 (3 - emax - prec) prec x)).
  assert (EQ : (bpow radix2 (1 - prec) = 2 * ep)%R) by (unfold Zminus; rewrite bpow_plus; reflexivity).
  assert (DE : (d <= / 1000 * (ep * t))%R).
  { unfold d. rewrite <- Rmult_assoc. apply Rmult_le_compat_r; [lra|]. replace (-120) with (-20 + -100) by reflexivity. rewrite bpow_plus. change (bpow radix2 (-20)) with (/ 1048576)%R.
    assert (bpow radix2 (-100) <= ep)%R by (apply bpow_le; lia). pose proof (bpow_gt_0 radix2 (-100)). lra. }
  assert (ET : (0 < ep * t)%R) by (apply Rmult_lt_0_compat; lra).
  pose proof (pred_lt_id radix2 fexp t ltac:(lra)) as PL. pose proof (generic_format_pred radix2 fexp t G) as GP.
  assert (P0 : (0 <= pred radix2 fexp t)%R) by (apply pred_ge_0; auto).
  pose proof (pred_plus_ulp radix2 fexp t T G) as PU.
  assert (UP : (Ulp.ulp radix2 fexp (pred radix2 fexp t) <= Ulp.ulp radix2 fexp t)%R) by (apply (ulp_le radix2 fexp (Hm := fexp_monotone prec emax)); rewrite !Rabs_pos_eq; lra).
  pose proof (UG (pred radix2 fexp t)) as UG1. rewrite Rabs_pos_eq in UG1 by auto. pose proof (UG t) as UG2. rewrite Rabs_pos_eq in UG2 by lra.
  assert (PH : (/ 2 * t <= pred radix2 fexp t)%R). { rewrite EQ in UL. assert (t * (2 * ep) <= t * / 2)%R by (apply Rmult_le_compat_l; lra). lra. }
  assert (UG3 : (/ 2 * (ep * t) < Ulp.ulp radix2 fexp (pred radix2 fexp t))%R).
  { apply Rle_lt_trans with (pred radix2 fexp t * ep)%R; [|exact UG1]. replace (/ 2 * (ep * t))%R with (/ 2 * t * ep)%R by ring. apply Rmult_le_compat_r; lra. }
  assert (SU : succ radix2 fexp t = (t + Ulp.ulp radix2 fexp t)%R) by (apply succ_eq_pos; lra).
  set (up := Ulp.ulp radix2 fexp (pred radix2 fexp t)) in *. set (pr := pred radix2 fexp t) in *. set (ut := Ulp.ulp radix2 fexp t) in *.
  split; apply Rle_antisym.
  - apply round_N_le_midp; auto. rewrite SU. fold ut. lra.
  - apply round_N_ge_midp; auto. fold pr. lra.
  - apply round_N_le_midp; auto. rewrite SU. fold ut. lra.
  - apply round_N_ge_midp; auto. fold pr. lra.
Qed.

(** operations on numbers between 0 and [w]: the result is again between 0 and the rounded bound *)
Lemma mul_small : forall (a b : float) B, fin a -> fin b -> (0 <= B2R a)%R -> (0 <= B2R b)%R -> (B2R a * B2R b <= B <= 1)%R ->
  fin (a **. b) /\ (0 <= B2R (a **. b) <= rnd B)%R.
Proof using P24 E10 E128 Hp Vexp.
  intros a b B Fa Fb A0 B0 [H1 H2]. pose proof (Rmult_le_pos _ _ A0 B0) as P.
  destruct (mult_r (prec := prec) (emax := emax) a b Fa Fb 0 ltac:(lia)) as [F V]; [rewrite Rabs_pos_eq by auto; simpl; lra|].
  split; auto. rewrite V. split; [rewrite <- (rnd_0 P24 E10)|]; apply (rnd_mono P24 E10); auto.
Qed.
Lemma div_small : forall (a : float) k, fin a -> (0 <= B2R a <= 1)%R -> 0 < k <= 1000000 -> fin (a //. int k) /\ (0 <= B2R (a //. int k) <= B2R a)%R.
Proof using P24 E10 E128 Hp Vexp.
  intros a k Fa A K. destruct (small_int (prec := prec) (emax := emax) ltac:(lia) k ltac:(lia)) as [Vc Fc].
  assert (C1 : (1 <= IZR k)%R) by (apply IZR_le; lia). assert (C' : (0 < / IZR k <= 1)%R) by (split; [apply Rinv_0_lt_compat; lra | rewrite <- Rinv_1; apply Rinv_le; lra]).
  assert (Q : (0 <= B2R a / IZR k <= B2R a)%R). { unfold Rdiv. split; [apply Rmult_le_pos; lra|]. rewrite <- (Rmult_1_r (B2R a)) at 2. apply Rmult_le_compat_l; lra. }
  destruct (div_r (prec := prec) (emax := emax) a (int k) Fa ltac:(rewrite Vc; lra) 0 ltac:(lia)) as [F V]; [rewrite Vc, Rabs_pos_eq by lra; simpl; lra|].
  split; auto. rewrite V, Vc. split.
  - rewrite <- (rnd_0 P24 E10). apply (rnd_mono P24 E10). lra.
  - rewrite <- (round_generic radix2 fexp ZnearestE (B2R a)) at 2 by apply generic_format_B2R. apply (rnd_mono P24 E10). lra.
Qed.
Lemma fpoly_tiny : forall z : float, fin z -> (0 < B2R z < bpow radix2 (-60))%R -> fin (fpoly z) /\ B2R (fpoly z) = B2R z.
Proof using P24 E10 E128 Hp He Vexp.
  intros z F [T0 T1]. unfold fpoly. rewrite powi_3, powi_5, powi_7, powi_9. set (t := B2R z) in *.
  assert (G : generic_format radix2 fexp t) by apply generic_format_B2R.
  set (w := rnd (bpow radix2 (-120) * t)). pose proof (bpow_gt_0 radix2 (-120)) as B0.
  assert (B1 : (bpow radix2 (-60) <= 1)%R) by (change 1%R with (bpow radix2 0); apply bpow_le; lia).
  assert (BB : (bpow radix2 (-60) * bpow radix2 (-60) = bpow radix2 (-120))%R) by (rewrite <- bpow_plus; reflexivity).
  assert (B2 : (bpow radix2 (-120) <= 1)%R) by (change 1%R with (bpow radix2 0); apply bpow_le; lia).
  assert (GB : rnd (bpow radix2 (-120)) = bpow radix2 (-120)). { apply round_generic; [apply valid_rnd_N|]. apply generic_format_bpow. rewrite fexp_v. lia. }
  assert (W0 : (0 <= w)%R). { unfold w. rewrite <- (rnd_0 P24 E10). apply (rnd_mono P24 E10). apply Rmult_le_pos; lra. }
  assert (W1 : (w <= t)%R). { unfold w. rewrite <- (round_generic radix2 fexp ZnearestE t) at 2 by auto. apply (rnd_mono P24 E10). rewrite <- (Rmult_1_l t) at 2. apply Rmult_le_compat_r; lra. }
  assert (GW : rnd w = w). { apply round_generic; [apply valid_rnd_N|]. apply generic_format_round; [auto|apply valid_rnd_N]. }
  destruct (mul_small z z (bpow radix2 (-120)) F F) as [F2 H2]; fold t; try lra. { rewrite <- BB. split; [apply Rmult_le_compat; lra | lra]. }
  rewrite GB in H2. set (z2 := z **. z) in *. clearbody z2.
  assert (HZ2 : (t * B2R z2 <= bpow radix2 (-120) * t)%R) by (rewrite (Rmult_comm t); apply Rmult_le_compat_r; lra).
  assert (T120 : (bpow radix2 (-120) * t <= 1)%R) by (replace 1%R with (1 * 1)%R by ring; apply Rmult_le_compat; lra).
  destruct (mul_small z z2 (bpow radix2 (-120) * t) F F2) as [F3 H3]; fold t; try lra. fold w in H3. set (z3 := z **. z2) in *. clearbody z3.
  destruct (mul_small z2 z2 (bpow radix2 (-120)) F2 F2) as [F4 H4]; try lra. { split; [|lra]. rewrite <- (Rmult_1_r (bpow radix2 (-120))). apply Rmult_le_compat; lra. }
  rewrite GB in H4. set (z4 := z2 **. z2) in *. clearbody z4.
  assert (HZ4 : (t * B2R z4 <= bpow radix2 (-120) * t)%R) by (rewrite (Rmult_comm t); apply Rmult_le_compat_r; lra).
  destruct (mul_small z z4 (bpow radix2 (-120) * t) F F4) as [F5 H5]; fold t; try lra. fold w in H5. set (z5 := z **. z4) in *. clearbody z5.
  destruct (mul_small z3 z4 w F3 F4) as [F7 H7]; try lra. { split; [|lra]. rewrite <- (Rmult_1_r w). apply Rmult_le_compat; lra. }
  rewrite GW in H7. set (z7 := z3 **. z4) in *. clearbody z7.
  destruct (mul_small z4 z4 (bpow radix2 (-120)) F4 F4) as [F8 H8]; try lra. { split; [|lra]. rewrite <- (Rmult_1_r (bpow radix2 (-120))). apply Rmult_le_compat; lra. }
  rewrite GB in H8. set (z8 := z4 **. z4) in *. clearbody z8.
  assert (HZ8 : (t * B2R z8 <= bpow radix2 (-120) * t)%R) by (rewrite (Rmult_comm t); apply Rmult_le_compat_r; lra).
  destruct (mul_small z z8 (bpow radix2 (-120) * t) F F8) as [F9 H9]; fold t; try lra. fold w in H9. set (z9 := z **. z8) in *. clearbody z9.
  destruct (div_small z3 6 F3 ltac:(lra) ltac:(lia)) as [G3 K3]. destruct (div_small z5 120 F5 ltac:(lra) ltac:(lia)) as [G5 K5].
  destruct (div_small z7 5040 F7 ltac:(lra) ltac:(lia)) as [G7 K7]. destruct (div_small z9 362880 F9 ltac:(lra) ltac:(lia)) as [G9 K9].
  set (t3 := z3 //. int 6) in *. set (t5 := z5 //. int 120) in *. set (t7 := z7 //. int 5040) in *. set (t9 := z9 //. int 362880) in *. clearbody t3 t5 t7 t9.
  assert (SUB : forall a b : float, fin a -> B2R a = t -> fin b -> (0 <= B2R b <= w)%R -> fin (a --. b) /\ B2R (a --. b) = t).
  { intros a b Fa Va Fb Hb. destruct (absorb t (B2R b) G T0 Hb) as [Q _].
    destruct (minus_r (prec := prec) (emax := emax) a b Fa Fb 0 ltac:(lia)) as [FF V]; [rewrite Va; apply Rabs_le; simpl; lra|].
    split; auto. rewrite V, Va. exact Q. }
  assert (ADD : forall a b : float, fin a -> B2R a = t -> fin b -> (0 <= B2R b <= w)%R -> fin (a ++. b) /\ B2R (a ++. b) = t).
  { intros a b Fa Va Fb Hb. destruct (absorb t (B2R b) G T0 Hb) as [_ Q].
    destruct (plus_r (prec := prec) (emax := emax) a b Fa Fb 1 ltac:(lia)) as [FF V]; [rewrite Va; apply Rabs_le; simpl; lra|].
    split; auto. rewrite V, Va. exact Q. }
  destruct (SUB z t3 F eq_refl G3 ltac:(lra)) as [S3 V3]. destruct (ADD _ t5 S3 V3 G5 ltac:(lra)) as [S5 V5].
  destruct (SUB _ t7 S5 V5 G7 ltac:(lra)) as [S7 V7]. destruct (ADD _ t9 S7 V7 G9 ltac:(lra)) as [S9 V9]. auto.
Qed.

(** ** on the positive half of the folded range *)
Lemma P9_pos : forall v, (0 < v <= 15711 / 10000)%R -> (/ 2 * v <= P9 v)%R.
Proof using.
  clear. intros v H. unfold P9. assert (V2 : (0 <= v ^ 2 <= 2469 / 1000)%R). { split; [apply pow2_ge_0|]. eapply Rle_trans; [apply pow_incr; split; [lra|apply (proj2 H)]|]. cbn [pow]. lra. }
  assert (N3 : (v ^ 3 <= 2469 / 1000 * v)%R) by (replace (v ^ 3)%R with (v ^ 2 * v)%R by ring; apply Rmult_le_compat_r; lra).
  assert (N5 : (0 < v ^ 5)%R) by (apply pow_lt; lra). assert (N9 : (0 < v ^ 9)%R) by (apply pow_lt; lra).
  assert (L7 : (v ^ 7 <= 2469 / 1000 * v ^ 5)%R) by (replace (v ^ 7)%R with (v ^ 2 * v ^ 5)%R by ring; apply Rmult_le_compat_r; lra). lra.
Qed.
Lemma fpoly_pos : forall z : float, fin z -> (0 < B2R z <= 15711 / 10000)%R ->
  fin (fpoly z) /\ (0 < B2R (fpoly z))%R /\ (Rabs (B2R (fpoly z) - Rtrigo_def.sin (B2R z)) <= B2R z ^ 11 / 39916800 + 6 * (ep * B2R z))%R /\
  ((B2R z < bpow radix2 (-60))%R -> B2R (fpoly z) = B2R z).
Proof using P24 E10 E128 Hp He Vexp.
  intros z F H. pose proof ep_val as EP. set (t := B2R z) in *.
  assert (ET : (0 < ep * t)%R) by (apply Rmult_lt_0_compat; lra).
  assert (N11 : (0 < t ^ 11)%R) by (apply pow_lt; lra).
  destruct (Rlt_or_le t (bpow radix2 (-60))) as [L|L].
  - destruct (fpoly_tiny z F (conj (proj1 H) L)) as [F1 V1]. fold t in V1. split; auto. split; [lra|]. split; [|auto]. rewrite V1.
    (* t - sin t is at most t^3/6 *)
    assert (S : (t - t ^ 3 / 6 <= Rtrigo_def.sin t <= t)%R).
    { split; [|apply Rlt_le, sin_lt_x; lra].
      destruct (pre_sin_bound t 0 ltac:(lra) ltac:(lra)) as [A _]. eapply Rle_trans; [|exact A]. unfold sin_approx, sin_term. cbn [sum_f_R0 Nat.mul Nat.add]. rewrite fact_3. change (INR (fact 1)) with 1%R. apply Req_le. field. }
    assert (T3 : (t ^ 3 <= ep * t)%R).
    { replace (t ^ 3)%R with (t * t * t)%R by ring. apply Rmult_le_compat_r; [lra|]. apply Rle_trans with (bpow radix2 (-60) * bpow radix2 (-60))%R; [apply Rmult_le_compat; lra|].
      rewrite <- bpow_plus. apply bpow_le. lia. }
    apply Rabs_le. lra.
  - destruct (fpoly_rel z F (conj L (proj2 H))) as [F1 A1]. fold t in A1. split; auto.
    pose proof (taylor_pos t ltac:(lra)) as TP. pose proof (P9_pos t H) as PP. apply Rabs_le_inv in A1.
    assert (ET2 : (ep * t <= 6 / 100000000 * t)%R) by (apply Rmult_le_compat_r; lra).
    split; [lra|]. split; [apply Rabs_le; lra|]. lra.
Qed.

(** ** all angles between -pi and pi *)
Hypothesis Fh : fin fhalf.
Hypothesis Vh : (Rabs (B2R fhalf - PI / 2) <= 5 / 100000000)%R.
Lemma ffold_exact : forall x : float, fin x -> (0 <= B2R x <= 2 * B2R fhalf)%R ->
  fin (ffold fhalf x) /\ B2R (ffold fhalf x) = Rmin (B2R x) (2 * B2R fhalf - B2R x).
Proof using P24 E10 E128 Fh Vh Hp He Vexp.
  intros x F H. pose proof pi_bounds as PB. set (h := fhalf) in *. clearbody h. apply Rabs_le_inv in Vh. unfold ffold.
  assert (Foh : fin (Bopp h)) by (rewrite is_finite_Bopp; auto).
  destruct (ltb_cmp x (Bopp h) F Foh) as [[-> C]|[-> _]]; [rewrite B2R_Bopp in C; lra|].
  destruct (ltb_cmp h x Fh F) as [[-> C]|[-> C]]; [|split; auto; rewrite Rmin_left; lra].
  destruct (sterbenz_minus x h F Fh ltac:(lra)) as [Fd Vd].
  assert (E : B2R (h --. (x --. h)) = (2 * B2R h - B2R x)%R /\ fin (h --. (x --. h))).
  { assert (GF : generic_format radix2 fexp (2 * B2R h - B2R x)).
    { (* both are multiples of the unit of [1, 2) *)
      assert (M : forall a : float, fin a -> (1 <= B2R a)%R -> exists n, B2R a = F2R (Float radix2 n (1 - prec))).
      { intros a Fa A1. assert (ga : generic_format radix2 fexp (B2R a)) by apply generic_format_B2R.
        assert (C1 : 1 - prec <= cexp radix2 fexp (B2R a)).
        { unfold cexp. rewrite fexp_v. assert (1 <= mag radix2 (B2R a)) by (apply mag_ge_bpow; rewrite Rabs_pos_eq by lra; simpl; lra). lia. }
        rewrite ga. exists (Ztrunc (scaled_mantissa radix2 fexp (B2R a)) * 2 ^ (cexp radix2 fexp (B2R a) - (1 - prec))).
        unfold F2R. cbn [Fnum Fexp]. rewrite mult_IZR, (IZR_Zpower radix2) by lia. rewrite Rmult_assoc, <- bpow_plus. f_equal. f_equal. lia. }
      destruct (M h Fh ltac:(lra)) as [n1 E1]. destruct (M x F ltac:(lra)) as [n2 E2].
      assert (EE : (2 * B2R h - B2R x)%R = F2R (Float radix2 (2 * n1 - n2) (1 - prec))).
      { rewrite E1, E2. unfold F2R. cbn [Fnum Fexp]. rewrite minus_IZR, mult_IZR. ring. }
      rewrite EE. apply generic_format_FLT. exists (Float radix2 (2 * n1 - n2) (1 - prec)); auto; cbn [Fnum Fexp]; [|unfold SpecFloat.emin; lia].
      clear EE. apply lt_IZR. change (radix_val radix2) with 2. rewrite abs_IZR, (IZR_Zpower radix2) by lia.
      apply Rmult_lt_reg_r with (bpow radix2 (1 - prec)); [apply bpow_gt_0|].
      replace (Rabs (IZR (2 * n1 - n2)) * bpow radix2 (1 - prec))%R with (Rabs (2 * B2R h - B2R x)).
      2:{ rewrite E1, E2. unfold F2R. cbn [Fnum Fexp]. rewrite minus_IZR, mult_IZR. rewrite <- (Rabs_pos_eq (bpow radix2 (1 - prec))) at 3 by apply bpow_ge_0. rewrite <- Rabs_mult. f_equal. ring. }
      rewrite <- bpow_plus. replace (prec + (1 - prec)) with 1 by ring. change (bpow radix2 1) with 2%R. rewrite Rabs_pos_eq by lra. lra. }
    pose proof (Bminus_correct prec emax _ _ mode_NE h (x --. h) Fh Fd) as Q. cbn [round_mode] in Q. rewrite Vd in Q.
    replace (B2R h - (B2R x - B2R h))%R with (2 * B2R h - B2R x)%R in Q by ring. rewrite round_generic in Q by (auto; apply valid_rnd_N).
    rewrite Rlt_bool_true in Q; [tauto|]. apply Rle_lt_trans with (bpow radix2 1); [rewrite Rabs_pos_eq by lra; simpl; lra | apply bpow_lt; lia]. }
  destruct E as [E1 E2]. split; auto. rewrite E1, Rmin_right; lra.
Qed.

Lemma sin_rel_pos : forall x : float, fin x -> (0 <= B2R x <= 2 * B2R fhalf)%R ->
  let d := Rmin (B2R x) (2 * B2R fhalf - B2R x) in exists r, the_sin x = Ok r /\ fin r /\
  (Rabs (B2R r - Rtrigo_def.sin d) <= d ^ 11 / 39916800 + 6 * (ep * d))%R /\
  (0 < d -> 0 < B2R r)%R /\ (d = 0 -> B2R r = 0)%R /\ ((d < bpow radix2 (-60))%R -> B2R r = d).
Proof using P24 E10 E128 Fh Vh Hp He Vexp.
  intros x F H d. rewrite sin_float_eq. eexists. split; [reflexivity|]. destruct (ffold_exact x F H) as [F1 V1]. fold d in V1.
  set (z := ffold fhalf x) in *. clearbody z. pose proof pi_bounds as PB. apply Rabs_le_inv in Vh.
  assert (D : (0 <= d <= 15711 / 10000)%R).
  { unfold d, Rmin. destruct (Rle_dec _ _); lra. }
  destruct (Req_dec d 0) as [D0|D0].
  - destruct (zero_val z F1 ltac:(lra)) as [s Es]. 
    assert (EZ : exists s', fpoly z = B754_zero s').
    { destruct (fpoly_acc P24 E10 z F1) as [Fz _]; [rewrite V1, D0, Rabs_R0; lra|].
      apply zero_val; auto. pose proof (odd_fpoly (prec := prec) (emax := emax) ltac:(lia) z z) as OD.
      assert (OR : odd_rel z z) by (rewrite Es; right; cbn; eauto). specialize (OD OR). destruct OD as [E|(s1 & s2 & E & _)]; [|rewrite E; reflexivity].
      assert (B2R (fpoly z) = - B2R (fpoly z))%R by (rewrite <- B2R_Bopp, <- E; reflexivity). lra. }
    destruct EZ as [s' ->]. split; [reflexivity|]. rewrite D0. cbn [B2R BinarySingleNaN.B2R]. rewrite sin_0, Rminus_0_r, Rabs_R0. repeat split; intros; lra.
  - destruct (fpoly_pos z F1 ltac:(lra)) as (Fp & Pp & Ap & Tp). rewrite V1 in Ap, Tp. repeat split; auto; intros; lra.
Qed.

Lemma sin_rel : forall x : float, fin x -> (Rabs (B2R x) <= 2 * B2R fhalf)%R ->
  let d := Rmin (Rabs (B2R x)) (2 * B2R fhalf - Rabs (B2R x)) in exists r, the_sin x = Ok r /\ fin r /\
  (Rabs (Rabs (B2R r) - Rtrigo_def.sin d) <= d ^ 11 / 39916800 + 6 * (ep * d))%R /\
  (0 < B2R x < 2 * B2R fhalf -> 0 < B2R r)%R /\ (- (2 * B2R fhalf) < B2R x < 0 -> B2R r < 0)%R /\
  (B2R x = 0 \/ Rabs (B2R x) = 2 * B2R fhalf -> B2R r = 0)%R /\
  ((Rabs (B2R x) < bpow radix2 (-60))%R -> B2R r = B2R x).
Proof using P24 E10 E128 Fh Vh Hp He Vexp.
  intros x F H d. pose proof pi_bounds as PB. pose proof Vh as VH. apply Rabs_le_inv in VH. set (h := B2R fhalf) in *.
  assert (B60 : (bpow radix2 (-60) <= / 1000000000)%R).
  { apply Rle_trans with (bpow radix2 (-30)); [apply bpow_le; lia|]. change (bpow radix2 (-30)) with (/ 1073741824)%R. lra. }
  assert (POS : forall y : float, fin y -> (0 <= B2R y <= 2 * h)%R -> exists r, the_sin y = Ok r /\ fin r /\ let d := Rmin (B2R y) (2 * h - B2R y) in
    (0 <= B2R r)%R /\ (Rabs (B2R r - Rtrigo_def.sin d) <= d ^ 11 / 39916800 + 6 * (ep * d))%R /\ (0 < B2R y < 2 * h -> 0 < B2R r)%R /\
    (B2R y = 0 \/ B2R y = 2 * h -> B2R r = 0)%R /\ ((B2R y < bpow radix2 (-60))%R -> B2R r = B2R y)).
  { intros y Fy Hy. destruct (sin_rel_pos y Fy Hy) as (r & E & Fr & A & P & Z & T). fold h in A, P, Z, T. exists r. split; auto. split; auto. cbn zeta.
    set (dd := Rmin (B2R y) (2 * h - B2R y)) in *.
    assert (DD : (0 <= dd)%R /\ (0 < B2R y < 2 * h -> 0 < dd)%R /\ (B2R y = 0 \/ B2R y = 2 * h -> dd = 0)%R /\ (B2R y < bpow radix2 (-60) -> dd = B2R y)%R).
    { unfold dd, Rmin. destruct (Rle_dec _ _); repeat split; intros; try lra. }
    destruct DD as (D0 & D1 & D2 & D3). split; [destruct (Req_dec dd 0); [rewrite Z by auto; lra | apply Rlt_le, P; lra]|].
    split; [exact A|]. split; [auto|]. split; [auto|]. intros L. rewrite <- (D3 L). apply T. rewrite (D3 L). exact L. }
  unfold d. clear d. destruct (Rle_or_lt 0 (B2R x)) as [X|X].
  - rewrite (Rabs_pos_eq _ X) in *. destruct (POS x F ltac:(lra)) as (r & E & Fr & R0 & A & P & Z & T). exists r.
    rewrite (Rabs_pos_eq _ R0). split; [auto|]. split; [auto|]. split; [exact A|]. split; [auto|]. split; [intros; lra|]. split; auto.
  - rewrite (Rabs_left _ X) in *. destruct (POS (Bopp x) ltac:(rewrite is_finite_Bopp; auto) ltac:(rewrite B2R_Bopp; lra)) as (r & E & Fr & R0 & A & P & Z & T).
    rewrite B2R_Bopp in A, P, Z, T.
    destruct (sin_float_odd P24 E10 Fh Vh (Bopp x)) as (r1 & r2 & E1 & E2 & S). rewrite Bopp_involutive' in E2. rewrite E in E1. injection E1 as <-.
    exists r2. assert (V : B2R r2 = (- B2R r)%R /\ fin r2).
    { destruct S as [->|(s1 & s2 & -> & S)]; [rewrite B2R_Bopp, is_finite_Bopp; auto|]. split; [|reflexivity]. rewrite <- B2R_Bopp, S. reflexivity. }
    destruct V as [V F2]. rewrite V. rewrite Rabs_Ropp, (Rabs_pos_eq _ R0). split; [auto|]. split; [auto|]. split; [exact A|]. split; [|split; [|split]]; intros.
    + lra.
    + specialize (P ltac:(lra)). lra.
    + rewrite Z by lra. lra.
    + rewrite T by lra. lra.
Qed.
End Rel.

Lemma f32_half_acc : (Rabs (B2R (@fhalf 24 128 _ _) - PI / 2) <= 5 / 100000000)%R.
Proof.
  pose proof pi_bounds as PB. assert (Vh' : (B2R (@fhalf 24 128 _ _) = IZR 13176795 * / IZR 8388608)%R) by exact (proj1 f32_half_val).
  rewrite Vh'. apply Rabs_le. lra.
Qed.
Lemma f64_half_acc : (Rabs (B2R (@fhalf 53 1024 _ _) - PI / 2) <= 5 / 100000000)%R.
Proof.
  pose proof pi_bounds as PB. assert (Vh' : (B2R (@fhalf 53 1024 _ _) = IZR 7074237752028440 * / IZR 4503599627370496)%R) by exact (proj1 f64_half_val).
  rewrite Vh'. apply Rabs_le. lra.
Qed.
Lemma sin_rel_f32 : exists p : f32, mixed_pi float_pi = Ok p /\ forall x : f32, is_finite x = true -> (Rabs (B2R x) <= B2R p)%R ->
  let d := Rmin (Rabs (B2R x)) (B2R p - Rabs (B2R x)) in exists r, sin float_ops float_signed float_pi float_powi x = Ok r /\ is_finite r = true /\
  (Rabs (Rabs (B2R r) - Rtrigo_def.sin d) <= d ^ 11 / 39916800 + 6 * (bpow radix2 (-24) * d))%R /\
  (0 < B2R x < B2R p -> 0 < B2R r)%R /\ (- B2R p < B2R x < 0 -> B2R r < 0)%R /\
  (B2R x = 0 \/ Rabs (B2R x) = B2R p -> B2R r = 0)%R /\
  ((Rabs (B2R x) < bpow radix2 (-60))%R -> B2R r = B2R x).
Proof.
  exists (float_of_float 24 128 lit_pi). split; [reflexivity|]. destruct f32_half_val as [V F]. pose proof (proj1 f32_pi_val) as VP. change f32_pi with (float_of_float 24 128 lit_pi) in VP.
  assert (E : B2R (float_of_float 24 128 lit_pi) = (2 * B2R (@fhalf 24 128 _ _))%R) by (rewrite VP, V; simpl; lra). rewrite E.
  exact (@sin_rel 24 128 _ _ ltac:(lia) ltac:(lia) ltac:(lia) F f32_half_acc).
Qed.
Lemma sin_rel_f64 : exists p : f64, mixed_pi float_pi = Ok p /\ forall x : f64, is_finite x = true -> (Rabs (B2R x) <= B2R p)%R ->
  let d := Rmin (Rabs (B2R x)) (B2R p - Rabs (B2R x)) in exists r, sin float_ops float_signed float_pi float_powi x = Ok r /\ is_finite r = true /\
  (Rabs (Rabs (B2R r) - Rtrigo_def.sin d) <= d ^ 11 / 39916800 + 6 * (bpow radix2 (-53) * d))%R /\
  (0 < B2R x < B2R p -> 0 < B2R r)%R /\ (- B2R p < B2R x < 0 -> B2R r < 0)%R /\
  (B2R x = 0 \/ Rabs (B2R x) = B2R p -> B2R r = 0)%R /\
  ((Rabs (B2R x) < bpow radix2 (-60))%R -> B2R r = B2R x).
Proof.
  exists (float_of_float 53 1024 lit_pi). split; [reflexivity|]. destruct f64_half_val as [V F]. pose proof (proj1 f64_pi_val) as VP. change f64_pi with (float_of_float 53 1024 lit_pi) in VP.
  assert (E : B2R (float_of_float 53 1024 lit_pi) = (2 * B2R (@fhalf 53 1024 _ _))%R) by (rewrite VP, V; simpl; lra). rewrite E.
  exact (@sin_rel 53 1024 _ _ ltac:(lia) ltac:(lia) ltac:(lia) F f64_half_acc).
Qed.
