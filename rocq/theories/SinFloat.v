(** * The polynomial sine and cosine on floats. *)

From Coq Require Import ZArith Reals Lia Lra Psatz List Bool.
From Flocq Require Import Core.Core IEEE754.BinarySingleNaN.
From Verif Require Import Base FloatBase Literals Traits Trig FloatImpl Spec Lemmas FloatLemmas FloatProofs FloatWrap
  WrapProofs2 SqrtReal FloatKit NiirfFloat SinReal.
Import ListNotations.
Open Scope Z_scope.

(** ** interval reasoning on the rounded operations *)
Section Ops.
Context {prec emax : Z} {Hp : Prec_gt_0 prec} {He : Prec_lt_emax prec emax}.
Notation float := (binary_float prec emax).
Notation fexp := (SpecFloat.fexp prec emax).
Notation rnd := (round radix2 fexp ZnearestE).
Hypothesis P24 : 24 <= prec <= 100.
Hypothesis E10 : prec + 20 <= emax <= 2000.
Notation B2R := (@B2R prec emax).
Notation fin x := (is_finite x = true).

Lemma errk : forall v k, 0 <= k -> (Rabs v <= bpow radix2 k)%R -> (Rabs (rnd v - v) <= 3 / 100000000 * bpow radix2 k)%R.
Proof using P24 E10 Hp He.
  intros v k K H. eapply Rle_trans; [apply (rnd_err (prec := prec) (emax := emax) v k); auto; lia|].
  unfold Zminus. rewrite bpow_plus. pose proof (@eps_bound prec ltac:(lia)) as E. unfold eps in E.
  pose proof (bpow_gt_0 radix2 k). 
  assert (bpow radix2 k * bpow radix2 (- prec) <= bpow radix2 k * (6 / 100000000))%R by (apply Rmult_le_compat_l; lra). lra.
Qed.

Lemma near_abs : forall a A e M, (Rabs (a - A) <= e -> Rabs A <= M -> Rabs a <= M + e)%R.
Proof. clear. intros a A e M H1 H2. replace a with (A + (a - A))%R by ring. eapply Rle_trans; [apply Rabs_triang|]. lra. Qed.

Lemma fmul : forall (a b : float) (A B ea eb MA MB K E : R) k, fin a -> fin b ->
  (Rabs (B2R a - A) <= ea)%R -> (Rabs (B2R b - B) <= eb)%R -> (Rabs A <= MA)%R -> (Rabs B <= MB)%R ->
  0 <= k < 10 -> bpow radix2 k = K -> ((MA + ea) * (MB + eb) <= K)%R ->
  (ea * MB + MA * eb + ea * eb + 3 / 100000000 * K <= E)%R ->
  fin (Bmult mode_NE a b) /\ (Rabs (B2R (Bmult mode_NE a b) - A * B) <= E)%R.
Proof using P24 E10 Hp He.
  intros a b A B ea eb MA MB K E k Fa Fb Ha Hb HA HB Hk <- HK HE.
  assert (X : (Rabs (B2R a * B2R b) <= bpow radix2 k)%R).
  { eapply Rle_trans; [apply mul_bound; [apply (near_abs _ A ea MA) | apply (near_abs _ B eb MB)]; auto|]. exact HK. }
  destruct (mult_r (prec := prec) (emax := emax) a b Fa Fb k ltac:(lia) X) as [F V]. split; auto. rewrite V.
  pose proof (errk _ k ltac:(lia) X) as R.
  replace (rnd (B2R a * B2R b) - A * B)%R with ((rnd (B2R a * B2R b) - B2R a * B2R b) + ((B2R a - A) * B + A * (B2R b - B) + (B2R a - A) * (B2R b - B)))%R by ring.
  eapply Rle_trans; [|exact HE]. eapply Rle_trans; [apply Rabs_triang|].
  assert ((Rabs ((B2R a - A) * B + A * (B2R b - B) + (B2R a - A) * (B2R b - B)) <= ea * MB + MA * eb + ea * eb)%R).
  { apply add_bound; [apply add_bound|]; apply mul_bound; auto. }
  lra.
Qed.

Lemma fadd : forall (a b : float) (A B ea eb M K E : R) k, fin a -> fin b ->
  (Rabs (B2R a - A) <= ea)%R -> (Rabs (B2R b - B) <= eb)%R -> (Rabs (A + B) <= M)%R ->
  0 <= k < 10 -> bpow radix2 k = K -> (M + ea + eb <= K)%R -> (ea + eb + 3 / 100000000 * K <= E)%R ->
  fin (Bplus mode_NE a b) /\ (Rabs (B2R (Bplus mode_NE a b) - (A + B)) <= E)%R.
Proof using P24 E10 Hp He.
  intros a b A B ea eb M K E k Fa Fb Ha Hb HM Hk <- HK HE.
  assert (Y : (Rabs (B2R a + B2R b - (A + B)) <= ea + eb)%R).
  { replace (B2R a + B2R b - (A + B))%R with ((B2R a - A) + (B2R b - B))%R by ring. apply add_bound; auto. }
  assert (X : (Rabs (B2R a + B2R b) <= bpow radix2 k)%R).
  { eapply Rle_trans; [apply (near_abs _ (A + B) (ea + eb) M); auto|]. lra. }
  destruct (plus_r (prec := prec) (emax := emax) a b Fa Fb k ltac:(lia) X) as [F V]. split; auto. rewrite V.
  pose proof (errk _ k ltac:(lia) X) as R.
  replace (rnd (B2R a + B2R b) - (A + B))%R with ((rnd (B2R a + B2R b) - (B2R a + B2R b)) + (B2R a + B2R b - (A + B)))%R by ring.
  eapply Rle_trans; [apply Rabs_triang|]. lra.
Qed.

Lemma fsub : forall (a b : float) (A B ea eb M K E : R) k, fin a -> fin b ->
  (Rabs (B2R a - A) <= ea)%R -> (Rabs (B2R b - B) <= eb)%R -> (Rabs (A - B) <= M)%R ->
  0 <= k < 10 -> bpow radix2 k = K -> (M + ea + eb <= K)%R -> (ea + eb + 3 / 100000000 * K <= E)%R ->
  fin (Bminus mode_NE a b) /\ (Rabs (B2R (Bminus mode_NE a b) - (A - B)) <= E)%R.
Proof using P24 E10 Hp He.
  intros a b A B ea eb M K E k Fa Fb Ha Hb HM Hk HK1 HK HE. rewrite Bminus_plus.
  apply (fadd a (Bopp b) A (- B) ea eb M K E k); auto.
  - rewrite is_finite_Bopp. auto.
  - rewrite B2R_Bopp. replace (- B2R b - - B)%R with (- (B2R b - B))%R by ring. rewrite Rabs_Ropp. auto.
Qed.

(** division by an exactly represented positive integer *)
Lemma fdivc : forall (a : float) (A ea MA K E : R) k c, fin a ->
  (Rabs (B2R a - A) <= ea)%R -> (Rabs A <= MA)%R -> 0 < c <= 1000000 ->
  0 <= k < 10 -> bpow radix2 k = K -> ((MA + ea) / IZR c <= K)%R -> (ea / IZR c + 3 / 100000000 * K <= E)%R ->
  fin (Bdiv mode_NE a (float_of_Z prec emax c)) /\ (Rabs (B2R (Bdiv mode_NE a (float_of_Z prec emax c)) - A / IZR c) <= E)%R.
Proof using P24 E10 Hp He.
  intros a A ea MA K E k c Fa Ha HA Hc Hk <- HK HE.
  destruct (small_int (prec := prec) (emax := emax) ltac:(lia) c ltac:(lia)) as [Vc Fc].
  assert (C : (0 < IZR c)%R) by (apply IZR_lt; lia). assert (C' : (0 < / IZR c)%R) by (apply Rinv_0_lt_compat; auto).
  assert (X : (Rabs (B2R a / B2R (float_of_Z prec emax c)) <= bpow radix2 k)%R).
  { rewrite Vc. unfold Rdiv. rewrite Rabs_mult, (Rabs_pos_eq (/ IZR c)) by lra. eapply Rle_trans; [|exact HK].
    apply Rmult_le_compat_r; [lra|]. eapply near_abs; eauto. }
  assert (Nz : B2R (float_of_Z prec emax c) <> 0%R) by (rewrite Vc; lra).
  destruct (div_r (prec := prec) (emax := emax) a _ Fa Nz k ltac:(lia) X) as [F V]. split; auto. rewrite V.
  pose proof (errk _ k ltac:(lia) X) as R. rewrite Vc in *.
  replace (rnd (B2R a / IZR c) - A / IZR c)%R with ((rnd (B2R a / IZR c) - B2R a / IZR c) + (B2R a - A) * / IZR c)%R by (field; lra).
  eapply Rle_trans; [apply Rabs_triang|]. rewrite (Rabs_mult _ (/ IZR c)), (Rabs_pos_eq (/ IZR c)) by lra.
  assert (Rabs (B2R a - A) * / IZR c <= ea * / IZR c)%R by (apply Rmult_le_compat_r; lra). unfold Rdiv in *. lra.
Qed.
End Ops.

(** ** the pure function *)
Section SinF.
Context {prec emax : Z} {Hp : Prec_gt_0 prec} {He : Prec_lt_emax prec emax}.
Notation float := (binary_float prec emax).
Notation B2R := (@B2R prec emax).
Notation fin x := (is_finite x = true).
Notation int z := (float_of_Z prec emax z).
Notation "a ++. b" := (Bplus mode_NE a b) (at level 50, left associativity).
Notation "a --. b" := (Bminus mode_NE a b) (at level 50, left associativity).
Notation "a **. b" := (Bmult mode_NE a b) (at level 40, left associativity).
Notation "a //. b" := (Bdiv mode_NE a b) (at level 40, left associativity).
Notation O := (@float_ops prec emax Hp He).

Definition ffold (h x : float) : float :=
  if o_lt O x (Bopp h) then Bopp h --. (x ++. h) else if o_lt O h x then h --. (x --. h) else x.
Definition fpoly (z : float) : float :=
  z --. floatcore_powi z 3 //. int 6 ++. floatcore_powi z 5 //. int 120 --. floatcore_powi z 7 //. int 5040 ++. floatcore_powi z 9 //. int 362880.
Definition fhalf : float := float_of_float prec emax lit_pi //. int 2.
Definition the_sin (x : float) : res float := sin O float_signed float_pi float_powi x.

Lemma sin_float_eq : forall x, the_sin x = Ok (fpoly (ffold fhalf x)).
Proof.
  intros x. unfold the_sin, sin, fpoly, ffold, fhalf. cbn [bind mixed_pi float_pi o_of_i32 float_ops o_div o_neg float_signed o_add o_sub mixed_powi float_powi].
  destruct (o_lt O x _); [reflexivity|]. destruct (o_lt O _ x); reflexivity.
Qed.

Lemma powi_3 : forall z : float, floatcore_powi z 3 = z **. (z **. z).
Proof. reflexivity. Qed.
Lemma powi_5 : forall z : float, floatcore_powi z 5 = z **. ((z **. z) **. (z **. z)).
Proof. reflexivity. Qed.
Lemma powi_7 : forall z : float, floatcore_powi z 7 = z **. (z **. z) **. ((z **. z) **. (z **. z)).
Proof. reflexivity. Qed.
Lemma powi_9 : forall z : float, floatcore_powi z 9 = z **. (((z **. z) **. (z **. z)) **. ((z **. z) **. (z **. z))).
Proof. reflexivity. Qed.

(** *** odd symmetry *)
Definition odd_rel (a b : float) : Prop := same_float b (Bopp a).

Lemma zero_plus : forall s (c : float), (forall s', c <> B754_zero s') -> B754_zero s ++. c = c.
Proof. intros s [s'|s'| |s' m e H] N; try reflexivity. exfalso. eapply N; eauto. Qed.
Lemma zeros_plus : forall s s' : bool, exists t, B754_zero s ++. B754_zero s' = (B754_zero t : float).
Proof. intros [] []; simpl; eauto. Qed.

Lemma odd_plus : forall a b c d, odd_rel a b -> odd_rel c d -> odd_rel (a ++. c) (b ++. d).
Proof.
  unfold odd_rel. intros a b c d [->|(s1 & s2 & -> & E1)] [->|(t1 & t2 & -> & E2)].
  - apply Bplus_opp_same.
  - destruct c as [t|t| |t ? ? ?]; try discriminate. clear E2.
    destruct a as [s|s| |s ma ea Ha].
    + right. cbn [Bopp]. destruct (zeros_plus (negb s) t1) as [u Hu]. destruct (zeros_plus s t) as [v Hv]. rewrite Hu, Hv. cbn. eauto.
    + left. reflexivity.
    + left. reflexivity.
    + left. reflexivity.
  - destruct a as [t|t| |t ? ? ?]; try discriminate. clear E1.
    destruct c as [s|s| |s ma ea Ha].
    + right. cbn [Bopp]. destruct (zeros_plus s1 (negb s)) as [u Hu]. destruct (zeros_plus t s) as [v Hv]. rewrite Hu, Hv. cbn. eauto.
    + left. reflexivity.
    + left. reflexivity.
    + left. reflexivity.
  - right. destruct a as [t| | |? ? ? ?]; try discriminate. destruct c as [t'| | |? ? ? ?]; try discriminate.
    destruct (zeros_plus s1 t1) as [u Hu]. destruct (zeros_plus t t') as [v Hv]. rewrite Hu, Hv. cbn. eauto.
Qed.
Lemma odd_opp : forall a b, odd_rel a b -> odd_rel (Bopp a) (Bopp b).
Proof.
  unfold odd_rel. intros a b [->|(s1 & s2 & -> & E)]; [left; reflexivity|]. right. rewrite E. cbn. eauto.
Qed.
Lemma odd_minus : forall a b c d, odd_rel a b -> odd_rel c d -> odd_rel (a --. c) (b --. d).
Proof. intros. rewrite !Bminus_plus. apply odd_plus; auto. apply odd_opp; auto. Qed.
Lemma odd_powi : forall a b n, In n [3; 5; 7; 9] -> odd_rel a b -> odd_rel (floatcore_powi a n) (floatcore_powi b n).
Proof.
  unfold odd_rel. intros a b n I [->|(s1 & s2 & -> & E)].
  - left. pose proof (powi_opp a n) as P. cbn [mixed_powi float_powi] in P.
    assert (Ev : Z.even n = false) by (cbn in I; intuition (subst; reflexivity)). rewrite Ev in P. injection P. auto.
  - right. destruct a as [s| | |? ? ? ?]; try discriminate.
    cbn in I. destruct I as [<-|[<-|[<-|[<-|[]]]]]; rewrite ?powi_3, ?powi_5, ?powi_7, ?powi_9; cbn; eauto.
Qed.
Lemma odd_div : forall a b c, c <> B754_nan -> (forall s, c <> B754_zero s) -> odd_rel a b -> odd_rel (a //. c) (b //. c).
Proof.
  unfold odd_rel. intros a b c N Z [->|(s1 & s2 & -> & E)]; [left; apply Bdiv_opp_l|].
  right. destruct a as [s| | |? ? ? ?]; try discriminate.
  destruct c as [t|t| |t ? ? ?]; try congruence; cbn; eauto.
Qed.

Lemma Bcompare_opp : forall x y : float, Bcompare (Bopp x) (Bopp y) = Bcompare y x.
Proof.
  intros x y. destruct (is_finite x) eqn:Fx, (is_finite y) eqn:Fy.
  - rewrite !Bcompare_correct by (rewrite ?is_finite_Bopp; auto). rewrite !B2R_Bopp. f_equal.
    destruct (Rcompare_spec (B2R y) (B2R x)).
    + apply Rcompare_Lt. lra.
    + apply Rcompare_Eq. lra.
    + apply Rcompare_Gt. lra.
  - destruct x as [?|[]| |[] ? ? ?], y as [?|[]| |[] ? ? ?]; try discriminate; reflexivity.
  - destruct x as [[]|[]| |[] ? ? ?], y as [[]|[]| |[] ? ? ?]; try discriminate; reflexivity.
  - destruct x as [?|[]| |[] ? ? ?], y as [?|[]| |[] ? ? ?]; try discriminate; reflexivity.
Qed.
Lemma lt_opp : forall x y : float, o_lt O (Bopp x) (Bopp y) = o_lt O y x.
Proof. intros. unfold o_lt. cbn. rewrite Bcompare_opp. reflexivity. Qed.

Lemma odd_ffold : forall h x, fin h -> (0 < B2R h)%R -> odd_rel (ffold h x) (ffold h (Bopp x)).
Proof.
  intros h x Fh Ph. unfold ffold. rewrite lt_opp.
  replace (o_lt O h (Bopp x)) with (o_lt O x (Bopp h)) by (rewrite <- (lt_opp (Bopp x) h), Bopp_involutive'; reflexivity).
  assert (R : forall y : float, odd_rel y (Bopp y)) by (intros; left; reflexivity).
  assert (R' : forall y : float, odd_rel (Bopp y) y) by (intros; left; symmetry; apply Bopp_involutive').
  destruct (o_lt O x (Bopp h)) eqn:C1, (o_lt O h x) eqn:C2.
  - exfalso. destruct (is_finite x) eqn:Fx.
    + apply lt_cmp in C1; [|auto|rewrite is_finite_Bopp; auto]. apply lt_cmp in C2; auto. rewrite B2R_Bopp in C1. lra.
    + unfold o_lt in *. cbn in *. destruct x as [|[]| |], h as [[]|[]| |[] ? ? ?]; try discriminate.
  - apply odd_minus; [apply R'|]. rewrite Bminus_plus. apply odd_plus; auto.
  - apply odd_minus; [auto|]. rewrite Bminus_plus. apply odd_plus; auto.
  - auto.
Qed.

Lemma int_pos_shape : forall c : float, fin c -> B2R c <> 0%R -> c <> B754_nan /\ (forall s, c <> B754_zero s).
Proof. intros c F N. split; [|intros s]; intros ->; [discriminate|]. apply N. reflexivity. Qed.

Lemma odd_fpoly : 24 <= prec -> forall a b, odd_rel a b -> odd_rel (fpoly a) (fpoly b).
Proof.
  intros P24 a b H.
  assert (C : forall z, 0 < z <= 1000000 -> int z <> B754_nan /\ (forall s, int z <> B754_zero s)).
  { intros z Hz. destruct (small_int (prec := prec) (emax := emax) P24 z ltac:(lia)) as [V F]. apply int_pos_shape; auto.
    rewrite V. apply not_0_IZR. lia. }
  unfold fpoly. repeat first [apply odd_plus | apply odd_minus]; auto;
    (apply odd_div; [apply C; lia | apply C; lia | apply odd_powi; cbn; auto 6]).
Qed.

(** *** accuracy *)
Hypothesis P24 : 24 <= prec <= 100.
Hypothesis E10 : prec + 20 <= emax <= 2000.

Lemma fpoly_acc : forall z : float, fin z -> (Rabs (B2R z) <= 15711 / 10000)%R ->
  fin (fpoly z) /\ (Rabs (B2R (fpoly z) - P9 (B2R z)) <= 50 / 100000000)%R.
Proof using P24 E10 Hp He.
  intros z F H. unfold fpoly. rewrite powi_3, powi_5, powi_7, powi_9. unfold P9.
  set (v := B2R z) in *.
  assert (E0 : (Rabs (B2R z - v) <= 0)%R) by (unfold v; rewrite Rminus_diag_eq, Rabs_R0 by auto; lra).
  assert (V2 : (Rabs (v ^ 2) <= 2469 / 1000)%R).
  { rewrite <- RPow_abs. eapply Rle_trans; [apply pow_incr; split; [apply Rabs_pos|exact H]|]. cbn [pow]. lra. }
  assert (V3 : (Rabs (v ^ 3) <= 3879 / 1000)%R).
  { rewrite <- RPow_abs. eapply Rle_trans; [apply pow_incr; split; [apply Rabs_pos|exact H]|]. cbn [pow]. lra. }
  assert (V4 : (Rabs (v ^ 4) <= 61 / 10)%R).
  { rewrite <- RPow_abs. eapply Rle_trans; [apply pow_incr; split; [apply Rabs_pos|exact H]|]. cbn [pow]. lra. }
  assert (V5 : (Rabs (v ^ 5) <= 96 / 10)%R).
  { rewrite <- RPow_abs. eapply Rle_trans; [apply pow_incr; split; [apply Rabs_pos|exact H]|]. cbn [pow]. lra. }
  assert (V7 : (Rabs (v ^ 7) <= 237 / 10)%R).
  { rewrite <- RPow_abs. eapply Rle_trans; [apply pow_incr; split; [apply Rabs_pos|exact H]|]. cbn [pow]. lra. }
  assert (V8 : (Rabs (v ^ 8) <= 372 / 10)%R).
  { rewrite <- RPow_abs. eapply Rle_trans; [apply pow_incr; split; [apply Rabs_pos|exact H]|]. cbn [pow]. lra. }
  assert (V9 : (Rabs (v ^ 9) <= 584 / 10)%R).
  { rewrite <- RPow_abs. eapply Rle_trans; [apply pow_incr; split; [apply Rabs_pos|exact H]|]. cbn [pow]. lra. }
  destruct (fmul P24 E10 z z v v 0 0 (15711/10000) (15711/10000) 4 (12/100000000) 2 F F) as [F2 A2]; auto; try lia; try lra.
  set (z2 := z **. z) in *. replace (v * v)%R with (v ^ 2)%R in A2 by ring. clearbody z2.
  destruct (fmul P24 E10 z z2 v (v ^ 2) 0 (12/100000000) (15711/10000) (2469/1000) 4 (31/100000000) 2 F F2) as [F3 A3]; auto; try lia; try lra.
  set (z3 := z **. z2) in *. replace (v * v ^ 2)%R with (v ^ 3)%R in A3 by ring. clearbody z3.
  destruct (fmul P24 E10 z2 z2 (v ^ 2) (v ^ 2) (12/100000000) (12/100000000) (2469/1000) (2469/1000) 8 (84/100000000) 3 F2 F2) as [F4 A4]; auto; try lia; try lra.
  set (z4 := z2 **. z2) in *. replace (v ^ 2 * v ^ 2)%R with (v ^ 4)%R in A4 by ring. clearbody z4.
  destruct (fmul P24 E10 z z4 v (v ^ 4) 0 (84/100000000) (15711/10000) (61/10) 16 (180/100000000) 4 F F4) as [F5 A5]; auto; try lia; try lra.
  set (z5 := z **. z4) in *. replace (v * v ^ 4)%R with (v ^ 5)%R in A5 by ring. clearbody z5.
  destruct (fmul P24 E10 z3 z4 (v ^ 3) (v ^ 4) (31/100000000) (84/100000000) (3879/1000) (61/10) 32 (612/100000000) 5 F3 F4) as [F7 A7]; auto; try lia; try lra.
  set (z7 := z3 **. z4) in *. replace (v ^ 3 * v ^ 4)%R with (v ^ 7)%R in A7 by ring. clearbody z7.
  destruct (fmul P24 E10 z4 z4 (v ^ 4) (v ^ 4) (84/100000000) (84/100000000) (61/10) (61/10) 64 (1220/100000000) 6 F4 F4) as [F8 A8]; auto; try lia; try lra.
  set (z8 := z4 **. z4) in *. replace (v ^ 4 * v ^ 4)%R with (v ^ 8)%R in A8 by ring. clearbody z8.
  destruct (fmul P24 E10 z z8 v (v ^ 8) 0 (1220/100000000) (15711/10000) (372/10) 64 (2120/100000000) 6 F F8) as [F9 A9]; auto; try lia; try lra.
  set (z9 := z **. z8) in *. replace (v * v ^ 8)%R with (v ^ 9)%R in A9 by ring. clearbody z9.
  destruct (fdivc P24 E10 z3 (v ^ 3) (31/100000000) (3879/1000) 1 (9/100000000) 0 6 F3) as [G3 B3]; auto; try lia; try lra.
  set (t3 := z3 //. int 6) in *. clearbody t3.
  destruct (fdivc P24 E10 z5 (v ^ 5) (180/100000000) (96/10) 1 (5/100000000) 0 120 F5) as [G5 B5]; auto; try lia; try lra.
  set (t5 := z5 //. int 120) in *. clearbody t5.
  destruct (fdivc P24 E10 z7 (v ^ 7) (612/100000000) (237/10) 1 (4/100000000) 0 5040 F7) as [G7 B7]; auto; try lia; try lra.
  set (t7 := z7 //. int 5040) in *. clearbody t7.
  destruct (fdivc P24 E10 z9 (v ^ 9) (2120/100000000) (584/10) 1 (4/100000000) 0 362880 F9) as [G9 B9]; auto; try lia; try lra.
  set (t9 := z9 //. int 362880) in *. clearbody t9.
  (* the partial sums stay below 2 *)
  assert (T3 : (Rabs (v - v ^ 3 / 6) <= 16 / 10)%R).
  { replace (v - v ^ 3 / 6)%R with (v * (1 - v ^ 2 / 6))%R by field. replace (16/10)%R with (16/10 * 1)%R by ring.
    apply mul_bound; [lra|]. apply Rabs_le_inv in V2. pose proof (pow2_ge_0 v). apply Rabs_le. lra. }
  assert (T5 : (Rabs (v - v ^ 3 / 6 + v ^ 5 / 120) <= 17 / 10)%R) by (apply Rabs_le_inv in T3, V5; apply Rabs_le; lra).
  assert (T7 : (Rabs (v - v ^ 3 / 6 + v ^ 5 / 120 - v ^ 7 / 5040) <= 171 / 100)%R) by (apply Rabs_le_inv in T5, V7; apply Rabs_le; lra).
  assert (T9 : (Rabs (v - v ^ 3 / 6 + v ^ 5 / 120 - v ^ 7 / 5040 + v ^ 9 / 362880) <= 172 / 100)%R) by (apply Rabs_le_inv in T7, V9; apply Rabs_le; lra).
  destruct (fsub P24 E10 z t3 v (v ^ 3 / 6) 0 (9/100000000) (16/10) 2 (15/100000000) 1 F G3) as [S3 D3]; auto; try lia; try lra.
  destruct (fadd P24 E10 _ t5 _ (v ^ 5 / 120) _ (5/100000000) (17/10) 2 (26/100000000) 1 S3 G5 D3) as [S5 D5]; auto; try lia; try lra.
  destruct (fsub P24 E10 _ t7 _ (v ^ 7 / 5040) _ (4/100000000) (171/100) 2 (36/100000000) 1 S5 G7 D5) as [S7 D7]; auto; try lia; try lra.
  destruct (fadd P24 E10 _ t9 _ (v ^ 9 / 362880) _ (4/100000000) (172/100) 2 (46/100000000) 1 S7 G9 D7) as [S9 D9]; auto; try lia; try lra.
  split; auto. lra.
Qed.

(** the half of the type's pi, as a parameter to be discharged for the two formats *)
Hypothesis Fh : fin fhalf.
Hypothesis Vh : (Rabs (B2R fhalf - PI / 2) <= 5 / 100000000)%R.

Lemma ffold_acc : forall x : float, fin x -> (Rabs (B2R x) <= 2 * B2R fhalf)%R ->
  fin (ffold fhalf x) /\ (Rabs (B2R (ffold fhalf x)) <= 15711 / 10000)%R /\
  (Rabs (Rtrigo_def.sin (B2R (ffold fhalf x)) - Rtrigo_def.sin (B2R x)) <= 23 / 100000000)%R.
Proof using P24 E10 Hp He Fh Vh.
  intros x F H. pose proof pi_bounds as PB. set (h := fhalf) in *. clearbody h.
  apply Rabs_le_inv in H, Vh. unfold ffold.
  assert (Foh : fin (Bopp h)) by (rewrite is_finite_Bopp; auto).
  assert (E0 : forall y : float, (Rabs (B2R y - B2R y) <= 0)%R) by (intros; rewrite Rminus_diag_eq, Rabs_R0 by auto; lra).
  destruct (ltb_cmp x (Bopp h) F Foh) as [[-> C1]|[-> C1]]; rewrite B2R_Bopp in C1.
  - destruct (fadd P24 E10 x h (B2R x) (B2R h) 0 0 (16/10) 2 (6/100000000) 1 F Fh) as [Fd Vd]; auto; try lia; try lra; [apply Rabs_le; lra|].
    destruct (fsub P24 E10 (Bopp h) (x ++. h) (- B2R h) (B2R x + B2R h) 0 (6/100000000) (16/10) 2 (12/100000000) 1 Foh Fd) as [Fr Vr]; auto; try lia; try lra.
    + rewrite B2R_Bopp, Rminus_diag_eq, Rabs_R0 by auto. lra.
    + apply Rabs_le. lra.
    + split; auto. set (r := B2R (Bopp h --. (x ++. h))) in *. apply Rabs_le_inv in Vr.
      split; [apply Rabs_le; lra|].
      replace (Rtrigo_def.sin (B2R x)) with (Rtrigo_def.sin (- PI - B2R x)).
      2:{ replace (- PI - B2R x)%R with (- (B2R x + PI))%R by ring. rewrite sin_neg, neg_sin. ring. }
      eapply Rle_trans; [apply sin_lipschitz|]. apply Rabs_le. lra.
  - destruct (ltb_cmp h x Fh F) as [[-> C2]|[-> C2]].
    + destruct (fsub P24 E10 x h (B2R x) (B2R h) 0 0 (16/10) 2 (6/100000000) 1 F Fh) as [Fd Vd]; auto; try lia; try lra; [apply Rabs_le; lra|].
      destruct (fsub P24 E10 h (x --. h) (B2R h) (B2R x - B2R h) 0 (6/100000000) (16/10) 2 (12/100000000) 1 Fh Fd) as [Fr Vr]; auto; try lia; try lra.
      * apply Rabs_le. lra.
      * split; auto. set (r := B2R (h --. (x --. h))) in *. apply Rabs_le_inv in Vr.
        split; [apply Rabs_le; lra|].
        replace (Rtrigo_def.sin (B2R x)) with (Rtrigo_def.sin (PI - B2R x)) by apply sin_PI_x.
        eapply Rle_trans; [apply sin_lipschitz|]. apply Rabs_le. lra.
    + split; auto. split; [apply Rabs_le; lra|]. rewrite Rminus_diag_eq, Rabs_R0 by auto. lra.
Qed.

Lemma sin_float_acc : forall x : float, fin x -> (Rabs (B2R x) <= 2 * B2R fhalf)%R -> exists r,
  the_sin x = Ok r /\ fin r /\ (Rabs (B2R r - Rtrigo_def.sin (B2R x)) <= 436 / 100000000)%R.
Proof using P24 E10 Hp He Fh Vh.
  intros x F H. rewrite sin_float_eq. eexists. split; [reflexivity|].
  destruct (ffold_acc x F H) as [F1 [B1 S1]]. destruct (fpoly_acc _ F1 B1) as [F2 A2]. pose proof (taylor _ B1) as T.
  split; auto. apply Rabs_le_inv in S1, A2, T. apply Rabs_le. lra.
Qed.

Lemma sin_float_odd : forall x : float, exists r r', the_sin x = Ok r /\ the_sin (Bopp x) = Ok r' /\ same_float r' (Bopp r).
Proof using P24 E10 Hp He Fh Vh.
  intros x. rewrite !sin_float_eq. do 2 eexists. split; [reflexivity|]. split; [reflexivity|].
  apply (odd_fpoly ltac:(lia)). apply odd_ffold; auto. pose proof pi_bounds. apply Rabs_le_inv in Vh. lra.
Qed.

(** *** cosine *)
Notation pf := (float_of_float prec emax lit_pi).
Notation tau := (int 2 **. pf).
Hypothesis Fp : fin pf.
Hypothesis Vp : (B2R pf = 2 * B2R fhalf)%R.
Hypothesis Ft : fin tau.
Hypothesis Vt : (B2R tau = 4 * B2R fhalf)%R.
Hypothesis Range : forall fuel phi r, mixed_wrap_phase (@float_wrap_phase prec emax Hp He fuel) phi = Ok r ->
    (phi = B754_nan /\ r = B754_nan) \/
    (is_finite phi = true /\ is_finite r = true /\ (- B2R pf <= B2R r < B2R pf)%R).
Definition the_cos (fuel : nat) (x : float) : res float := cos O float_signed float_pi float_powi fuel x.

Lemma cos_float_acc : forall x : float, fin x -> (Rabs (B2R x) <= B2R pf)%R -> exists r,
  fin r /\ (Rabs (B2R r - Rtrigo_def.cos (B2R x)) <= 5 / 1000000)%R /\
  forall fuel, (2 <= fuel)%nat -> the_cos fuel x = Ok r.
Proof using P24 E10 Hp He Fh Vh Fp Vp Ft Vt Range.
  intros x F H. pose proof pi_bounds as PB. pose proof Vh as Vh'. apply Rabs_le_inv in H, Vh'.
  assert (E0 : forall y : float, (Rabs (B2R y - B2R y) <= 0)%R) by (intros; rewrite Rminus_diag_eq, Rabs_R0 by auto; lra).
  destruct (fadd P24 E10 x fhalf (B2R x) (B2R fhalf) 0 0 5 8 (24/100000000) 3 F Fh) as [Fy Vy]; auto; try lia; try lra; [apply Rabs_le; lra|].
  set (y := x ++. fhalf) in *. apply Rabs_le_inv in Vy.
  assert (Fop : fin (Bopp pf)) by (rewrite is_finite_Bopp; auto).
  assert (W : exists z, fin z /\ (- B2R pf <= B2R z < B2R pf)%R /\
    (forall fuel, (2 <= fuel)%nat -> wrap_phase O float_signed float_pi fuel y = Ok z) /\
    ((Rabs (B2R z - (B2R x + PI / 2)) <= 61 / 100000000)%R \/ (Rabs (B2R z - (B2R x + PI / 2 - 2 * PI)) <= 61 / 100000000)%R)).
  { assert (C1 : o_lt O y (Bopp pf) = false).
    { destruct (ltb_cmp y (Bopp pf) Fy Fop) as [[_ C]|[-> _]]; auto. rewrite B2R_Bopp in C. lra. }
    destruct (leb_cmp pf y Fp Fy) as [[C2 L2]|[C2 L2]].
    - destruct (fsub P24 E10 y tau (B2R x + B2R fhalf) (4 * B2R fhalf) (24/100000000) 0 (33/10) 4 (36/100000000) 2 Fy Ft) as [Fz Vz]; auto; try lia; try lra.
      + apply Rabs_le. lra.
      + rewrite Vt, Rminus_diag_eq, Rabs_R0 by auto. lra.
      + apply Rabs_le. lra.
      + set (z := y --. tau) in *. apply Rabs_le_inv in Vz.
        assert (R : forall fuel, (2 <= fuel)%nat -> wrap_phase O float_signed float_pi fuel y = Ok z).
        { intros [|[|fuel]] Hf; try lia. unfold wrap_phase. cbn [bind mixed_pi float_pi o_of_i32 float_ops o_mul while o_neg float_signed].
          change (o_lt _ y (Bopp pf)) with (o_lt O y (Bopp pf)). rewrite C1. cbn [bind while].
          change (o_le _ pf y) with (o_le O pf y). rewrite C2. change (o_sub O y tau) with (Ok z). cbn [bind].
          destruct (leb_cmp pf z Fp Fz) as [[_ L]|[-> _]]; [lra|]. reflexivity. }
        exists z. split; auto. split; [|split; auto].
        * destruct (Range 2 y z (R 2%nat ltac:(lia))) as [[A _]|[_ [_ A]]]; auto. rewrite A in Fy. discriminate.
        * right. apply Rabs_le. lra.
    - assert (R : forall fuel, (2 <= fuel)%nat -> wrap_phase O float_signed float_pi fuel y = Ok y).
      { intros [|[|fuel]] Hf; try lia. unfold wrap_phase. cbn [bind mixed_pi float_pi o_of_i32 float_ops o_mul while o_neg float_signed].
          change (o_lt _ y (Bopp pf)) with (o_lt O y (Bopp pf)). rewrite C1. cbn [bind while].
          change (o_le _ pf y) with (o_le O pf y). rewrite C2. reflexivity. }
      exists y. split; auto. split; [lra|]. split; auto. left. apply Rabs_le. lra. }
  destruct W as [z [Fz [Rz [Wz Az]]]].
  destruct (sin_float_acc z Fz) as [r [Er [Fr Ar]]]; [apply Rabs_le; lra|].
  exists r. split; auto. split.
  - assert (S : (Rabs (Rtrigo_def.sin (B2R z) - Rtrigo_def.cos (B2R x)) <= 61 / 100000000)%R).
    { rewrite <- sin_shift. destruct Az as [Az|Az].
      - replace (Rtrigo_def.sin (PI / 2 - B2R x)) with (Rtrigo_def.sin (B2R x + PI / 2)).
        + eapply Rle_trans; [apply sin_lipschitz|]. auto.
        + replace (B2R x + PI / 2)%R with (PI - (PI / 2 - B2R x))%R by field. apply sin_PI_x.
      - replace (Rtrigo_def.sin (PI / 2 - B2R x)) with (Rtrigo_def.sin (B2R x + PI / 2 - 2 * PI)).
        + eapply Rle_trans; [apply sin_lipschitz|]. auto.
        + rewrite <- (sin_period (B2R x + PI / 2 - 2 * PI) 1). simpl INR.
          replace (B2R x + PI / 2 - 2 * PI + 2 * 1 * PI)%R with (PI - (PI / 2 - B2R x))%R by field. apply sin_PI_x. }
    apply Rabs_le_inv in S, Ar. apply Rabs_le. lra.
  - intros fuel Hf. unfold the_cos, cos. cbn [bind mixed_pi float_pi o_of_i32 float_ops o_div o_add]. fold fhalf. fold y.
    rewrite Wz by auto. cbn [bind]. exact Er.
Qed.
End SinF.

(** ** the two formats *)
Lemma f32_half_val : B2R (@fhalf 24 128 _ _) = (IZR 13176795 * bpow radix2 (-23))%R /\ is_finite (@fhalf 24 128 _ _) = true.
Proof. apply (B2SF_value _ _ (@fhalf 24 128 _ _) false 13176795 (-23)). vm_compute. reflexivity. Qed.
Lemma f64_half_val : B2R (@fhalf 53 1024 _ _) = (IZR 7074237752028440 * bpow radix2 (-52))%R /\ is_finite (@fhalf 53 1024 _ _) = true.
Proof. apply (B2SF_value _ _ (@fhalf 53 1024 _ _) false 7074237752028440 (-52)). vm_compute. reflexivity. Qed.

Definition sin_claims {prec emax : Z} {Hp : Prec_gt_0 prec} {He : Prec_lt_emax prec emax} : Prop :=
  (forall x : binary_float prec emax, exists r r', the_sin x = Ok r /\ the_sin (Bopp x) = Ok r' /\ same_float r' (Bopp r)) /\
  exists p : binary_float prec emax, mixed_pi float_pi = Ok p /\
  (forall x : binary_float prec emax, is_finite x = true -> (Rabs (B2R x) <= PI)%R -> (Rabs (B2R x) <= B2R p)%R) /\
  (forall x : binary_float prec emax, is_finite x = true -> (Rabs (B2R x) <= B2R p)%R ->
    (exists r, the_sin x = Ok r /\ is_finite r = true /\ (Rabs (B2R r - Rtrigo_def.sin (B2R x)) <= 436 / 100000000)%R) /\
    (exists r, is_finite r = true /\ (Rabs (B2R r - Rtrigo_def.cos (B2R x)) <= 5 / 1000000)%R /\
       forall fuel, (2 <= fuel)%nat -> the_cos fuel x = Ok r)).

Lemma f32_below : forall x : f32, is_finite x = true -> (Rabs (B2R x) <= PI)%R -> (Rabs (B2R x) <= B2R f32_pi)%R.
Proof.
  intros x F H. pose proof pi_bounds. destruct (proj1 f32_pi_val). assert (B2R f32_pi = IZR 13176795 * / IZR 4194304)%R by apply f32_pi_val. lra.
Qed.
(** the greatest f64 below pi is the type's pi *)
Lemma f64_below : forall x : f64, is_finite x = true -> (Rabs (B2R x) <= PI)%R -> (Rabs (B2R x) <= B2R f64_pi)%R.
Proof.
  intros x F H. pose proof pi_bounds. assert (V : (B2R f64_pi = IZR 7074237752028440 * / IZR (2 ^ 51))%R) by apply f64_pi_val.
  destruct (Rle_or_lt (Rabs (B2R x)) (B2R f64_pi)) as [L|L]; auto. exfalso.
  assert (G : generic_format radix2 (SpecFloat.fexp 53 1024) (Rabs (B2R x))) by (apply generic_format_abs, generic_format_B2R).
  (* |x| is an integer multiple of 2^-51 *)
  assert (K : exists k, (Rabs (B2R x) = IZR k * / IZR (2 ^ 51))%R).
  { exists (Ztrunc (scaled_mantissa radix2 (SpecFloat.fexp 53 1024) (Rabs (B2R x)))). unfold generic_format, F2R in G. cbn [Fnum Fexp] in G.
    rewrite G at 1. f_equal. change (/ IZR (2 ^ 51))%R with (bpow radix2 (-51)). f_equal. unfold cexp.
    replace (mag radix2 (Rabs (B2R x)) : Z) with 2; [reflexivity|]. symmetry. apply mag_unique. rewrite Rabs_pos_eq by apply Rabs_pos.
    change (bpow radix2 (2 - 1)) with 2%R. change (bpow radix2 2) with 4%R. rewrite V in L. change (2 ^ 51) with 2251799813685248 in L. split; lra. }
  destruct K as [k K]. rewrite K, V in L. rewrite K in H. change (2 ^ 51) with 2251799813685248 in *.
  apply Rmult_lt_reg_r in L; [|lra]. apply lt_IZR in L. assert (7074237752028441 <= k) by lia. apply IZR_le in H1. lra.
Qed.

Lemma sin_claims_f32 : @sin_claims 24 128 _ _.
Proof.
  pose proof pi_bounds as PB. destruct f32_half_val as [Vh Fh]. destruct f32_pi_val as [Vp Fp]. destruct f32_tau_val as [Vt Ft].
  assert (Vh' : (B2R (@fhalf 24 128 _ _) = IZR 13176795 * / IZR 8388608)%R) by exact Vh.
  assert (Vp' : (B2R f32_pi = IZR 13176795 * / IZR 4194304)%R) by exact Vp.
  assert (Vt' : (B2R f32_tau = IZR 13176795 * / IZR 2097152)%R) by exact Vt.
  assert (H : (Rabs (B2R (@fhalf 24 128 _ _) - PI / 2) <= 5 / 100000000)%R) by (rewrite Vh'; apply Rabs_le; lra).
  split; [apply sin_float_odd; auto; lia|]. exists f32_pi. split; [reflexivity|]. split; [exact f32_below|].
  intros x F X. split.
  - apply sin_float_acc; auto; try lia. rewrite Vh'. rewrite Vp' in X. lra.
  - apply cos_float_acc; auto; try lia.
    + change (B2R f32_pi = 2 * B2R (@fhalf 24 128 _ _))%R. rewrite Vh', Vp'. lra.
    + change (B2R f32_tau = 4 * B2R (@fhalf 24 128 _ _))%R. rewrite Vh', Vt'. lra.
    + intros fuel phi r E. destruct (c10_of 27 wrap_claims_f32) as [p [Ep [_ [_ R]]]].
      assert (p = f32_pi) by (change (Ok f32_pi = Ok p) in Ep; congruence). subst p. apply (R fuel phi r E).
Qed.
Lemma sin_claims_f64 : @sin_claims 53 1024 _ _.
Proof.
  pose proof pi_bounds as PB. destruct f64_half_val as [Vh Fh]. destruct f64_pi_val as [Vp Fp]. destruct f64_tau_val as [Vt Ft].
  assert (Vh' : (B2R (@fhalf 53 1024 _ _) = IZR 7074237752028440 * / IZR 4503599627370496)%R) by exact Vh.
  assert (Vp' : (B2R f64_pi = IZR 7074237752028440 * / IZR 2251799813685248)%R) by exact Vp.
  assert (Vt' : (B2R f64_tau = IZR 7074237752028440 * / IZR 1125899906842624)%R) by exact Vt.
  assert (H : (Rabs (B2R (@fhalf 53 1024 _ _) - PI / 2) <= 5 / 100000000)%R) by (rewrite Vh'; apply Rabs_le; lra).
  split; [apply sin_float_odd; auto; lia|]. exists f64_pi. split; [reflexivity|]. split; [exact f64_below|].
  intros x F X. split.
  - apply sin_float_acc; auto; try lia. rewrite Vh'. rewrite Vp' in X. lra.
  - apply cos_float_acc; auto; try lia.
    + change (B2R f64_pi = 2 * B2R (@fhalf 53 1024 _ _))%R. rewrite Vh', Vp'. lra.
    + change (B2R f64_tau = 4 * B2R (@fhalf 53 1024 _ _))%R. rewrite Vh', Vt'. lra.
    + intros fuel phi r E. destruct (c10_of 56 wrap_claims_f64) as [p [Ep [_ [_ R]]]].
      assert (p = f64_pi) by (change (Ok f64_pi = Ok p) in Ep; congruence). subst p. apply (R fuel phi r E).
Qed.
