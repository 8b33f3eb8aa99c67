(** * The NIIRF square root on fixed-point types: from the code to the scaled-integer iteration. *)

From Coq Require Import ZArith Reals Lia Lra Psatz List Bool.
From Flocq Require Import Core.Core IEEE754.BinarySingleNaN.
From Verif Require Import Base FloatBase Literals Traits Trig FixedPrim FixedImpl Spec
  Lemmas ScalarProofs ScalarProofs2 WrapProofs SqrtReal NiirfZ.
Open Scope Z_scope.

(** ** literals *)
Definition beta_bits (f : fty) (X : Z) : Z :=
  if X <? fx_bits f lit_5_16 then fx_bits f lit_beta0 else
  if X <? fx_bits f lit_6_16 then fx_bits f lit_beta1 else
  if X <? fx_bits f lit_7_16 then fx_bits f lit_beta2 else
  if X <? fx_bits f lit_8_16 then fx_bits f lit_beta3 else
  if X <? fx_bits f lit_9_16 then fx_bits f lit_beta4 else
  if X <? fx_bits f lit_10_16 then fx_bits f lit_beta5 else
  if X <? fx_bits f lit_11_16 then fx_bits f lit_beta6 else
  if X <? fx_bits f lit_12_16 then fx_bits f lit_beta7 else
  if X <? fx_bits f lit_13_16 then fx_bits f lit_beta8 else
  if X <? fx_bits f lit_14_16 then fx_bits f lit_beta9 else
  if X <? fx_bits f lit_15_16 then fx_bits f lit_beta10 else
  fx_bits f lit_beta11.

Lemma unit_lit : forall f p e (x : binary_float p e), 0 <= ffrac f -> (0 <= B2R x <= 1)%R ->
  0 <= fx_bits f x <= fone f.
Proof.
  intros f p e x F H. pose proof (fone_IZR_pos f F) as P. split.
  - apply fx_bits_ge; auto. apply Rmult_le_pos; lra.
  - apply fx_bits_le; auto. nra.
Qed.

Lemma unit_lit_ok : forall m f (x : f64), fwf f -> is_finite x = true -> (0 <= B2R x <= 1)%R ->
  fx_of_float m f x = Ok (fx_bits f x).
Proof.
  intros m f x W Fx H. rewrite fx_of_float_bits by (auto; apply fwf_width; auto).
  apply fx_fin_ok. pose proof (unit_lit f _ _ x (proj1 W) H) as U. apply unit_fvalid; auto; lia.
Qed.

Ltac unit_val := 
  match goal with |- (0 <= B2R ?l <= 1)%R => unfold l; unfold B2R, F2R; cbn; lra end.

Lemma beta_eq : forall m f X, fwf f -> beta (fixed_ops m f) X = Ok (beta_bits f X).
Proof.
  intros m f X W. unfold beta, beta_bits. cbn [o_of_f64 fixed_ops].
  repeat (rewrite unit_lit_ok by (auto; unit_val)). cbn [bind].
  unfold o_lt, fixed_ops, o_cmp, fx_cmp. 
  repeat match goal with |- context [X ?= ?c] => 
    change (X <? c) with (match X ?= c with Lt => true | _ => false end); destruct (X ?= c); try reflexivity end.
Qed.

Lemma fone_16 : forall f, 4 <= ffrac f -> fone f = 16 * 2 ^ (ffrac f - 4).
Proof. intros. unfold fone. change 16 with (2 ^ 4). rewrite <- Z.pow_add_r by lia. f_equal. lia. Qed.

Lemma sixteenth : forall f (x : f64) k, 4 <= ffrac f -> (B2R x = IZR k / 16)%R -> fx_bits f x = k * 2 ^ (ffrac f - 4).
Proof.
  intros f x k F H. apply fx_bits_exact; [lia|]. rewrite H, fone_16, !mult_IZR by auto. field.
Qed.

Lemma lit_real : forall f (x : f64) be, 0 <= ffrac f -> (Rabs (B2R x - bR be) <= / 1000000000000000)%R ->
  (Rabs (IZR (fx_bits f x) * / IZR (fone f) - bR be) <= / IZR (fone f) / 2 + / 1000000000000000)%R.
Proof.
  intros f x be F H. pose proof (fone_IZR_pos f F) as P. pose proof (fx_bits_real f _ _ x F) as B.
  replace (IZR (fx_bits f x) * / IZR (fone f) - bR be)%R with
    (/ IZR (fone f) * (IZR (fx_bits f x) - B2R x * IZR (fone f)) + (B2R x - bR be))%R by (field; lra).
  apply add_bound; auto. rewrite Rabs_mult, (Rabs_pos_eq (/ _)) by (apply Rlt_le, Rinv_0_lt_compat; auto).
  unfold Rdiv. apply Rmult_le_compat_l; auto. apply Rlt_le, Rinv_0_lt_compat; auto.
Qed.

Ltac lit_close := 
  match goal with |- (Rabs (B2R ?l - _) <= _)%R => unfold l, bR, B2R, F2R; cbn; apply Rabs_le; lra end.

Lemma y0_real : forall f, 0 <= ffrac f ->
  (Rabs (IZR (fx_bits f lit_y0) * / IZR (fone f) - 354167 / 1000000) <= / IZR (fone f) / 2 + / 1000000000000000)%R.
Proof. intros f F. apply (lit_real f lit_y0 354167); auto. lit_close. Qed.

Lemma beta_region : forall f X, 4 <= ffrac f -> fone f <= 4 * X -> X < fone f ->
  exists k be, In (k, be) betaZ /\ k * fone f <= 16 * X /\ 16 * X < (k + 1) * fone f /\
  (Rabs (IZR (beta_bits f X) * / IZR (fone f) - bR be) <= / IZR (fone f) / 2 + / 1000000000000000)%R.
Proof.
  intros f X F L U. unfold beta_bits.
  assert (T : forall (x : f64) k, (B2R x = IZR k / 16)%R -> fx_bits f x = k * 2 ^ (ffrac f - 4)) by (intros; apply sixteenth; auto).
  rewrite (T lit_5_16 5), (T lit_6_16 6), (T lit_7_16 7), (T lit_8_16 8), (T lit_9_16 9), (T lit_10_16 10),
    (T lit_11_16 11), (T lit_12_16 12), (T lit_13_16 13), (T lit_14_16 14), (T lit_15_16 15)
    by (match goal with |- B2R ?l = _ => unfold l, B2R, F2R; cbn; lra end).
  pose proof (fone_16 f F) as E. set (h := 2 ^ (ffrac f - 4)) in *. clearbody h.
  assert (G : forall (x : f64) k be, In (k, be) betaZ -> k * h <= X < (k + 1) * h -> 
     (Rabs (B2R x - bR be) <= / 1000000000000000)%R ->
     exists k be, In (k, be) betaZ /\ k * fone f <= 16 * X /\ 16 * X < (k + 1) * fone f /\
     (Rabs (IZR (fx_bits f x) * / IZR (fone f) - bR be) <= / IZR (fone f) / 2 + / 1000000000000000)%R).
  { intros x k be I [K1 K2] HB. exists k, be. split; auto. split; [lia|]. split; [lia|]. 
    exact (lit_real f x be ltac:(lia) HB). }
  clear T.
  destruct (Z.ltb_spec X (5 * h)).
  { apply G with 4 961914; [cbn; tauto | lia | lit_close]. }
  destruct (Z.ltb_spec X (6 * h)).
  { apply G with 5 840332; [cbn; tauto | lia | lit_close]. }
  destruct (Z.ltb_spec X (7 * h)).
  { apply G with 6 782715; [cbn; tauto | lia | lit_close]. }
  destruct (Z.ltb_spec X (8 * h)).
  { apply G with 7 734869; [cbn; tauto | lia | lit_close]. }
  destruct (Z.ltb_spec X (9 * h)).
  { apply G with 8 691406; [cbn; tauto | lia | lit_close]. }
  destruct (Z.ltb_spec X (10 * h)).
  { apply G with 9 654297; [cbn; tauto | lia | lit_close]. }
  destruct (Z.ltb_spec X (11 * h)).
  { apply G with 10 622070; [cbn; tauto | lia | lit_close]. }
  destruct (Z.ltb_spec X (12 * h)).
  { apply G with 11 595215; [cbn; tauto | lia | lit_close]. }
  destruct (Z.ltb_spec X (13 * h)).
  { apply G with 12 573731; [cbn; tauto | lia | lit_close]. }
  destruct (Z.ltb_spec X (14 * h)).
  { apply G with 13 556152; [cbn; tauto | lia | lit_close]. }
  destruct (Z.ltb_spec X (15 * h)).
  { apply G with 14 516113; [cbn; tauto | lia | lit_close]. }
  apply G with 15 502930; [cbn; tauto | lia | lit_close].
Qed.

(** ** accuracy of the iteration *)
Definition acc (q X y : Z) : Prop :=
  (Rabs (IZR y * / IZR q - s q X) <= s q X / 1000 + 145 / 100 * / IZR q /\
   Rabs (IZR y * / IZR q - s q X) <= 703 / 1000000 + 145 / 100 * / IZR q)%R.
Definition small (q y : Z) : Prop := 0 <= y /\ y * y <= 2 * q * q.
Definition start (f : fty) (X : Z) : Z := 2 * X / 3 + fx_bits f lit_y0.

Lemma region_of : forall q X k be, 16 <= q -> In (k, be) betaZ -> k * q <= 16 * X -> 16 * X < (k + 1) * q -> 0 <= X ->
  region k be (s q X).
Proof.
  intros q X k be Hq I L U HX. split; auto. split; [apply sqrt_pos|].
  rewrite s_sq by auto. pose proof (Q_ge q Hq) as G. apply IZR_le in L. apply IZR_lt in U. rewrite !mult_IZR in L, U.
  assert (E : (IZR X * / IZR q * IZR q = IZR X)%R) by (field; lra).
  set (x := (IZR X * / IZR q)%R) in *. split; apply Rmult_le_reg_r with (IZR q); lra.
Qed.

(** small formats, by computation *)
Definition acc_test (q X y : Z) : bool := 
  (0 <=? y) && (y <=? q) && (if y <=? 1 then X * q <=? (y + 1) * (y + 1) else ((y - 1) * (y - 1) <=? X * q) && (X * q <=? (y + 1) * (y + 1))).
Lemma acc_test_err : forall q X y, 0 < q -> 0 <= X -> acc_test q X y = true ->
  (Rabs (IZR y * / IZR q - s q X) <= / IZR q)%R /\ small q y.
Proof.
  intros q X y Hq HX H. unfold acc_test in H. rewrite !andb_true_iff, !Z.leb_le in H. destruct H as [[H1 H2] H3].
  assert (QP : (0 < IZR q)%R) by (apply IZR_lt; auto).
  assert (UP : (0 < / IZR q)%R) by (apply Rinv_0_lt_compat; auto).
  assert (HXr : (0 <= IZR X)%R) by (apply IZR_le; auto).
  assert (A : X * q <= (y + 1) * (y + 1) /\ (1 < y -> (y - 1) * (y - 1) <= X * q)).
  { destruct (Z.leb_spec y 1); [apply Z.leb_le in H3; lia|]. rewrite andb_true_iff, !Z.leb_le in H3. intuition. }
  clear H3. destruct A as [A1 A2].
  split; [|split; [lia|nia]].
  assert (SP : (0 <= s q X)%R) by apply sqrt_pos.
  assert (SS : (s q X * s q X = IZR X * / IZR q)%R).
  { apply sqrt_sqrt. apply Rmult_le_pos; lra. }
  set (S := s q X) in *.
  set (g := (S * IZR q)%R). assert (G0 : (0 <= g)%R) by (apply Rmult_le_pos; lra).
  assert (GG : (g * g = IZR (X * q))%R). { unfold g. rewrite mult_IZR. replace (S * IZR q * (S * IZR q))%R with (S * S * (IZR q * IZR q))%R by ring. rewrite SS. field. lra. }
  apply IZR_le in A1. rewrite <- GG, mult_IZR, plus_IZR in A1.
  apply IZR_le in H1.
  assert (B1 : (g <= IZR y + 1)%R) by (apply sq_le; lra).
  assert (B2 : (IZR y - 1 <= g)%R).
  { destruct (Z_lt_le_dec 1 y) as [L|L].
    - specialize (A2 L). apply IZR_le in A2. rewrite <- GG, mult_IZR, minus_IZR in A2. apply sq_le; auto.
      apply IZR_lt in L. lra.
    - apply IZR_le in L. lra. }
  replace (IZR y * / IZR q - S)%R with (/ IZR q * (IZR y - g))%R by (unfold g; field; lra).
    rewrite Rabs_mult, (Rabs_pos_eq (/ _)) by lra. rewrite <- (Rmult_1_r (/ IZR q)) at 2.
    apply Rmult_le_compat_l; [lra|]. apply Rabs_le. lra.
Qed.
Lemma acc_test_ok : forall q X y, 0 < q -> 0 <= X -> acc_test q X y = true ->
  (acc q X y /\ (Rabs (IZR y * / IZR q - s q X) <= 176 / 1000000 + 145 / 100 * / IZR q)%R) /\ small q y.
Proof.
  intros q X y Hq HX H. destruct (acc_test_err q X y Hq HX H) as [E S]. split; auto.
  assert (UP : (0 < / IZR q)%R) by (apply Rinv_0_lt_compat, IZR_lt; auto). assert (SP : (0 <= s q X)%R) by apply sqrt_pos.
  unfold acc. split; [split|]; lra.
Qed.

Lemma core_small : forall f X, ffrac f = 2 \/ ffrac f = 3 -> fone f <= 4 * X -> X < fone f ->
  zstep (fone f) (beta_bits f X) X (start f X) = start f X /\ acc_test (fone f) X (start f X) = true.
Proof.
  intros [sg w F] X HF L U. cbn [ffrac] in HF. destruct HF; subst F; unfold fone in *; cbn [ffrac] in *.
  - assert (X = 1 \/ X = 2 \/ X = 3) as C by (change (2 ^ 2) with 4 in *; lia).
    destruct C as [|[|]]; subst X; split; vm_compute; reflexivity.
  - assert (X = 2 \/ X = 3 \/ X = 4 \/ X = 5 \/ X = 6 \/ X = 7) as C by (change (2 ^ 3) with 8 in *; lia).
    destruct C as [|[|[|[|[|]]]]]; subst X; split; vm_compute; reflexivity.
Qed.

Lemma core : forall f X n, 2 <= ffrac f -> fone f <= 4 * X -> X < fone f ->
  let y := ziter n (fone f) (beta_bits f X) X (start f X) in
  small (fone f) y /\ ((1 <= n)%N -> acc (fone f) X y) /\
  ((2 <= n)%N -> (Rabs (IZR y * / IZR (fone f) - s (fone f) X) <= 176 / 1000000 + 145 / 100 * / IZR (fone f))%R).
Proof.
  intros f X n F L U y. pose proof (fone_pos f ltac:(lia)) as P.
  destruct (Z_lt_le_dec (ffrac f) 4) as [F3|F4].
  - destruct (core_small f X ltac:(lia) L U) as [E T]. unfold y. rewrite ziter_fix by auto.
    apply acc_test_ok in T; [|lia|lia]. tauto.
  - assert (Hq : 16 <= fone f).
    { unfold fone. change 16 with (2 ^ 4). apply Z.pow_le_mono_r; lia. }
    destruct (beta_region f X F4 L U) as [k [be [I [K1 [K2 B]]]]].
    pose proof (region_of _ X k be Hq I K1 K2 ltac:(lia)) as R.
    pose proof (start_real (fone f) Hq X ltac:(lia) _ (y0_real f ltac:(lia))) as St. fold (start f X) in St.
    destruct (N.eq_dec n 0) as [->|Hn].
    + split; [|split; lia]. unfold y, ziter. cbn [N.iter]. exact (start_range _ Hq X k be R _ St).
    + pose proof (ziter_good (fone f) Hq X (beta_bits f X) ltac:(lia) k be R B (start f X) n St ltac:(lia)) as G.
      split; [exact (good_range _ Hq X k be R _ G)|]. split; [intros _; exact G|]. intros H2.
      exact (ziter_good2 (fone f) Hq X (beta_bits f X) ltac:(lia) k be R B (start f X) n St H2).
Qed.
