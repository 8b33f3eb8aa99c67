(** * The polynomial sine in release builds with 8 to 13 integer bits, where 7! and 9! wrap (proofs for C73). *)

From Coq Require Import ZArith Reals Lia Lra Psatz List Bool.
From Flocq Require Import Core.Core IEEE754.BinarySingleNaN.
From Verif Require Import Base FloatBase Literals Traits Trig FixedPrim FixedImpl Spec
  Lemmas ScalarProofs ScalarProofs2 WrapProofs NiirfZ SinReal SinFixed TrigProofs RangeProofs SinRelease.
Open Scope Z_scope.

(** what is left of 7! and 9! in [i] integer bits *)
Definition left7 (i : Z) : Z := if i <=? 10 then -80 else if i <=? 12 then 944 else -3152.
Definition left9 (i : Z) : Z := if i <=? 9 then -128 else if i <=? 11 then 384 else if i =? 12 then -1664 else 2432.
Definition sin_dev8 (i : Z) : R := if i <=? 9 then (158 / 1000)%R else if i =? 10 then (453 / 1000)%R else if i =? 11 then (132 / 1000)%R else if i =? 12 then (56 / 1000)%R else (37 / 1000)%R.

Section R.
Variable f : fty.
Hypothesis W : fwf f.
Hypothesis S : fsigned f = true.
Hypothesis I8 : 8 <= fwidth f - ffrac f <= 13.
Notation q := (fone f).
Notation p := (pi_bits f).
Notation i := (fwidth f - ffrac f).
Notation O := (fixed_ops Release f).
Notation the_sin := (sin O (fixed_signed Release f) (fixed_pi Release f) (fixed_powi Release f)).

Lemma room8 : 128 * q <= 2 ^ (fwidth f - 1).
Proof using W I8. unfold fone. change 128 with (2 ^ 7). rewrite <- Z.pow_add_r by (try apply W; lia). apply Z.pow_le_mono_r; lia. Qed.
Lemma fits8 : forall z, Z.abs z <= 127 * q -> fx_fin Release f z = Ok z.
Proof using W S I8. intros. pose proof room8. pose proof (fone_pos f (proj1 W)). apply fx_fin_ok. apply fvalid_iff. rewrite S. lia. Qed.
Lemma wrap8 : forall n k, 0 <= n -> 4096 <= n -> (i = 8 \/ i = 9 \/ i = 10 \/ i = 11 \/ i = 12 \/ i = 13) -> (n + 2 ^ (i - 1)) mod 2 ^ i - 2 ^ (i - 1) = k -> fx_of_int Release f n = Ok (k * q).
Proof using W S I8.
  intros n k N0 N K E. pose proof (fone_pos f (proj1 W)) as Q. unfold fx_of_int, fx_fin, fin.
  assert (PW : 2 ^ fwidth f = 2 ^ i * q) by (unfold fone; rewrite <- Z.pow_add_r by (destruct W; lia); f_equal; lia).
  assert (PH : 2 ^ (fwidth f - 1) = 2 ^ (i - 1) * q) by (unfold fone; rewrite <- Z.pow_add_r by (destruct W; lia); f_equal; lia).
  assert (R : in_rangeb (fity f) (n * q) = false).
  { destruct (in_rangeb (fity f) (n * q)) eqn:B; auto. exfalso. apply in_rangeb_spec in B. change (fvalid f (n * q)) in B.
    apply fvalid_iff in B. rewrite S, PH in B. assert (2 ^ (i - 1) <= 2 ^ 12) by (apply Z.pow_le_mono_r; lia). change (2 ^ 12) with 4096 in H. nia. }
  rewrite R. unfold wrap. cbn [isigned iwidth fity]. rewrite S, PW, PH, <- Z.mul_add_distr_r.
  rewrite Z.mul_mod_distr_r by (try lia; apply Z.pow_nonzero; lia). rewrite <- Z.mul_sub_distr_r. rewrite E. reflexivity.
Qed.
Lemma left7_ok : fx_of_int Release f 5040 = Ok (left7 i * q).
Proof using W S I8.
  assert (K : i = 8 \/ i = 9 \/ i = 10 \/ i = 11 \/ i = 12 \/ i = 13) by lia. apply wrap8; auto; try lia. clear - K.
  repeat (destruct K as [K|K]; [rewrite K; vm_compute; reflexivity|]). rewrite K; vm_compute; reflexivity.
Qed.
Lemma left9_ok : fx_of_int Release f 362880 = Ok (left9 i * q).
Proof using W S I8.
  assert (K : i = 8 \/ i = 9 \/ i = 10 \/ i = 11 \/ i = 12 \/ i = 13) by lia. apply wrap8; auto; try lia. clear - K.
  repeat (destruct K as [K|K]; [rewrite K; vm_compute; reflexivity|]). rewrite K; vm_compute; reflexivity.
Qed.
Lemma left7_big : 80 <= Z.abs (left7 i).
Proof. clear. unfold left7. repeat match goal with |- context [if ?c then _ else _] => destruct c end; lia. Qed.
Lemma left9_big : 128 <= Z.abs (left9 i).
Proof. clear. unfold left9. repeat match goal with |- context [if ?c then _ else _] => destruct c end; lia. Qed.

Lemma powi_pw8 : forall z (k : nat), 10000 * Z.abs z <= 15711 * q -> (k <= 8)%nat ->
  mixed_powi (fixed_powi Release f) z (Z.of_nat (Datatypes.S k)) = Ok (pw q z k).
Proof using W S I8.
  intros z k H K. cbn [mixed_powi fixed_powi]. rewrite to_N_usize_nonneg by lia.
  replace (Z.to_N (Z.of_nat (Datatypes.S k))) with (N.of_nat (Datatypes.S k)) by lia.
  pose proof (fone_pos f (proj1 W)) as Q. induction k as [|k IH].
  - change (N.of_nat 1) with 1%N. rewrite powi_1. reflexivity.
  - replace (N.of_nat (Datatypes.S (Datatypes.S k))) with (N.succ (N.succ (N.of_nat k))) by lia.
    rewrite powi_succ. replace (N.succ (N.of_nat k)) with (N.of_nat (Datatypes.S k)) by lia.
    rewrite IH by lia. cbn [bind pw]. unfold fx_mul. apply fits8.
    pose proof (pw_range q z Q H (Datatypes.S k) K). cbn [pw] in *. lia.
Qed.

Definition zpoly8 (c d z : Z) : Z := z - Z.quot (pw q z 2) 6 + Z.quot (pw q z 4) 120 - Z.quot (pw q z 6) c + Z.quot (pw q z 8) d.

Lemma quot_scale8 : forall a c, c <> 0 -> Z.quot (a * q) (c * q) = Z.quot a c.
Proof using W. clear S I8. intros. pose proof (fone_pos f (proj1 W)). apply Z.quot_mul_cancel_r; lia. Qed.
Lemma quot_abs8 : forall a c, c <> 0 -> Z.abs c * Z.abs (Z.quot a c) <= Z.abs a.
Proof. clear. intros a c H. rewrite <- Z.quot_abs by auto. apply Z.mul_quot_le; lia. Qed.

Lemma sin_bits8 : forall x, Z.abs x <= p -> the_sin x = Ok (zpoly8 (left7 i) (left9 i) (zfold p x)).
Proof using W S I8.
  intros x H. pose proof (fone_pos f (proj1 W)) as Q. rewrite sin_head_eq, sin_head_ok by auto. cbn [bind].
  pose proof (zfold_range f W x H) as Z1. pose proof (half_pi_small f W) as HP.
  set (z := zfold p x) in *. assert (Z2 : 10000 * Z.abs z <= 15711 * q) by lia.
  cbn [o_of_i32 o_div o_sub o_add fixed_ops]. rewrite left9_ok, left7_ok. pose proof left9_big as C9. pose proof left7_big as C7.
  set (d := left9 i) in *. set (c := left7 i) in *. clearbody c d. unfold fx_of_int, fx_div, fx_sub, fx_add.
  change 3 with (Z.of_nat 3). rewrite powi_pw8 by (auto; lia). cbn [bind].
  change (mixed_powi (fixed_powi Release f) z 5) with (mixed_powi (fixed_powi Release f) z (Z.of_nat 5)). rewrite powi_pw8 by (auto; lia).
  change (mixed_powi (fixed_powi Release f) z 7) with (mixed_powi (fixed_powi Release f) z (Z.of_nat 7)). rewrite powi_pw8 by (auto; lia).
  change (mixed_powi (fixed_powi Release f) z 9) with (mixed_powi (fixed_powi Release f) z (Z.of_nat 9)). rewrite powi_pw8 by (auto; lia).
  pose proof (pw_range q z Q Z2 2 ltac:(lia)) as R2. pose proof (pw_range q z Q Z2 4 ltac:(lia)) as R4.
  pose proof (pw_range q z Q Z2 6 ltac:(lia)) as R6. pose proof (pw_range q z Q Z2 8 ltac:(lia)) as R8.
  pose proof (quot_abs8 (pw q z 2) 6 ltac:(lia)) as T3. pose proof (quot_abs8 (pw q z 4) 120 ltac:(lia)) as T5.
  pose proof (quot_abs8 (pw q z 6) c ltac:(lia)) as T7. pose proof (quot_abs8 (pw q z 8) d ltac:(lia)) as T9.
  rewrite (fits8 (6 * q)), (fits8 (120 * q)) by (clear - Q; lia). cbn [bind].
  destruct (Z.eqb_spec (6 * q) 0) as [N6|_]; [clear - N6 Q; lia|]. destruct (Z.eqb_spec (120 * q) 0) as [N120|_]; [clear - N120 Q; lia|].
  destruct (Z.eqb_spec (c * q) 0) as [NC|_]; [exfalso; clear - NC Q C7; nia|]. destruct (Z.eqb_spec (d * q) 0) as [ND|_]; [exfalso; clear - ND Q C9; nia|].
  rewrite !quot_scale8 by lia. unfold zpoly8.
  set (t3 := Z.quot (pw q z 2) 6) in *. set (t5 := Z.quot (pw q z 4) 120) in *.
  set (t7 := Z.quot (pw q z 6) c) in *. set (t9 := Z.quot (pw q z 8) d) in *. clearbody t3 t5 t7 t9.
  assert (B3 : - (21 * q) <= t3 <= 21 * q) by (clear - T3 R2 Q; lia). assert (B5 : - (2 * q) <= t5 <= 2 * q) by (clear - T5 R4 Q; lia).
  assert (B7 : - (2 * q) <= t7 <= 2 * q) by (assert (80 * Z.abs t7 <= Z.abs c * Z.abs t7) by (apply Z.mul_le_mono_nonneg_r; lia); clear - T7 R6 Q H0; lia).
  assert (B9 : - (2 * q) <= t9 <= 2 * q) by (assert (128 * Z.abs t9 <= Z.abs d * Z.abs t9) by (apply Z.mul_le_mono_nonneg_r; lia); clear - T9 R8 Q H0; lia).
  assert (B0 : - (2 * q) <= z <= 2 * q) by (clear - Z2 Q; lia).
  clear - B0 B3 B5 B7 B9 Q W S I8.
  assert (F : forall a, - (30 * q) <= a <= 30 * q -> fx_fin Release f a = Ok a) by (intros; apply fits8; auto; lia).
  do 7 (rewrite F by lia; cbn [bind]). rewrite F by lia. reflexivity.
Qed.

(** ** the distance to the Taylor polynomial *)
Lemma dev_real : forall v a b M, (Rabs v <= 15711 / 10000 -> 2364 / 100 * Rabs a <= M -> 2364 / 100 * Rabs (a + 24684 / 10000 * b) <= M -> Rabs (a * v ^ 7 + b * v ^ 9) <= M)%R.
Proof.
  clear. intros v a b M V M1 M2. assert (T : (0 <= v * v <= 24684 / 10000)%R).
  { split; [apply Rle_0_sqr|]. replace (v * v)%R with (Rabs v * Rabs v)%R by (rewrite <- Rabs_mult; apply Rabs_pos_eq, Rle_0_sqr). pose proof (Rabs_pos v). apply Rle_trans with (15711 / 10000 * (15711 / 10000))%R; [apply Rmult_le_compat; auto|lra]. }
  set (t := (v * v)%R) in *. replace (a * v ^ 7 + b * v ^ 9)%R with (v ^ 7 * (a + t * b))%R by (unfold t; ring).
  assert (V7 : (Rabs (v ^ 7) <= 2364 / 100)%R).
  { rewrite <- RPow_abs. eapply Rle_trans; [apply pow_incr; split; [apply Rabs_pos|exact V]|]. cbn [pow]. lra. }
  rewrite Rabs_mult. apply Rle_trans with (2364 / 100 * Rabs (a + t * b))%R; [apply Rmult_le_compat_r; [apply Rabs_pos|auto]|].
  apply Rle_trans with (2364 / 100 * Rmax (Rabs a) (Rabs (a + 24684 / 10000 * b)))%R.
  - apply Rmult_le_compat_l; [lra|]. pose proof (Rmax_l (Rabs a) (Rabs (a + 24684 / 10000 * b))) as L1. pose proof (Rmax_r (Rabs a) (Rabs (a + 24684 / 10000 * b))) as L2.
    set (X := Rmax _ _) in *. apply Rabs_le_inv in L1, L2. apply Rabs_le. destruct (Rle_or_lt 0 b); nra.
  - unfold Rmax. destruct (Rle_dec _ _); auto.
Qed.
(** 8 and 9 integer bits: the two deviations have opposite signs *)
Lemma dev_89 : forall v, (Rabs v <= 15711 / 10000 -> Rabs ((/ 80 + / 5040) * v ^ 7 + (- / 128 - / 362880) * v ^ 9) <= 157 / 1000)%R.
Proof.
  clear. intros v V. assert (E : (Rabs ((/ 80 + / 5040) * v ^ 7 + (- / 128 - / 362880) * v ^ 9) = Rabs v ^ 7 * Rabs ((/ 80 + / 5040) - (/ 128 + / 362880) * (Rabs v * Rabs v)))%R).
  { rewrite RPow_abs, <- (Rabs_mult v v), (Rabs_pos_eq (v * v)) by apply Rle_0_sqr. rewrite <- Rabs_mult. f_equal. ring. }
  rewrite E. pose proof (Rabs_pos v) as P. set (w := Rabs v) in *. clearbody w. destruct (Rle_or_lt w (12 / 10)).
  - assert (w ^ 7 <= 36 / 10)%R by (eapply Rle_trans; [apply pow_incr; split; [auto|exact H]|cbn [pow]; lra]).
    assert (0 <= w * w <= 144 / 100)%R by (split; [nra|]; apply Rle_trans with (12 / 10 * (12 / 10))%R; [apply Rmult_le_compat; auto|lra]).
    apply Rle_trans with (36 / 10 * (13 / 1000))%R; [|lra]. apply Rmult_le_compat; auto; [apply pow_le; auto|apply Rabs_pos|]. apply Rabs_le. lra.
  - assert (w ^ 7 <= 2364 / 100)%R by (eapply Rle_trans; [apply pow_incr; split; [auto|exact V]|cbn [pow]; lra]).
    assert (144 / 100 <= w * w <= 24684 / 10000)%R by (split; [apply Rle_trans with (12 / 10 * (12 / 10))%R; [lra|apply Rmult_le_compat; lra]|apply Rle_trans with (15711 / 10000 * (15711 / 10000))%R; [apply Rmult_le_compat; auto|lra]]).
    apply Rle_trans with (2364 / 100 * (661 / 100000))%R; [|lra]. apply Rmult_le_compat; auto; [apply pow_le; auto|apply Rabs_pos|]. apply Rabs_le. lra.
Qed.
Lemma dev_all : forall v, (Rabs v <= 15711 / 10000 -> Rabs ((- / IZR (left7 i) + / 5040) * v ^ 7 + (/ IZR (left9 i) - / 362880) * v ^ 9) + / 100000 <= sin_dev8 i)%R.
Proof using I8.
  clear W S. intros v V. unfold left7, left9, sin_dev8.
  assert (K : i <= 9 \/ i = 10 \/ i = 11 \/ i = 12 \/ i = 13) by lia. destruct K as [K|[K|[K|[K|K]]]].
  - replace (i <=? 10) with true by (symmetry; apply Z.leb_le; lia). replace (i <=? 9) with true by (symmetry; apply Z.leb_le; lia).
    pose proof (dev_89 v V) as D. replace (- / -80 + / 5040)%R with (/ 80 + / 5040)%R by field. replace (/ -128 - / 362880)%R with (- / 128 - / 362880)%R by field. lra.
  - rewrite K. cbn [Z.leb Z.compare Pos.compare Pos.compare_cont Z.eqb Pos.eqb].
    assert (Rabs ((- / -80 + / 5040) * v ^ 7 + (/ 384 - / 362880) * v ^ 9) <= 4525 / 10000)%R; [|lra]. apply dev_real; auto; rewrite Rabs_pos_eq; lra.
  - rewrite K. cbn [Z.leb Z.compare Pos.compare Pos.compare_cont Z.eqb Pos.eqb].
    assert (Rabs ((- / 944 + / 5040) * v ^ 7 + (/ 384 - / 362880) * v ^ 9) <= 1318 / 10000)%R; [|lra]. apply dev_real; auto; [rewrite Rabs_left; lra|rewrite Rabs_pos_eq; lra].
  - rewrite K. cbn [Z.leb Z.compare Pos.compare Pos.compare_cont Z.eqb Pos.eqb].
    assert (Rabs ((- / 944 + / 5040) * v ^ 7 + (/ -1664 - / 362880) * v ^ 9) <= 558 / 10000)%R; [|lra]. apply dev_real; auto; rewrite Rabs_left; lra.
  - rewrite K. cbn [Z.leb Z.compare Pos.compare Pos.compare_cont Z.eqb Pos.eqb].
    assert (Rabs ((- / -3152 + / 5040) * v ^ 7 + (/ 2432 - / 362880) * v ^ 9) <= 365 / 10000)%R; [|lra]. apply dev_real; auto; rewrite Rabs_pos_eq; lra.
Qed.
Lemma poly8_dev : forall z c d, 10000 * Z.abs z <= 15711 * q -> 80 <= Z.abs c -> 128 <= Z.abs d -> let v := (IZR z / IZR q)%R in
  (Rabs (IZR (zpoly8 c d z) - IZR (zpoly q z)) <= IZR q * Rabs ((- / IZR c + / 5040) * v ^ 7 + (/ IZR d - / 362880) * v ^ 9) + 5)%R.
Proof using W.
  clear S I8. intros z c d H C D v. pose proof (fone_pos f (proj1 W)) as Q. pose proof (fone_IZR_pos f (proj1 W)) as Qr.
  pose proof (pw_err q z Q H 6) as P7. pose proof (pw_err q z Q H 8) as P9. fold v in P7, P9. set (w7 := pw q z 6) in *. set (w9 := pw q z 8) in *.
  assert (Cn : IZR c <> 0%R) by (apply IZR_neq; lia). assert (Dn : IZR d <> 0%R) by (apply IZR_neq; lia).
  pose proof (quot_real w7 c ltac:(lia)) as E1. pose proof (quot_real w7 5040 ltac:(lia)) as E2. pose proof (quot_real w9 d ltac:(lia)) as E3. pose proof (quot_real w9 362880 ltac:(lia)) as E4.
  unfold zpoly8, zpoly. fold w7 w9. rewrite !plus_IZR, !minus_IZR, !plus_IZR, !minus_IZR.
  set (h := (IZR z - IZR (Z.quot (pw q z 2) 6) + IZR (Z.quot (pw q z 4) 120))%R).
  cbn [perr] in P7, P9. set (x7 := (v ^ 7)%R) in *. set (x9 := (v ^ 9)%R) in *. set (u7 := IZR w7) in *. set (u9 := IZR w9) in *.
  set (A := (- / IZR c + / 5040)%R). set (B := (/ IZR d - / 362880)%R).
  assert (HA : (Rabs A <= 13 / 1000)%R).
  { unfold A. eapply Rle_trans; [apply Rabs_triang|]. rewrite Rabs_Ropp, Rabs_inv, (Rabs_pos_eq (/ 5040)) by lra. rewrite <- abs_IZR. apply IZR_le in C.
    assert (/ IZR (Z.abs c) <= / 80)%R by (apply Rinv_le_contravar; lra). lra. }
  assert (HB : (Rabs B <= 79 / 10000)%R).
  { unfold B. unfold Rminus. eapply Rle_trans; [apply Rabs_triang|]. rewrite Rabs_Ropp, Rabs_inv, (Rabs_pos_eq (/ 362880)) by lra. rewrite <- abs_IZR. apply IZR_le in D.
    assert (/ IZR (Z.abs d) <= / 128)%R by (apply Rinv_le_contravar; lra). lra. }
  replace (h - IZR (Z.quot w7 c) + IZR (Z.quot w9 d) - (h - IZR (Z.quot w7 5040) + IZR (Z.quot w9 362880)))%R
    with ((- (IZR (Z.quot w7 c) - u7 / IZR c) + (IZR (Z.quot w7 5040) - u7 / 5040) + (IZR (Z.quot w9 d) - u9 / IZR d) - (IZR (Z.quot w9 362880) - u9 / 362880))
          + (A * (u7 - IZR q * x7) + B * (u9 - IZR q * x9)) + IZR q * (A * x7 + B * x9))%R by (unfold A, B; field; auto).
  eapply Rle_trans; [apply Rabs_triang|]. rewrite (Rabs_mult (IZR q)), (Rabs_pos_eq (IZR q)) by lra.
  assert (X : (Rabs (- (IZR (Z.quot w7 c) - u7 / IZR c) + (IZR (Z.quot w7 5040) - u7 / 5040) + (IZR (Z.quot w9 d) - u9 / IZR d) - (IZR (Z.quot w9 362880) - u9 / 362880)) <= 4)%R).
  { apply Rabs_le_inv in E1, E2, E3, E4. apply Rabs_le. lra. }
  assert (Y : (Rabs (A * (u7 - IZR q * x7) + B * (u9 - IZR q * x9)) <= 1)%R).
  { eapply Rle_trans; [apply Rabs_triang|]. rewrite !Rabs_mult. pose proof (Rmult_le_compat _ _ _ _ (Rabs_pos A) (Rabs_pos _) HA P7). pose proof (Rmult_le_compat _ _ _ _ (Rabs_pos B) (Rabs_pos _) HB P9). lra. }
  pose proof (Rabs_triang (- (IZR (Z.quot w7 c) - u7 / IZR c) + (IZR (Z.quot w7 5040) - u7 / 5040) + (IZR (Z.quot w9 d) - u9 / IZR d) - (IZR (Z.quot w9 362880) - u9 / 362880)) (A * (u7 - IZR q * x7) + B * (u9 - IZR q * x9))).
  lra.
Qed.

Lemma fold_sin8 : forall x, (Rabs (Rtrigo_def.sin (IZR (zfold p x) / IZR q) - Rtrigo_def.sin (IZR x / IZR q)) <= 2 * / IZR q + / 1000000)%R.
Proof using W.
  clear S I8. intros x. pose proof (fone_IZR_pos f (proj1 W)) as Q.
  assert (U : (0 < / IZR q)%R) by (apply Rinv_0_lt_compat; lra).
  assert (K : (Rabs (2 * IZR (p / 2) / IZR q - PI) <= 2 * / IZR q + / 1000000)%R).
  { replace (2 * IZR (p / 2) / IZR q - PI)%R with ((2 * IZR (p / 2) - PI * IZR q) * / IZR q)%R by (field; lra).
    rewrite Rabs_mult, (Rabs_pos_eq (/ IZR q)) by lra. apply Rmult_le_reg_r with (IZR q); auto. rewrite Rmult_assoc, Rinv_l, Rmult_1_r by lra. rewrite Rmult_plus_distr_r, Rmult_assoc, Rinv_l by lra.
    pose proof (pi_real f W) as P. apply Rabs_le_inv in P. pose proof (half_pi_range f) as [H1 H2].
    apply IZR_le in H1, H2. rewrite plus_IZR in H2. rewrite !mult_IZR in *. apply Rabs_le. lra. }
  unfold zfold. destruct (Z.ltb_spec x (- (p / 2))); [|destruct (Z.ltb_spec (p / 2) x)].
  - replace (Rtrigo_def.sin (IZR x / IZR q)) with (Rtrigo_def.sin (- PI - IZR x / IZR q)).
    2:{ replace (- PI - IZR x / IZR q)%R with (- (IZR x / IZR q + PI))%R by ring. rewrite sin_neg, neg_sin. ring. }
    eapply Rle_trans; [apply sin_lipschitz|]. eapply Rle_trans; [|exact K]. apply Req_le.
    rewrite minus_IZR, plus_IZR, opp_IZR. rewrite <- Rabs_Ropp. f_equal. field. lra.
  - replace (Rtrigo_def.sin (IZR x / IZR q)) with (Rtrigo_def.sin (PI - IZR x / IZR q)) by (rewrite sin_PI_x; reflexivity).
    eapply Rle_trans; [apply sin_lipschitz|]. eapply Rle_trans; [|exact K]. apply Req_le.
    rewrite !minus_IZR. f_equal. field. lra.
  - rewrite Rminus_diag_eq, Rabs_R0 by reflexivity. lra.
Qed.

Lemma sin_acc8 : forall x, Z.abs x <= p -> exists r, the_sin x = Ok r /\
  (Rabs (fval f r - Rtrigo_def.sin (fval f x)) <= sin_dev8 i + 10 * ulp f)%R.
Proof using All.
  intros x H. exists (zpoly8 (left7 i) (left9 i) (zfold p x)). split; [apply sin_bits8; auto|].
  rewrite !fval_eq, ulp_eq by apply W. pose proof (fone_IZR_pos f (proj1 W)) as Q. pose proof (fold_sin8 x) as FS.
  pose proof (zfold_range f W x H) as Z1. pose proof (half_pi_small f W) as HP.
  set (z := zfold p x) in *. assert (Z2 : 10000 * Z.abs z <= 15711 * q) by lia.
  assert (Q0 : 0 < q) by (apply fone_pos; apply W).
  pose proof (zpoly_err q z Q0 Z2) as E. pose proof (v_bound q z Q0 Z2) as VB. pose proof (taylor _ VB) as T. pose proof (dev_all _ VB) as DV.
  pose proof (poly8_dev z (left7 i) (left9 i) Z2 left7_big left9_big) as E9. cbv zeta in E9. set (D := Rabs (_ * (IZR z / IZR q) ^ 7 + _)) in *.
  assert (U : (0 < / IZR q)%R) by (apply Rinv_0_lt_compat; lra).
  assert (E' : (Rabs (IZR (zpoly8 (left7 i) (left9 i) z) / IZR q - P9 (IZR z / IZR q)) <= D + 752 / 100 * / IZR q)%R).
  { replace (IZR (zpoly8 (left7 i) (left9 i) z) / IZR q - P9 (IZR z / IZR q))%R with ((IZR (zpoly8 (left7 i) (left9 i) z) - IZR q * P9 (IZR z / IZR q)) * / IZR q)%R by (field; lra).
    replace (D + 752 / 100 * / IZR q)%R with ((IZR q * D + 752 / 100) * / IZR q)%R by (field; lra).
    rewrite Rabs_mult, (Rabs_pos_eq (/ IZR q)) by lra. apply Rmult_le_compat_r; [lra|]. apply Rabs_le_inv in E, E9. apply Rabs_le. lra. }
  apply Rabs_le_inv in FS, T, E'. apply Rabs_le. lra.
Qed.
End R.

Lemma sin_release_near8 : forall f, supported f = true -> fsigned f = true -> 8 <= fwidth f - ffrac f <= 13 ->
  exists p, mixed_pi (fixed_pi Release f) = Ok p /\ forall x, (Rabs (fval f x) <= fval f p)%R -> exists r, fixed_sin Release f x = Ok r /\
  (Rabs (fval f r - Rtrigo_def.sin (fval f x)) <= sin_dev8 (fwidth f - ffrac f) + 10 * ulp f)%R.
Proof.
  intros f Hf S I. pose proof (supported_fwf f Hf) as W. exists (pi_bits f). split; [apply fixed_pi_eq; auto|].
  intros x H. apply sin_acc8; auto.
  pose proof (fone_IZR_pos f (proj1 W)) as Q. rewrite !fval_eq in H by apply W. unfold Rdiv in H. rewrite Rabs_mult, Rabs_inv, (Rabs_pos_eq (IZR (fone f))) in H by lra.
  apply Rmult_le_reg_r in H; [|apply Rinv_0_lt_compat; lra]. rewrite <- abs_IZR in H. apply le_IZR in H. exact H.
Qed.

(** ** the bound is nearly attained at pi/2 *)
Definition sin_low8 (i : Z) : Z := if i <=? 9 then 155 else if i =? 10 then 450 else if i =? 11 then 130 else if i =? 12 then 54 else 35.
Definition sin_off8 (w i : Z) : bool :=
  let f := mkFty true w (w - i) in
  match fixed_sin Release f (pi_bits f / 2) with
  | Ok r => in_rangeb (fity f) (pi_bits f / 2) && ((r * 1000 <? (1000 - sin_low8 i) * fone f) || ((1000 + sin_low8 i) * fone f <? r * 1000)) | _ => false end.
Lemma sin_off8_all : forallb (fun i => sin_off8 32 (i + 8) && sin_off8 64 (i + 8)) (upto 6) = true.
Proof. vm_compute. reflexivity. Qed.
Lemma sin_release_wrong8 : forall f, fsigned f = true -> fwidth f = 32 \/ fwidth f = 64 -> 8 <= fwidth f - ffrac f <= 13 ->
  exists p x r, mixed_pi (fixed_pi Release f) = Ok p /\ fvalid f x /\ (0 <= fval f x <= fval f p)%R /\ fixed_sin Release f x = Ok r /\
  (IZR (sin_low8 (fwidth f - ffrac f)) / 1000 - / 10000 <= Rabs (fval f r - Rtrigo_def.sin (fval f x)))%R.
Proof.
  intros f S W K. assert (Hf : supported f = true).
  { unfold supported. rewrite !andb_true_iff, !orb_true_iff, !Z.eqb_eq, !Z.leb_le. lia. }
  assert (A : sin_off8 (fwidth f) (fwidth f - ffrac f) = true).
  { pose proof sin_off8_all as A. rewrite forallb_forall in A. specialize (A (fwidth f - ffrac f - 8) (upto_in 6 (fwidth f - ffrac f - 8) ltac:(change (Z.of_nat 6) with 6; lia))).
    rewrite andb_true_iff in A. replace (fwidth f - ffrac f - 8 + 8) with (fwidth f - ffrac f) in A by lia. destruct A as [A1 A2]. set (k := fwidth f - ffrac f) in *. clearbody k. destruct W as [W|W]; rewrite W; assumption. }
  unfold sin_off8 in A. replace (mkFty true (fwidth f) (fwidth f - (fwidth f - ffrac f))) with f in A by (destruct f as [sg w k]; cbn [fsigned fwidth ffrac] in *; subst sg; f_equal; lia).
  pose proof (supported_fwf f Hf) as Wf. pose proof (pi_real f Wf) as PR. pose proof (fone_IZR_pos f (proj1 Wf)) as Q.
  assert (Q19 : (524288 <= IZR (fone f))%R).
  { apply IZR_le; unfold fone. change 524288 with (2 ^ 19). apply Z.pow_le_mono_r; lia. }
  pose proof (pi_bits_bounds f Wf) as PB. pose proof (fone_pos f (proj1 Wf)) as Qz.
  set (p := pi_bits f) in *. set (L := sin_low8 (fwidth f - ffrac f)) in *.
  assert (L0 : (0 <= IZR L)%R) by (apply IZR_le; unfold L, sin_low8; repeat match goal with |- context [if ?c then _ else _] => destruct c end; lia).
  destruct (fixed_sin Release f (p / 2)) as [r| |] eqn:Er; try discriminate.
  rewrite !andb_true_iff in A. destruct A as [A2 A3]. apply in_rangeb_spec in A2.
  exists p, (p / 2), r. split; [apply fixed_pi_eq; auto|]. split; auto.
  assert (H : 2 * (p / 2) <= p <= 2 * (p / 2) + 1) by (clear; Z.to_euclidean_division_equations; lia).
  set (h := p / 2) in *. assert (H0 : 0 <= h <= p) by lia. destruct H as [H1 H2]. destruct H0 as [H3 H4].
  apply IZR_le in H1, H2, H3, H4. rewrite mult_IZR in H1. rewrite plus_IZR, mult_IZR in H2.
  assert (Qi := Rinv_0_lt_compat _ Q). rewrite !fval_eq by apply Wf. unfold Rdiv.
  split; [split; [apply Rmult_le_pos; lra | apply Rmult_le_compat_r; lra]|]. split; auto.
  set (q := IZR (fone f)) in *.
  assert (SN : (Rabs (Rtrigo_def.sin (IZR h * / q) - 1) <= / 10000)%R).
  { pose proof (sin_lipschitz (IZR h * / q) (PI / 2)) as LP. rewrite sin_PI2 in LP. eapply Rle_trans; [exact LP|]. clear LP.
    replace (IZR h * / q - PI / 2)%R with ((IZR h - PI * q / 2) * / q)%R by (field; lra).
    rewrite Rabs_mult, (Rabs_pos_eq (/ q)) by lra. apply Rmult_le_reg_r with q; auto. rewrite Rmult_assoc, Rinv_l, Rmult_1_r by lra.
    apply Rabs_le_inv in PR. apply Rabs_le. lra. }
  apply Rabs_le_inv in SN. apply orb_true_iff in A3. destruct A3 as [A3|A3]; apply Z.ltb_lt, IZR_lt in A3; rewrite !mult_IZR in A3; [rewrite minus_IZR in A3|rewrite plus_IZR in A3]; fold q in A3.
  - assert (IZR r * / q <= 1 - IZR L / 1000)%R by (apply Rmult_le_reg_r with q; auto; rewrite Rmult_assoc, Rinv_l, Rmult_1_r by lra; lra).
    rewrite <- Rabs_Ropp. eapply Rle_trans; [|apply Rle_abs]. lra.
  - assert (1 + IZR L / 1000 <= IZR r * / q)%R by (apply Rmult_le_reg_r with q; auto; rewrite Rmult_assoc, Rinv_l, Rmult_1_r by lra; lra).
    eapply Rle_trans; [|apply Rle_abs]. lra.
Qed.
