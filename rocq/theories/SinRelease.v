(** * The polynomial sine in release builds with 14 to 19 integer bits, where only 9! wraps (proofs for C73). *)

From Coq Require Import ZArith Reals Lia Lra Psatz List Bool.
From Flocq Require Import Core.Core IEEE754.BinarySingleNaN.
From Verif Require Import Base FloatBase Literals Traits Trig FixedPrim FixedImpl Spec
  Lemmas ScalarProofs ScalarProofs2 WrapProofs NiirfZ SinReal SinFixed TrigProofs RangeProofs.
Open Scope Z_scope.

(** what is left of 9! in [i] integer bits *)
Definition fact9 (i : Z) : Z := if i <=? 15 then 2432 else if i <=? 17 then -30336 else if i =? 18 then 100736 else -161408.
Definition sin_dev (i : Z) : R := if i <=? 15 then (24 / 1000)%R else if i <=? 17 then (21 / 10000)%R else (53 / 100000)%R.

Section R.
Variable f : fty.
Hypothesis W : fwf f.
Hypothesis S : fsigned f = true.
Hypothesis I14 : 14 <= fwidth f - ffrac f <= 19.
Notation q := (fone f).
Notation p := (pi_bits f).
Notation i := (fwidth f - ffrac f).
Notation O := (fixed_ops Release f).
Notation the_sin := (sin O (fixed_signed Release f) (fixed_pi Release f) (fixed_powi Release f)).

Lemma room14 : 8192 * q <= 2 ^ (fwidth f - 1).
Proof using W I14.
  unfold fone. change 8192 with (2 ^ 13). rewrite <- Z.pow_add_r by (try apply W; lia). apply Z.pow_le_mono_r; lia.
Qed.
Lemma fits14 : forall z, Z.abs z <= 8000 * q -> fx_fin Release f z = Ok z.
Proof using W S I14.
  intros. pose proof room14. pose proof (fone_pos f (proj1 W)). apply fx_fin_ok. apply fvalid_iff. rewrite S. lia.
Qed.
Lemma fact9_ok : fx_of_int Release f 362880 = Ok (fact9 i * q).
Proof using W S I14.
  pose proof (fone_pos f (proj1 W)) as Q. unfold fx_of_int, fx_fin, fin.
  assert (PW : 2 ^ fwidth f = 2 ^ i * q) by (unfold fone; rewrite <- Z.pow_add_r by (destruct W; lia); f_equal; lia).
  assert (PH : 2 ^ (fwidth f - 1) = 2 ^ (i - 1) * q) by (unfold fone; rewrite <- Z.pow_add_r by (destruct W; lia); f_equal; lia).
  assert (R : in_rangeb (fity f) (362880 * q) = false).
  { destruct (in_rangeb (fity f) (362880 * q)) eqn:B; auto. exfalso. apply in_rangeb_spec in B. change (fvalid f (362880 * q)) in B.
    apply fvalid_iff in B. rewrite S, PH in B. assert (2 ^ (i - 1) <= 2 ^ 18) by (apply Z.pow_le_mono_r; lia). change (2 ^ 18) with 262144 in H. nia. }
  rewrite R. unfold wrap. cbn [isigned iwidth fity]. rewrite S, PW, PH, <- Z.mul_add_distr_r.
  rewrite Z.mul_mod_distr_r by (try lia; apply Z.pow_nonzero; lia). rewrite <- Z.mul_sub_distr_r. do 2 f_equal.
  assert (K : i = 14 \/ i = 15 \/ i = 16 \/ i = 17 \/ i = 18 \/ i = 19) by lia. clear - K.
  repeat (destruct K as [K|K]; [rewrite K; vm_compute; reflexivity|]). rewrite K; vm_compute; reflexivity.
Qed.
Lemma fact9_big : 2432 <= Z.abs (fact9 i).
Proof. clear. unfold fact9. repeat match goal with |- context [if ?c then _ else _] => destruct c end; lia. Qed.

Lemma powi_pw14 : forall z (k : nat), 10000 * Z.abs z <= 15711 * q -> (k <= 8)%nat ->
  mixed_powi (fixed_powi Release f) z (Z.of_nat (Datatypes.S k)) = Ok (pw q z k).
Proof using W S I14.
  intros z k H K. cbn [mixed_powi fixed_powi]. rewrite to_N_usize_nonneg by lia.
  replace (Z.to_N (Z.of_nat (Datatypes.S k))) with (N.of_nat (Datatypes.S k)) by lia.
  pose proof (fone_pos f (proj1 W)) as Q. induction k as [|k IH].
  - change (N.of_nat 1) with 1%N. rewrite powi_1. reflexivity.
  - replace (N.of_nat (Datatypes.S (Datatypes.S k))) with (N.succ (N.succ (N.of_nat k))) by lia.
    rewrite powi_succ. replace (N.succ (N.of_nat k)) with (N.of_nat (Datatypes.S k)) by lia.
    rewrite IH by lia. cbn [bind pw]. unfold fx_mul. apply fits14.
    pose proof (pw_range q z Q H (Datatypes.S k) K). cbn [pw] in *. lia.
Qed.

Definition zpoly14 (c z : Z) : Z := z - Z.quot (pw q z 2) 6 + Z.quot (pw q z 4) 120 - Z.quot (pw q z 6) 5040 + Z.quot (pw q z 8) c.

Lemma quot_scale' : forall a c, c <> 0 -> Z.quot (a * q) (c * q) = Z.quot a c.
Proof using W. clear S I14. intros. pose proof (fone_pos f (proj1 W)). apply Z.quot_mul_cancel_r; lia. Qed.
Lemma quot_abs' : forall a c, c <> 0 -> Z.abs (Z.quot a c) <= Z.abs a.
Proof. clear. intros a c H. rewrite Z.quot_abs_l || idtac. rewrite <- Z.quot_abs by auto. pose proof (Z.quot_le_upper_bound (Z.abs a) (Z.abs c) (Z.abs a)). apply H0; nia. Qed.

Lemma sin_bits14 : forall x, Z.abs x <= p -> the_sin x = Ok (zpoly14 (fact9 i) (zfold p x)).
Proof using W S I14.
  intros x H. pose proof (fone_pos f (proj1 W)) as Q. rewrite sin_head_eq, sin_head_ok by auto. cbn [bind].
  pose proof (zfold_range f W x H) as Z1. pose proof (half_pi_small f W) as HP.
  set (z := zfold p x) in *. assert (Z2 : 10000 * Z.abs z <= 15711 * q) by lia.
  cbn [o_of_i32 o_div o_sub o_add fixed_ops]. rewrite fact9_ok. pose proof fact9_big as C9. set (c := fact9 i) in *. clearbody c. unfold fx_of_int, fx_div, fx_sub, fx_add.
  change 3 with (Z.of_nat 3). rewrite powi_pw14 by (auto; lia). cbn [bind].
  change (mixed_powi (fixed_powi Release f) z 5) with (mixed_powi (fixed_powi Release f) z (Z.of_nat 5)). rewrite powi_pw14 by (auto; lia).
  change (mixed_powi (fixed_powi Release f) z 7) with (mixed_powi (fixed_powi Release f) z (Z.of_nat 7)). rewrite powi_pw14 by (auto; lia).
  change (mixed_powi (fixed_powi Release f) z 9) with (mixed_powi (fixed_powi Release f) z (Z.of_nat 9)). rewrite powi_pw14 by (auto; lia).
  pose proof (pw_range q z Q Z2 2 ltac:(lia)) as R2. pose proof (pw_range q z Q Z2 4 ltac:(lia)) as R4.
  pose proof (pw_range q z Q Z2 6 ltac:(lia)) as R6. pose proof (pw_range q z Q Z2 8 ltac:(lia)) as R8.
  pose proof (quot_abs (pw q z 2) 6 ltac:(lia)). pose proof (quot_abs (pw q z 4) 120 ltac:(lia)).
  pose proof (quot_abs (pw q z 6) 5040 ltac:(lia)). pose proof (quot_abs' (pw q z 8) c ltac:(lia)).
  rewrite (fits14 (6 * q)), (fits14 (120 * q)), (fits14 (5040 * q)) by (clear - Q; lia). cbn [bind].
  destruct (Z.eqb_spec (6 * q) 0) as [N6|_]; [clear - N6 Q; lia|]. destruct (Z.eqb_spec (120 * q) 0) as [N120|_]; [clear - N120 Q; lia|].
  destruct (Z.eqb_spec (5040 * q) 0) as [N5040|_]; [clear - N5040 Q; lia|]. destruct (Z.eqb_spec (c * q) 0) as [NC|_]; [exfalso; clear - NC Q C9; nia|].
  rewrite !quot_scale' by lia. unfold zpoly14.
  set (t3 := Z.quot (pw q z 2) 6) in *. set (t5 := Z.quot (pw q z 4) 120) in *.
  set (t7 := Z.quot (pw q z 6) 5040) in *. set (t9 := Z.quot (pw q z 8) c) in *. clearbody t3 t5 t7 t9.
  assert (B3 : - (125 * q) <= t3 <= 125 * q) by (apply Z.abs_le; eapply Z.le_trans; [exact H0|exact R2]). assert (B5 : - (125 * q) <= t5 <= 125 * q) by (apply Z.abs_le; eapply Z.le_trans; [exact H1|exact R4]).
  assert (B7 : - (125 * q) <= t7 <= 125 * q) by (apply Z.abs_le; eapply Z.le_trans; [exact H2|exact R6]). assert (B9 : - (125 * q) <= t9 <= 125 * q) by (apply Z.abs_le; eapply Z.le_trans; [exact H3|exact R8]).
  assert (B0 : - (125 * q) <= z <= 125 * q) by (clear - Z2 Q; lia).
  clear - B0 B3 B5 B7 B9 Q W S I14.
  assert (F : forall a, - (1250 * q) <= a <= 1250 * q -> fx_fin Release f a = Ok a) by (intros; apply fits14; auto; lia).
  do 7 (rewrite F by lia; cbn [bind]). rewrite F by lia. reflexivity.
Qed.

Lemma quot_real : forall a c, c <> 0 -> (Rabs (IZR (Z.quot a c) - IZR a / IZR c) <= 1)%R.
Proof.
  clear. intros a c H. pose proof (Z.quot_rem a c H) as E. pose proof (Z.rem_bound_abs a c H) as B.
  assert (C0 : (0 < Rabs (IZR c))%R) by (apply Rabs_pos_lt; apply IZR_neq; auto).
  assert (Cn : IZR c <> 0%R) by (apply IZR_neq; auto).
  replace (IZR (Z.quot a c) - IZR a / IZR c)%R with (- (IZR (Z.rem a c) * / IZR c))%R.
  - rewrite Rabs_Ropp, Rabs_mult, Rabs_inv. apply Rmult_le_reg_r with (Rabs (IZR c)); auto. rewrite Rmult_assoc, Rinv_l by lra. rewrite <- !abs_IZR. rewrite Rmult_1_l, Rmult_1_r. apply IZR_le. lia.
  - set (d := Z.quot a c) in *. set (r := Z.rem a c) in *. rewrite E, plus_IZR, mult_IZR. field. auto.
Qed.

Lemma pw8_dev : forall z c, 10000 * Z.abs z <= 15711 * q -> 2432 <= Z.abs c -> forall d, (0 <= d -> Rabs (/ IZR c - / 362880) <= d -> d <= 5 / 10000 ->
  Rabs (IZR (zpoly14 c z) - IZR (zpoly q z)) <= IZR q * (5834 / 100 * d) + 204 / 100)%R.
Proof using W.
  clear S I14. intros z c H C d D0 D D1. pose proof (fone_pos f (proj1 W)) as Q. pose proof (fone_IZR_pos f (proj1 W)) as Qr.
  pose proof (pw_abs q z Q H 8) as A. set (w := pw q z 8) in *.
  assert (Cn : IZR c <> 0%R) by (apply IZR_neq; lia).
  pose proof (quot_real w c ltac:(lia)) as E1. pose proof (quot_real w 362880 ltac:(lia)) as E2.
  unfold zpoly14, zpoly. fold w. rewrite !plus_IZR. set (h := IZR (z - Z.quot (pw q z 2) 6 + Z.quot (pw q z 4) 120 - Z.quot (pw q z 6) 5040)).
  replace (h + IZR (Z.quot w c) - (h + IZR (Z.quot w 362880)))%R with ((IZR (Z.quot w c) - IZR w / IZR c) - (IZR (Z.quot w 362880) - IZR w / 362880) + IZR w * (/ IZR c - / 362880))%R by (field; auto).
  eapply Rle_trans; [apply Rabs_triang|]. rewrite Rabs_mult.
  assert (X : (Rabs (IZR (Z.quot w c) - IZR w / IZR c - (IZR (Z.quot w 362880) - IZR w / 362880)) <= 2)%R).
  { apply Rabs_le_inv in E1, E2. apply Rabs_le. lra. }
  pose proof (pw_err q z Q H 8) as PE. pose proof (v_bound q z Q H) as VB. fold w in PE. set (v := (IZR z / IZR q)%R) in *.
  assert (V9 : (Rabs (v ^ 9) <= 5833 / 100)%R).
  { rewrite <- RPow_abs. eapply Rle_trans; [apply pow_incr; split; [apply Rabs_pos|exact VB]|]. cbn [pow]. lra. }
  assert (A2 : (Rabs (IZR w) <= 5833 / 100 * IZR q + 64)%R).
  { replace (IZR w) with ((IZR w - IZR q * v ^ 9) + IZR q * v ^ 9)%R by ring. eapply Rle_trans; [apply Rabs_triang|].
    rewrite Rabs_mult, (Rabs_pos_eq (IZR q)) by lra. cbn [perr] in PE.
    assert (IZR q * Rabs (v ^ 9) <= IZR q * (5833 / 100))%R by (apply Rmult_le_compat_l; lra). lra. }
  assert (M : (Rabs (IZR w) * Rabs (/ IZR c - / 362880) <= (5833 / 100 * IZR q + 64) * d)%R) by (apply Rmult_le_compat; auto using Rabs_pos).
  assert (Q1 : (1 <= IZR q)%R) by (apply IZR_le; lia).
  assert (0 <= IZR q * d)%R by (apply Rmult_le_pos; lra). lra.
Qed.
Lemma fact9_dev : (exists d, 0 <= d <= 5 / 10000 /\ Rabs (/ IZR (fact9 i) - / 362880) <= d /\ 5834 / 100 * d + 362 / 100000000 <= sin_dev i)%R.
Proof using I14. clear W S.
  unfold fact9, sin_dev. destruct (Z.leb_spec i 15).
  - exists (40848 / 100000000)%R. split; [lra|]. split; [|lra]. rewrite Rabs_pos_eq; lra.
  - destruct (Z.leb_spec i 17).
    + exists (3573 / 100000000)%R. split; [lra|]. split; [|lra]. rewrite Rabs_left; lra.
    + destruct (Z.eqb_spec i 18).
      * exists (718 / 100000000)%R. split; [lra|]. split; [|lra]. rewrite Rabs_pos_eq; lra.
      * exists (896 / 100000000)%R. split; [lra|]. split; [|lra]. rewrite Rabs_left; lra.
Qed.

Hypothesis W64 : fwidth f <= 64.
Lemma fold_sin14 : forall x, (Rabs (Rtrigo_def.sin (IZR (zfold p x) / IZR q) - Rtrigo_def.sin (IZR x / IZR q)) <= 264 / 100 * / IZR q)%R.
Proof using W I14 W64.
  intros x. pose proof (fone_IZR_pos f (proj1 W)) as Q.
  assert (QL : (IZR q <= 1125899906842624)%R) by (apply IZR_le; unfold fone; change 1125899906842624 with (2 ^ 50); apply Z.pow_le_mono_r; lia).
  assert (H : (Rabs (IZR (p / 2) - PI / 2 * IZR q) <= 132 / 100)%R).
  { pose proof (pi_real f W) as P. apply Rabs_le_inv in P. pose proof (half_pi_range f) as [H1 H2].
    apply IZR_le in H1, H2. rewrite plus_IZR in H2. rewrite !mult_IZR in *. apply Rabs_le.
    set (P1 := (PI * IZR q)%R) in *. replace (PI / 2 * IZR q)%R with (P1 / 2)%R by (unfold P1; field). lra. }
  assert (U : (0 < / IZR q)%R) by (apply Rinv_0_lt_compat; lra).
  assert (K : (Rabs (2 * IZR (p / 2) / IZR q - PI) <= 264 / 100 * / IZR q)%R).
  { replace (2 * IZR (p / 2) / IZR q - PI)%R with (2 * (IZR (p / 2) - PI / 2 * IZR q) * / IZR q)%R by (field; lra).
    rewrite Rabs_mult, (Rabs_pos_eq (/ IZR q)) by lra. apply Rmult_le_compat_r; [lra|]. rewrite Rabs_mult, (Rabs_pos_eq 2) by lra. lra. }
  unfold zfold. destruct (Z.ltb_spec x (- (p / 2))); [|destruct (Z.ltb_spec (p / 2) x)].
  - replace (Rtrigo_def.sin (IZR x / IZR q)) with (Rtrigo_def.sin (- PI - IZR x / IZR q)).
    2:{ replace (- PI - IZR x / IZR q)%R with (- (IZR x / IZR q + PI))%R by ring. rewrite sin_neg, neg_sin. ring. }
    eapply Rle_trans; [apply sin_lipschitz|]. eapply Rle_trans; [|exact K]. apply Req_le.
    rewrite minus_IZR, plus_IZR, opp_IZR. rewrite <- Rabs_Ropp. f_equal. field. lra.
  - replace (Rtrigo_def.sin (IZR x / IZR q)) with (Rtrigo_def.sin (PI - IZR x / IZR q)) by (rewrite sin_PI_x; reflexivity).
    eapply Rle_trans; [apply sin_lipschitz|]. eapply Rle_trans; [|exact K]. apply Req_le.
    rewrite !minus_IZR. f_equal. field. lra.
  - rewrite Rminus_diag_eq, Rabs_R0 by reflexivity. apply Rmult_le_pos; lra.
Qed.

Lemma sin_acc14 : forall x, Z.abs x <= p -> exists r, the_sin x = Ok r /\
  (Rabs (fval f r - Rtrigo_def.sin (fval f x)) <= sin_dev i + 72 / 10 * ulp f)%R.
Proof using All.
  intros x H. exists (zpoly14 (fact9 i) (zfold p x)). split; [apply sin_bits14; auto|].
  rewrite !fval_eq, ulp_eq by apply W. pose proof (fone_IZR_pos f (proj1 W)) as Q. pose proof (fold_sin14 x) as FS.
  pose proof (zfold_range f W x H) as Z1. pose proof (half_pi_small f W) as HP.
  set (z := zfold p x) in *. assert (Z2 : 10000 * Z.abs z <= 15711 * q) by lia.
  assert (Q0 : 0 < q) by (apply fone_pos; apply W).
  pose proof (zpoly_err q z Q0 Z2) as E. pose proof (taylor _ (v_bound q z Q0 Z2)) as T.
  destruct fact9_dev as (d & [D0 D1] & D2 & D3). pose proof (pw8_dev z (fact9 i) Z2 fact9_big d D0 D2 D1) as E9.
  assert (U : (0 < / IZR q)%R) by (apply Rinv_0_lt_compat; lra).
  assert (E' : (Rabs (IZR (zpoly14 (fact9 i) z) / IZR q - P9 (IZR z / IZR q)) <= 5834 / 100 * d + 456 / 100 * / IZR q)%R).
  { replace (IZR (zpoly14 (fact9 i) z) / IZR q - P9 (IZR z / IZR q))%R with ((IZR (zpoly14 (fact9 i) z) - IZR q * P9 (IZR z / IZR q)) * / IZR q)%R by (field; lra).
    replace (5834 / 100 * d + 456 / 100 * / IZR q)%R with ((IZR q * (5834 / 100 * d) + 456 / 100) * / IZR q)%R by (field; lra).
    rewrite Rabs_mult, (Rabs_pos_eq (/ IZR q)) by lra. apply Rmult_le_compat_r; [lra|]. apply Rabs_le_inv in E, E9. apply Rabs_le. lra. }
  apply Rabs_le_inv in FS, T, E'. apply Rabs_le. lra.
Qed.
End R.

Lemma sin_release_near : forall f, supported f = true -> fsigned f = true -> 14 <= fwidth f - ffrac f <= 19 ->
  exists p, mixed_pi (fixed_pi Release f) = Ok p /\ forall x, (Rabs (fval f x) <= fval f p)%R -> exists r, fixed_sin Release f x = Ok r /\
  (Rabs (fval f r - Rtrigo_def.sin (fval f x)) <= sin_dev (fwidth f - ffrac f) + 72 / 10 * ulp f)%R.
Proof.
  intros f Hf S I. pose proof (supported_fwf f Hf) as W. exists (pi_bits f). split; [apply fixed_pi_eq; auto|].
  intros x H. apply sin_acc14; auto.
  - destruct (supported_inv f Hf). lia.
  - pose proof (fone_IZR_pos f (proj1 W)) as Q. rewrite !fval_eq in H by apply W. unfold Rdiv in H. rewrite Rabs_mult, Rabs_inv, (Rabs_pos_eq (IZR (fone f))) in H by lra.
    apply Rmult_le_reg_r in H; [|apply Rinv_0_lt_compat; lra]. rewrite <- abs_IZR in H. apply le_IZR in H. exact H.
Qed.

Definition sin_off2 (f : fty) : bool :=
  match fixed_sin Release f (pi_bits f / 2) with
  | Ok r => in_rangeb (fity f) (pi_bits f / 2) && ((r * 10000 <? 9995 * 2 ^ ffrac f) || (10004 * 2 ^ ffrac f + 2 ^ (ffrac f - 7) <? r * 10000)) | _ => false end.
Lemma sin_off2_all : forallb (fun i => sin_off2 (mkFty true 64 (64 - (i + 16)))) (upto 4) = true.
Proof. vm_compute. reflexivity. Qed.
Lemma sin_release_wrong2 : forall f, fsigned f = true -> fwidth f = 64 -> 16 <= fwidth f - ffrac f <= 19 ->
  exists p x r, mixed_pi (fixed_pi Release f) = Ok p /\ fvalid f x /\ (0 <= fval f x <= fval f p)%R /\ fixed_sin Release f x = Ok r /\
  (4 / 10000 < Rabs (fval f r - Rtrigo_def.sin (fval f x)))%R.
Proof.
  intros f S W K. assert (Hf : supported f = true).
  { unfold supported. rewrite !andb_true_iff, !orb_true_iff, !Z.eqb_eq, !Z.leb_le. lia. }
  assert (A : sin_off2 f = true).
  { pose proof sin_off2_all as A. rewrite forallb_forall in A. specialize (A (fwidth f - ffrac f - 16) (upto_in 4 (fwidth f - ffrac f - 16) ltac:(change (Z.of_nat 4) with 4; lia))).
    destruct f as [sg w k]. cbn [fsigned fwidth ffrac] in *. subst sg w. replace (64 - (64 - k - 16 + 16)) with k in A by lia. exact A. }
  unfold sin_off2 in A.
  pose proof (supported_fwf f Hf) as Wf. pose proof (pi_real f Wf) as PR. pose proof (fone_IZR_pos f (proj1 Wf)) as Q.
  assert (Q45 : (35184372088832 <= IZR (fone f) <= 1125899906842624)%R).
  { split; apply IZR_le; unfold fone; [change 35184372088832 with (2 ^ 45)|change 1125899906842624 with (2 ^ 50)]; apply Z.pow_le_mono_r; lia. }
  pose proof (pi_bits_bounds f Wf) as PB. pose proof (fone_pos f (proj1 Wf)) as Qz.
  set (p := pi_bits f) in *.
  destruct (fixed_sin Release f (p / 2)) as [r| |] eqn:Er; try discriminate.
  rewrite !andb_true_iff in A. destruct A as [A2 A3]. apply in_rangeb_spec in A2.
  replace (2 ^ (ffrac f - 7)) with (fone f / 128) in A3.
  2:{ unfold fone. change 128 with (2 ^ 7). symmetry. apply Z.pow_sub_r; lia. }
  change (2 ^ ffrac f) with (fone f) in A3.
  exists p, (p / 2), r. split; [apply fixed_pi_eq; auto|]. split; auto.
  assert (H : 2 * (p / 2) <= p <= 2 * (p / 2) + 1) by (clear; Z.to_euclidean_division_equations; lia).
  set (h := p / 2) in *. assert (H0 : 0 <= h <= p) by lia. destruct H as [H1 H2]. destruct H0 as [H3 H4].
  apply IZR_le in H1, H2, H3, H4. rewrite mult_IZR in H1. rewrite plus_IZR, mult_IZR in H2.
  assert (Qi := Rinv_0_lt_compat _ Q). rewrite !fval_eq by apply Wf. unfold Rdiv.
  split; [split; [apply Rmult_le_pos; lra | apply Rmult_le_compat_r; lra]|]. split; auto.
  assert (D : (IZR (fone f) <= 128 * IZR (fone f / 128) + 127)%R).
  { rewrite <- mult_IZR, <- plus_IZR. apply IZR_le. clear; Z.to_euclidean_division_equations; lia. }
  set (q := IZR (fone f)) in *.
  assert (SN : (Rabs (Rtrigo_def.sin (IZR h * / q) - 1) <= 1 / 100000000)%R).
  { pose proof (sin_lipschitz (IZR h * / q) (PI / 2)) as LP. rewrite sin_PI2 in LP. eapply Rle_trans; [exact LP|]. clear LP.
    replace (IZR h * / q - PI / 2)%R with ((IZR h - PI * q / 2) * / q)%R by (field; lra).
    rewrite Rabs_mult, (Rabs_pos_eq (/ q)) by lra. apply Rmult_le_reg_r with q; auto. rewrite Rmult_assoc, Rinv_l, Rmult_1_r by lra.
    apply Rabs_le_inv in PR. apply Rabs_le. lra. }
  apply Rabs_le_inv in SN. apply orb_true_iff in A3. destruct A3 as [A3|A3]; apply Z.ltb_lt, IZR_lt in A3; [rewrite !mult_IZR in A3|rewrite plus_IZR, !mult_IZR in A3]; fold q in A3.
  - assert (IZR r * / q < 9995 / 10000)%R by (apply Rmult_lt_reg_r with q; auto; rewrite Rmult_assoc, Rinv_l, Rmult_1_r by lra; lra).
    rewrite Rabs_left by lra. lra.
  - assert (100040001 / 100000000 < IZR r * / q)%R by (apply Rmult_lt_reg_r with q; auto; rewrite Rmult_assoc, Rinv_l, Rmult_1_r by lra; lra).
    rewrite Rabs_pos_eq by lra. lra.
Qed.
