(** * The polynomial sine and cosine on fixed-point types. *)

From Coq Require Import ZArith Reals Lia Lra Psatz List Bool.
From Flocq Require Import Core.Core IEEE754.BinarySingleNaN.
From Verif Require Import Base FloatBase Literals Traits Trig FixedPrim FixedImpl Spec
  Lemmas ScalarProofs ScalarProofs2 WrapProofs NiirfZ SinReal.
Open Scope Z_scope.

(** ** truncated powers *)
Fixpoint pw (q z : Z) (k : nat) : Z :=
  match k with O => z | S j => pw q z j * z / q end.
Fixpoint perr (k : nat) : R :=
  match k with O => 0%R | S j => (15711 / 10000 * perr j + 1)%R end.
Lemma perr_pos : forall k, (0 <= perr k)%R.
Proof. induction k; cbn [perr]; lra. Qed.

Lemma floor_real : forall a q, 0 < q -> (IZR a / IZR q - 1 < IZR (a / q) <= IZR a / IZR q)%R.
Proof.
  intros a q P. pose proof (Z.div_mod a q ltac:(lia)) as E. pose proof (Z.mod_pos_bound a q P) as B.
  assert (Q : (0 < IZR q)%R) by (apply IZR_lt; auto).
  assert (V : (IZR a = IZR q * IZR (a / q) + IZR (a mod q))%R) by (rewrite <- mult_IZR, <- plus_IZR; f_equal; auto).
  destruct B as [B0 B1]. apply IZR_le in B0. apply IZR_lt in B1.
  assert (V2 : (IZR a / IZR q = IZR (a / q) + IZR (a mod q) / IZR q)%R).
  { set (d := IZR (a / q)) in *. rewrite V. field. lra. }
  assert (0 <= IZR (a mod q) / IZR q < 1)%R.
  { split; [apply Rmult_le_pos; [lra | apply Rlt_le, Rinv_0_lt_compat; lra]|]. apply Rmult_lt_reg_r with (IZR q); auto. unfold Rdiv. rewrite Rmult_assoc, Rinv_l by lra. lra. }
  lra.
Qed.

Section Pow.
Variables (q z : Z).
Hypothesis Q : 0 < q.
Hypothesis Z1 : 10000 * Z.abs z <= 15711 * q.
Notation v := (IZR z / IZR q)%R.

Lemma q_real : (0 < IZR q)%R. Proof using Q. apply IZR_lt; auto. Qed.
Lemma v_bound : (Rabs v <= 15711 / 10000)%R.
Proof using Q Z1.
  pose proof q_real. apply IZR_le in Z1. rewrite !mult_IZR, abs_IZR in Z1.
  unfold Rdiv. rewrite Rabs_mult, Rabs_inv, (Rabs_pos_eq (IZR q)) by lra.
  apply Rmult_le_reg_r with (IZR q); auto. rewrite Rmult_assoc, Rinv_l by lra. lra.
Qed.

Lemma pw_err : forall k, (Rabs (IZR (pw q z k) - IZR q * v ^ (S k)) <= perr k)%R.
Proof using Q Z1.
  pose proof q_real as Qr. pose proof v_bound as V.
  induction k as [|k IH].
  - cbn [pw perr pow]. replace (IZR z - IZR q * (v * 1))%R with 0%R by (field; lra). rewrite Rabs_R0. lra.
  - cbn [pw perr]. pose proof (floor_real (pw q z k * z) q Q) as F. rewrite mult_IZR in F.
    replace (IZR (pw q z k) * IZR z / IZR q)%R with (IZR (pw q z k) * v)%R in F by (field; lra).
    change (v ^ S (S k))%R with (v * v ^ S k)%R. set (P := IZR (pw q z k)) in *. set (w := (v ^ S k)%R) in *.
    set (fl := IZR (pw q z k * z / q)) in *.
    replace (fl - IZR q * (v * w))%R with ((fl - P * v) + v * (P - IZR q * w))%R by ring.
    eapply Rle_trans; [apply Rabs_triang|]. rewrite Rabs_mult.
    assert (Rabs (fl - P * v) <= 1)%R by (apply Rabs_le; lra).
    assert (Rabs v * Rabs (P - IZR q * w) <= 15711 / 10000 * perr k)%R by (apply Rmult_le_compat; auto using Rabs_pos).
    lra.
Qed.

Lemma pw_abs : forall k, (Rabs (IZR (pw q z k)) <= IZR q * ((15711 / 10000) ^ S k + perr k))%R.
Proof using Q Z1.
  intros k. pose proof (pw_err k) as E. pose proof q_real as Qr. pose proof v_bound as V. pose proof (perr_pos k) as PP.
  assert (Q1 : (1 <= IZR q)%R) by (apply IZR_le; lia).
  assert (A : (Rabs (v ^ S k) <= (15711 / 10000) ^ S k)%R).
  { rewrite <- RPow_abs. apply pow_incr. split; auto using Rabs_pos. }
  replace (IZR (pw q z k)) with ((IZR (pw q z k) - IZR q * v ^ S k) + IZR q * v ^ S k)%R by ring.
  eapply Rle_trans; [apply Rabs_triang|]. rewrite (Rabs_mult (IZR q)), (Rabs_pos_eq (IZR q)) by lra.
  assert (IZR q * Rabs (v ^ S k) <= IZR q * (15711 / 10000) ^ S k)%R by (apply Rmult_le_compat_l; lra).
  assert (1 * perr k <= IZR q * perr k)%R by (apply Rmult_le_compat_r; lra). lra.
Qed.

Lemma pw_nonneg : 0 <= z -> forall k, 0 <= pw q z k.
Proof using Q. clear Z1. intros Hz. induction k; cbn [pw]; auto. apply Z.div_pos; nia. Qed.
Lemma pw_nonpos : z <= 0 -> forall k, 
  (Nat.even k = true -> pw q z k <= 0) /\ (Nat.even k = false -> 0 <= pw q z k).
Proof using Q. clear Z1.
  intros Hz. induction k as [|k [I1 I2]]; [cbn [pw]; split; intros; [lia|discriminate]|].
  cbn [pw]. rewrite Nat.even_succ, <- Nat.negb_even. destruct (Nat.even k) eqn:Ev; simpl; split; intros; try discriminate.
  - apply Z.div_pos; auto. specialize (I1 eq_refl). nia.
  - specialize (I2 eq_refl). apply Z.div_le_upper_bound; nia.
Qed.
End Pow.

(** the quotient by a small integer *)
Lemma quot_nonneg : forall p c, 0 <= p -> 0 < c -> (IZR p / IZR c - 1 < IZR (Z.quot p c) <= IZR p / IZR c)%R.
Proof. intros. rewrite Z.quot_div_nonneg by auto. apply floor_real; auto. Qed.
Lemma quot_nonpos : forall p c, p <= 0 -> 0 < c -> (IZR p / IZR c <= IZR (Z.quot p c) < IZR p / IZR c + 1)%R.
Proof.
  intros p c Hp Hc. replace p with (- (- p)) by lia. rewrite Z.quot_opp_l by lia.
  pose proof (quot_nonneg (- p) c ltac:(lia) Hc) as A. rewrite !opp_IZR in *. unfold Rdiv in *. lra.
Qed.
Lemma quot_scale : forall p c q, 0 < q -> 0 < c -> Z.quot (p * q) (c * q) = Z.quot p c.
Proof. intros. apply Z.quot_mul_cancel_r; lia. Qed.
Lemma quot_abs : forall p c, 0 < c -> Z.abs (Z.quot p c) <= Z.abs p.
Proof.
  intros p c H. rewrite <- Z.quot_abs by lia. rewrite (Z.abs_eq c) by lia.
  rewrite Z.quot_div_nonneg by lia. apply Z.div_le_upper_bound; nia.
Qed.

(** ** the sine on bits *)
Definition zfold (p x : Z) : Z :=
  let h := p / 2 in if x <? - h then - h - (x + h) else if h <? x then h - (x - h) else x.
Definition zpoly (q z : Z) : Z :=
  z - Z.quot (pw q z 2) 6 + Z.quot (pw q z 4) 120 - Z.quot (pw q z 6) 5040 + Z.quot (pw q z 8) 362880.

Lemma zpoly_err : forall q z, 0 < q -> 10000 * Z.abs z <= 15711 * q ->
  (Rabs (IZR (zpoly q z) - IZR q * P9 (IZR z / IZR q)) <= 252 / 100)%R.
Proof.
  intros q z Q H. pose proof (q_real q Q) as Qr.
  pose proof (pw_err q z Q H 2) as E2. pose proof (pw_err q z Q H 4) as E4.
  pose proof (pw_err q z Q H 6) as E6. pose proof (pw_err q z Q H 8) as E8.
  cbn [perr] in E2, E4, E6, E8. unfold zpoly. rewrite plus_IZR, minus_IZR, plus_IZR, minus_IZR.
  assert (Z0 : (IZR z = IZR q * (IZR z / IZR q))%R) by (field; lra).
  set (v := (IZR z / IZR q)%R) in *. unfold P9.
  set (v3 := (v ^ 3)%R) in *. set (v5 := (v ^ 5)%R) in *. set (v7 := (v ^ 7)%R) in *. set (v9 := (v ^ 9)%R) in *.
  apply Rabs_le_inv in E2, E4, E6, E8.
  replace (IZR q * (v - v3 / 6 + v5 / 120 - v7 / 5040 + v9 / 362880))%R with
    (IZR q * v - IZR q * v3 / 6 + IZR q * v5 / 120 - IZR q * v7 / 5040 + IZR q * v9 / 362880)%R by field.
  rewrite <- Z0.
  set (a3 := (IZR q * v3)%R) in *. set (a5 := (IZR q * v5)%R) in *. set (a7 := (IZR q * v7)%R) in *. set (a9 := (IZR q * v9)%R) in *.
  destruct (Z_le_dec 0 z) as [S|S].
  - pose proof (quot_nonneg _ 6 (pw_nonneg q z Q S 2) ltac:(lia)).
    pose proof (quot_nonneg _ 120 (pw_nonneg q z Q S 4) ltac:(lia)).
    pose proof (quot_nonneg _ 5040 (pw_nonneg q z Q S 6) ltac:(lia)).
    pose proof (quot_nonneg _ 362880 (pw_nonneg q z Q S 8) ltac:(lia)).
    apply Rabs_le. lra.
  - assert (S' : z <= 0) by lia.
    pose proof (quot_nonpos _ 6 (proj1 (pw_nonpos q z Q S' 2) eq_refl) ltac:(lia)).
    pose proof (quot_nonpos _ 120 (proj1 (pw_nonpos q z Q S' 4) eq_refl) ltac:(lia)).
    pose proof (quot_nonpos _ 5040 (proj1 (pw_nonpos q z Q S' 6) eq_refl) ltac:(lia)).
    pose proof (quot_nonpos _ 362880 (proj1 (pw_nonpos q z Q S' 8) eq_refl) ltac:(lia)).
    apply Rabs_le. lra.
Qed.

Lemma pw_range : forall q z, 0 < q -> 10000 * Z.abs z <= 15711 * q -> forall k, (k <= 8)%nat -> Z.abs (pw q z k) <= 125 * q.
Proof.
  intros q z Q H k K. pose proof (pw_abs q z Q H k) as A. pose proof (q_real q Q) as Qr.
  apply le_IZR. rewrite abs_IZR, mult_IZR. eapply Rle_trans; [exact A|]. rewrite Rmult_comm. apply Rmult_le_compat_r; [lra|].
  do 9 (destruct k as [|k]; [cbn [pow perr]; lra|]). lia.
Qed.

(** ** half of pi *)
Lemma pi_real : forall f, fwf f -> (Rabs (IZR (pi_bits f) - PI * IZR (fone f)) <= / 2 + / 1000000000000000 * IZR (fone f))%R.
Proof.
  intros f W. pose proof (fx_bits_real f _ _ lit_pi (proj1 W)) as B. fold (pi_bits f) in B.
  rewrite lit_pi_value in B. pose proof pi_bounds as P. pose proof (fone_IZR_pos f (proj1 W)) as Q.
  change (2 ^ 51) with 2251799813685248 in B.
  set (l := (7074237752028440 / 2251799813685248)%R) in *.
  assert (D : (Rabs (l - PI) <= / 1000000000000000)%R) by (unfold l; apply Rabs_le; lra).
  replace (IZR (pi_bits f) - PI * IZR (fone f))%R with ((IZR (pi_bits f) - l * IZR (fone f)) + (l - PI) * IZR (fone f))%R by ring.
  eapply Rle_trans; [apply Rabs_triang|]. apply Rplus_le_compat; auto. rewrite Rabs_mult, (Rabs_pos_eq (IZR (fone f))) by lra.
  apply Rmult_le_compat_r; lra.
Qed.

Lemma half_pi_small : forall f, fwf f -> 10000 * (pi_bits f / 2) <= 15711 * fone f.
Proof.
  intros f W. destruct (Z_le_dec 10 (ffrac f)) as [L|L].
  - pose proof (pi_real f W) as P. apply Rabs_le_inv in P. pose proof pi_bounds as PB.
    assert (Q : 1024 <= fone f) by (unfold fone; change 1024 with (2 ^ 10); apply Z.pow_le_mono_r; lia).
    apply IZR_le in Q. pose proof (floor_real (pi_bits f) 2 ltac:(lia)) as F.
    apply le_IZR. rewrite !mult_IZR. set (qq := IZR (fone f)) in *. 
    assert (PI * qq <= 3141593 / 1000000 * qq)%R by (apply Rmult_le_compat_r; lra). lra.
  - assert (K : ffrac f = 0 \/ ffrac f = 1 \/ ffrac f = 2 \/ ffrac f = 3 \/ ffrac f = 4 \/ ffrac f = 5 \/ ffrac f = 6 \/
      ffrac f = 7 \/ ffrac f = 8 \/ ffrac f = 9) by (destruct W; lia).
    unfold pi_bits, fx_bits, fone, lit_pi.
    repeat (destruct K as [K|K]; [rewrite K; vm_compute; congruence|]). rewrite K; vm_compute; congruence.
Qed.

Section Sin.
Variables (m : mode) (f : fty).
Hypothesis W : fwf f.
Hypothesis S : fsigned f = true.
Notation q := (fone f).
Notation p := (pi_bits f).
Notation O := (fixed_ops m f).
Notation the_sin := (sin O (fixed_signed m f) (fixed_pi m f) (fixed_powi m f)).

Lemma half_pi_ok : forall A (k : Z -> Z -> res A), 
  (pi <- mixed_pi (fixed_pi m f) ;; two <- o_of_i32 O 2 ;; h <- o_div O pi two ;; k pi h) = k p (p / 2).
Proof using W S.
  intros. pose proof (pi_bits_bounds f W) as B. pose proof (fone_pos f (proj1 W)) as Q. pose proof (fone_le_max f W) as M.
  rewrite fixed_pi_eq by auto. cbn [bind o_of_i32 o_div fixed_ops]. unfold fx_of_int.
  rewrite fx_fin_ok by (apply fvalid_iff; rewrite S; lia). cbn [bind]. unfold fx_div.
  destruct (Z.eqb_spec (2 * q) 0); [lia|]. rewrite quot_scale by lia. rewrite Z.quot_div_nonneg by lia.
  rewrite fx_fin_ok; [reflexivity|]. apply fvalid_iff. rewrite S.
  assert (0 <= p / 2 <= p) by (split; [apply Z.div_pos; lia | apply Z.div_le_upper_bound; lia]). lia.
Qed.

Lemma half_pi_range : 2 * (p / 2) <= p <= 2 * (p / 2) + 1.
Proof using. clear. pose proof (Z.div_mod p 2 ltac:(lia)). pose proof (Z.mod_pos_bound p 2 ltac:(lia)). lia. Qed.

Lemma zfold_range : forall x, Z.abs x <= p -> Z.abs (zfold p x) <= p / 2.
Proof using W.
  intros x H. pose proof half_pi_range. pose proof (pi_bits_bounds f W). pose proof (fone_pos f (proj1 W)). unfold zfold.
  assert (1 <= p / 2) by (apply Z.div_le_lower_bound; lia).
  destruct (Z.ltb_spec x (- (p / 2))); [lia|]. destruct (Z.ltb_spec (p / 2) x); lia.
Qed.

Definition sin_head (x : Z) : res Z :=
  nph <- o_neg (fixed_signed m f) (p / 2) ;;
  (if o_lt O x nph then
           delta <- o_add O x (p / 2) ;;
           n <- o_neg (fixed_signed m f) (p / 2) ;;
           o_sub O n delta
         else if o_lt O (p / 2) x then
           delta <- o_sub O x (p / 2) ;;
           o_sub O (p / 2) delta
         else Ok x).

Lemma sin_head_ok : forall x, Z.abs x <= p -> sin_head x = Ok (zfold p x).
Proof using W S.
  intros x H. unfold sin_head. pose proof half_pi_range as HR. pose proof (pi_bits_bounds f W) as B. pose proof (fone_pos f (proj1 W)).
  pose proof (fone_le_max f W) as M. cbn [o_neg fixed_signed o_add o_sub fixed_ops]. unfold fx_neg.
  assert (V : forall z, Z.abs z <= p -> fx_fin m f z = Ok z) by (intros; apply fx_fin_ok; apply fvalid_iff; rewrite S; lia).
  rewrite V by lia. cbn [bind]. unfold o_lt. cbn [o_cmp fixed_ops]. unfold fx_cmp. unfold zfold, Z.ltb.
  assert (H1 : 1 <= p / 2) by lia. set (h := p / 2) in *. clearbody h.
  destruct (Z.compare_spec x (- h)) as [C1|C1|C1].
  - destruct (Z.compare_spec h x) as [C2|C2|C2]; auto. lia.
  - unfold fx_add, fx_sub. repeat (rewrite V by lia; cbn [bind]). auto.
  - destruct (Z.compare_spec h x) as [C2|C2|C2]; auto. unfold fx_sub. rewrite V by lia. cbn [bind]. rewrite V by lia. auto.
Qed.

Lemma sin_head_eq : forall x, the_sin x = (x_ <- sin_head x ;;
  p3 <- mixed_powi (fixed_powi m f) x_ 3 ;; c6 <- o_of_i32 O 6 ;; t3 <- o_div O p3 c6 ;; s3 <- o_sub O x_ t3 ;;
  p5 <- mixed_powi (fixed_powi m f) x_ 5 ;; c120 <- o_of_i32 O 120 ;; t5 <- o_div O p5 c120 ;; s5 <- o_add O s3 t5 ;;
  p7 <- mixed_powi (fixed_powi m f) x_ 7 ;; c5040 <- o_of_i32 O 5040 ;; t7 <- o_div O p7 c5040 ;; s7 <- o_sub O s5 t7 ;;
  p9 <- mixed_powi (fixed_powi m f) x_ 9 ;; c362880 <- o_of_i32 O 362880 ;; t9 <- o_div O p9 c362880 ;;
  o_add O s7 t9).
Proof using W S.
  intros x. unfold sin. rewrite half_pi_ok. unfold sin_head.
  destruct (o_neg (fixed_signed m f) (p / 2)); reflexivity.
Qed.

Hypothesis I20 : ffrac f <= fwidth f - 20.
Lemma room : 524288 * q <= 2 ^ (fwidth f - 1).
Proof using W I20.
  unfold fone. change 524288 with (2 ^ 19). rewrite <- Z.pow_add_r by (try apply W; lia). apply Z.pow_le_mono_r; lia.
Qed.
Lemma fits : forall z, Z.abs z <= 500000 * q -> fx_fin m f z = Ok z.
Proof using W S I20.
  intros. pose proof room. pose proof (fone_pos f (proj1 W)). apply fx_fin_ok. apply fvalid_iff. rewrite S. lia.
Qed.

Lemma powi_pw : forall z (k : nat), 10000 * Z.abs z <= 15711 * q -> (k <= 8)%nat ->
  powi O z (N.of_nat (Datatypes.S k)) = Ok (pw q z k).
Proof using W S I20.
  intros z k H K. pose proof (fone_pos f (proj1 W)) as Q. induction k as [|k IH].
  - change (N.of_nat 1) with 1%N. rewrite powi_1. reflexivity.
  - replace (N.of_nat (Datatypes.S (Datatypes.S k))) with (N.succ (N.succ (N.of_nat k))) by lia.
    rewrite powi_succ. replace (N.succ (N.of_nat k)) with (N.of_nat (Datatypes.S k)) by lia.
    rewrite IH by lia. cbn [bind pw]. unfold fx_mul. apply fits.
    pose proof (pw_range q z Q H (Datatypes.S k) K). cbn [pw] in *. lia.
Qed.
Lemma mpowi_pw : forall z (k : nat), 10000 * Z.abs z <= 15711 * q -> (k <= 8)%nat ->
  mixed_powi (fixed_powi m f) z (Z.of_nat (Datatypes.S k)) = Ok (pw q z k).
Proof using W S I20.
  intros. cbn [mixed_powi fixed_powi]. rewrite to_N_usize_nonneg by lia.
  replace (Z.to_N (Z.of_nat (Datatypes.S k))) with (N.of_nat (Datatypes.S k)) by lia. apply powi_pw; auto.
Qed.

Lemma sin_bits : forall x, Z.abs x <= p -> the_sin x = Ok (zpoly q (zfold p x)).
Proof using W S I20.
  intros x H. pose proof (fone_pos f (proj1 W)) as Q. rewrite sin_head_eq, sin_head_ok by auto. cbn [bind].
  pose proof (zfold_range x H) as Z1. pose proof (half_pi_small f W) as HP.
  set (z := zfold p x) in *. assert (Z2 : 10000 * Z.abs z <= 15711 * q) by lia.
  cbn [o_of_i32 o_div o_sub o_add fixed_ops]. unfold fx_of_int, fx_div, fx_sub, fx_add.
  change 3 with (Z.of_nat 3). rewrite mpowi_pw by (auto; lia). cbn [bind].
  change (mixed_powi (fixed_powi m f) z 5) with (mixed_powi (fixed_powi m f) z (Z.of_nat 5)). rewrite mpowi_pw by (auto; lia).
  change (mixed_powi (fixed_powi m f) z 7) with (mixed_powi (fixed_powi m f) z (Z.of_nat 7)). rewrite mpowi_pw by (auto; lia).
  change (mixed_powi (fixed_powi m f) z 9) with (mixed_powi (fixed_powi m f) z (Z.of_nat 9)). rewrite mpowi_pw by (auto; lia).
  pose proof (pw_range q z Q Z2 2 ltac:(lia)) as R2. pose proof (pw_range q z Q Z2 4 ltac:(lia)) as R4.
  pose proof (pw_range q z Q Z2 6 ltac:(lia)) as R6. pose proof (pw_range q z Q Z2 8 ltac:(lia)) as R8.
  pose proof (quot_abs (pw q z 2) 6 ltac:(lia)). pose proof (quot_abs (pw q z 4) 120 ltac:(lia)).
  pose proof (quot_abs (pw q z 6) 5040 ltac:(lia)). pose proof (quot_abs (pw q z 8) 362880 ltac:(lia)).
  rewrite (fits (6 * q)), (fits (120 * q)), (fits (5040 * q)), (fits (362880 * q)) by (clear - Q; lia). cbn [bind].
  destruct (Z.eqb_spec (6 * q) 0) as [N6|_]; [clear - N6 Q; lia|]. destruct (Z.eqb_spec (120 * q) 0) as [N120|_]; [clear - N120 Q; lia|].
  destruct (Z.eqb_spec (5040 * q) 0) as [N5040|_]; [clear - N5040 Q; lia|]. destruct (Z.eqb_spec (362880 * q) 0) as [N362880|_]; [clear - N362880 Q; lia|].
  rewrite !quot_scale by lia. unfold zpoly.
  set (t3 := Z.quot (pw q z 2) 6) in *. set (t5 := Z.quot (pw q z 4) 120) in *.
  set (t7 := Z.quot (pw q z 6) 5040) in *. set (t9 := Z.quot (pw q z 8) 362880) in *. clearbody t3 t5 t7 t9.
  assert (B3 : - (125 * q) <= t3 <= 125 * q) by (apply Z.abs_le; eapply Z.le_trans; [exact H0|exact R2]). assert (B5 : - (125 * q) <= t5 <= 125 * q) by (apply Z.abs_le; eapply Z.le_trans; [exact H1|exact R4]).
  assert (B7 : - (125 * q) <= t7 <= 125 * q) by (apply Z.abs_le; eapply Z.le_trans; [exact H2|exact R6]). assert (B9 : - (125 * q) <= t9 <= 125 * q) by (apply Z.abs_le; eapply Z.le_trans; [exact H3|exact R8]).
  assert (B0 : - (125 * q) <= z <= 125 * q) by (clear - Z2 Q; lia).
  clear - B0 B3 B5 B7 B9 Q W S I20.
  assert (F : forall a, - (125000 * q) <= a <= 125000 * q -> fx_fin m f a = Ok a) by (intros; apply fits; auto; lia).
  do 7 (rewrite F by lia; cbn [bind]). rewrite F by lia. reflexivity.
Qed.
End Sin.

(** ** accuracy *)
Section Acc.
Variables (m : mode) (f : fty).
Hypothesis W : fwf f.
Hypothesis S : fsigned f = true.
Hypothesis I20 : ffrac f <= fwidth f - 20.
Hypothesis F44 : ffrac f <= 44.
Notation q := (fone f).
Notation p := (pi_bits f).
Notation O := (fixed_ops m f).
Notation the_sin := (sin O (fixed_signed m f) (fixed_pi m f) (fixed_powi m f)).
Notation the_cos := (cos O (fixed_signed m f) (fixed_pi m f) (fixed_powi m f)).

Lemma q_le : (1 <= IZR q <= 17592186044416)%R.
Proof using W F44.
  split; [apply IZR_le; pose proof (fone_pos f (proj1 W)); lia|]. apply IZR_le. unfold fone.
  change 17592186044416 with (2 ^ 44). apply Z.pow_le_mono_r; lia.
Qed.
Lemma pi_near : (Rabs (IZR p - PI * IZR q) <= 52 / 100)%R.
Proof using W F44. pose proof q_le. eapply Rle_trans; [apply pi_real; auto|]. lra. Qed.
Lemma half_near : (Rabs (IZR (p / 2) - PI / 2 * IZR q) <= 76 / 100)%R.
Proof using W F44.
  pose proof pi_near as P. apply Rabs_le_inv in P. pose proof (half_pi_range f) as [H1 H2].
  apply IZR_le in H1, H2. rewrite plus_IZR in H2. rewrite !mult_IZR in *. apply Rabs_le.
  set (P1 := (PI * IZR q)%R) in *. replace (PI / 2 * IZR q)%R with (P1 / 2)%R by (unfold P1; field). lra.
Qed.

Lemma fold_sin : forall x, (Rabs (Rtrigo_def.sin (IZR (zfold p x) / IZR q) - Rtrigo_def.sin (IZR x / IZR q)) <= 152 / 100 * / IZR q)%R.
Proof using W F44.
  intros x. pose proof q_le as Q. pose proof half_near as H.
  assert (K : (Rabs (2 * IZR (p / 2) / IZR q - PI) <= 152 / 100 * / IZR q)%R).
  { replace (2 * IZR (p / 2) / IZR q - PI)%R with (2 * (IZR (p / 2) - PI / 2 * IZR q) * / IZR q)%R by (field; lra).
    assert (0 < / IZR q)%R by (apply Rinv_0_lt_compat; lra).
    rewrite Rabs_mult, (Rabs_pos_eq (/ IZR q)) by lra. apply Rmult_le_compat_r; [lra|]. rewrite Rabs_mult, (Rabs_pos_eq 2) by lra. lra. }
  unfold zfold. destruct (Z.ltb_spec x (- (p / 2))); [|destruct (Z.ltb_spec (p / 2) x)].
  - replace (Rtrigo_def.sin (IZR x / IZR q)) with (Rtrigo_def.sin (- PI - IZR x / IZR q)).
    2:{ replace (- PI - IZR x / IZR q)%R with (- (IZR x / IZR q + PI))%R by ring. rewrite sin_neg, neg_sin. ring. }
    eapply Rle_trans; [apply sin_lipschitz|]. eapply Rle_trans; [|exact K]. apply Req_le.
    rewrite minus_IZR, plus_IZR, opp_IZR. rewrite <- Rabs_Ropp. f_equal. field. lra.
  - replace (Rtrigo_def.sin (IZR x / IZR q)) with (Rtrigo_def.sin (PI - IZR x / IZR q)) by (rewrite sin_PI_x; reflexivity).
    eapply Rle_trans; [apply sin_lipschitz|]. eapply Rle_trans; [|exact K]. apply Req_le.
    rewrite !minus_IZR. f_equal. field. lra.
  - rewrite Rminus_diag_eq, Rabs_R0 by reflexivity. apply Rmult_le_pos; [lra|]. apply Rlt_le, Rinv_0_lt_compat. lra.
Qed.

Lemma sin_acc : forall x, Z.abs x <= p -> exists r, the_sin x = Ok r /\
  (Rabs (fval f r - Rtrigo_def.sin (fval f x)) <= 362 / 100000000 + 405 / 100 * ulp f)%R.
Proof using W S I20 F44.
  intros x H. exists (zpoly q (zfold p x)). split; [apply sin_bits; auto|].
  rewrite !fval_eq, ulp_eq by apply W. pose proof q_le as Q. pose proof (fold_sin x) as FS.
  pose proof (zfold_range f W x H) as Z1. pose proof (half_pi_small f W) as HP.
  set (z := zfold p x) in *. assert (Z2 : 10000 * Z.abs z <= 15711 * q) by lia.
  assert (Q0 : 0 < q) by (apply fone_pos; apply W).
  pose proof (zpoly_err q z Q0 Z2) as E. pose proof (taylor _ (v_bound q z Q0 Z2)) as T.
  assert (U : (0 < / IZR q)%R) by (apply Rinv_0_lt_compat; lra).
  assert (E' : (Rabs (IZR (zpoly q z) / IZR q - P9 (IZR z / IZR q)) <= 252 / 100 * / IZR q)%R).
  { replace (IZR (zpoly q z) / IZR q - P9 (IZR z / IZR q))%R with ((IZR (zpoly q z) - IZR q * P9 (IZR z / IZR q)) * / IZR q)%R by (field; lra).
    rewrite Rabs_mult, (Rabs_pos_eq (/ IZR q)) by lra. apply Rmult_le_compat_r; lra. }
  apply Rabs_le_inv in FS, T, E'. apply Rabs_le. lra.
Qed.

(** every angle up to the real number pi is covered *)
Lemma below_pi : forall x, (Rabs (fval f x) <= PI)%R -> Z.abs x <= p.
Proof using W F44.
  intros x H. rewrite fval_eq in H by apply W. pose proof q_le as Q. pose proof pi_near as P. apply Rabs_le_inv in P.
  assert (H' : (Rabs (IZR x) <= PI * IZR q)%R).
  { unfold Rdiv in H. rewrite Rabs_mult, Rabs_inv, (Rabs_pos_eq (IZR q)) in H by lra.
    apply Rmult_le_compat_r with (r := IZR q) in H; [|lra]. rewrite Rmult_assoc, Rinv_l in H by lra. lra. }
  rewrite <- abs_IZR in H'. assert (Z.abs x < p + 1); [|lia]. apply lt_IZR. rewrite plus_IZR. lra.
Qed.

Lemma cos_acc : forall x, fvalid f (x + p / 2) -> exists r, returns (fun fuel => the_cos fuel x) r /\
  (Rabs (fval f r - Rtrigo_def.cos (fval f x)) <= 362 / 100000000 + (6 + Rabs (fval f x) / 5) * ulp f)%R.
Proof using W S I20 F44.
  intros x V. destruct (wrap_phase_fixed m f W S ltac:(right; lia) (x + p / 2) V) as [y [[n0 R] [Y1 [k Y2]]]].
  pose proof (pi_bits_bounds f W) as PB. pose proof (fone_pos f (proj1 W)) as Q0.
  destruct (sin_acc y ltac:(lia)) as [r [E A]]. exists r. split.
  - exists n0. intros n Hn. unfold cos. rewrite half_pi_ok by auto. cbn [o_add fixed_ops]. unfold fx_add.
    rewrite fx_fin_ok by auto. cbn [bind]. specialize (R n Hn). cbn [mixed_wrap_phase fixed_wrap_phase] in R. rewrite R. exact E.
  - pose proof q_le as Q. pose proof half_near as HN. pose proof pi_near as PN.
    rewrite !fval_eq, ulp_eq in * by apply W. set (v := (IZR x / IZR q)%R) in *.
    assert (U : (0 < / IZR q)%R) by (apply Rinv_0_lt_compat; lra).
    (* the number of turns *)
    assert (K : (Rabs (IZR k) <= 76 / 100 + Rabs v / 6)%R).
    { assert (K1 : Z.abs k * (2 * p) <= Z.abs x + p / 2 + p).
      { rewrite <- (Z.abs_eq (2 * p)) by lia. rewrite <- Z.abs_mul, <- Y2. pose proof (Z.div_pos p 2 ltac:(lia) ltac:(lia)). lia. }
      assert (K2 : Z.abs k * (4 * p) <= 2 * Z.abs x + 3 * p) by (pose proof (half_pi_range f); lia).
      apply IZR_le in K2. rewrite plus_IZR, !mult_IZR, !abs_IZR in K2.
      assert (X : (Rabs (IZR x) = Rabs v * IZR q)%R).
      { unfold v, Rdiv. rewrite Rabs_mult, Rabs_inv, (Rabs_pos_eq (IZR q)) by lra. field. lra. }
      rewrite X in K2. assert (P3 : (3 * IZR q <= IZR p)%R) by (rewrite <- mult_IZR; apply IZR_le; lia).
      pose proof (Rabs_pos v). 
      assert (Rabs v * IZR q <= Rabs v * (IZR p / 3))%R by (apply Rmult_le_compat_l; lra).
      apply Rmult_le_reg_r with (4 * IZR p)%R; lra. }
    (* the reduced argument *)
    assert (D : (Rabs (IZR y / IZR q - (v + PI / 2 - 2 * IZR k * PI)) <= (76 / 100 + 104 / 100 * Rabs (IZR k)) * / IZR q)%R).
    { assert (Y : y = x + p / 2 - k * (2 * p)) by lia. rewrite Y, minus_IZR, plus_IZR, !mult_IZR.
      replace ((IZR x + IZR (p / 2) - IZR k * (2 * IZR p)) / IZR q - (v + PI / 2 - 2 * IZR k * PI))%R with
        (((IZR (p / 2) - PI / 2 * IZR q) - 2 * IZR k * (IZR p - PI * IZR q)) * / IZR q)%R by (unfold v; field; lra).
      rewrite Rabs_mult, (Rabs_pos_eq (/ IZR q)) by lra. apply Rmult_le_compat_r; [lra|].
      eapply Rle_trans; [apply Rabs_triang|]. rewrite Rabs_Ropp, !Rabs_mult, (Rabs_pos_eq 2) by lra.
      assert (Rabs (IZR k) * Rabs (IZR p - PI * IZR q) <= Rabs (IZR k) * (52 / 100))%R by (apply Rmult_le_compat_l; auto using Rabs_pos).
      lra. }
    assert (C : Rtrigo_def.cos v = Rtrigo_def.sin (v + PI / 2 - 2 * IZR k * PI)).
    { rewrite <- sin_shift. destruct (Z_le_dec 0 k) as [L|L].
      - rewrite <- (sin_period (v + PI / 2 - 2 * IZR k * PI) (Z.to_nat k)). rewrite INR_IZR_INZ, Z2Nat.id by auto.
        replace (v + PI / 2 - 2 * IZR k * PI + 2 * IZR k * PI)%R with (PI - (PI / 2 - v))%R by field. apply eq_sym, sin_PI_x.
      - replace (v + PI / 2 - 2 * IZR k * PI)%R with (v + PI / 2 + 2 * INR (Z.to_nat (- k)) * PI)%R.
        + rewrite sin_period. replace (v + PI / 2)%R with (PI - (PI / 2 - v))%R by field. apply eq_sym, sin_PI_x.
        + rewrite INR_IZR_INZ, Z2Nat.id, opp_IZR by lia. ring. }
    rewrite C. pose proof (sin_lipschitz (IZR y / IZR q) (v + PI / 2 - 2 * IZR k * PI)) as L.
    assert (B : ((76 / 100 + 104 / 100 * Rabs (IZR k)) * / IZR q <= (195 / 100 + Rabs v / 5) * / IZR q)%R).
    { apply Rmult_le_compat_r; [lra|]. pose proof (Rabs_pos v). lra. }
    replace (IZR r / IZR q - Rtrigo_def.sin (v + PI / 2 - 2 * IZR k * PI))%R with
      ((IZR r / IZR q - Rtrigo_def.sin (IZR y / IZR q)) + (Rtrigo_def.sin (IZR y / IZR q) - Rtrigo_def.sin (v + PI / 2 - 2 * IZR k * PI)))%R by ring.
    eapply Rle_trans; [apply Rabs_triang|]. lra.
Qed.

Lemma cos_overflow : m = Debug -> forall x, ~ fvalid f (x + p / 2) -> forall fuel, the_cos fuel x = Panic POverflow.
Proof using W S.
  intros Em x V fuel. unfold cos. rewrite half_pi_ok by auto. cbn [o_add fixed_ops]. unfold fx_add, fx_fin. rewrite Em.
  rewrite fin_debug_over by auto. reflexivity.
Qed.
End Acc.

(** ** too few integer bits *)
Definition ok_or (pn : panic) {A} (r : res A) : Prop := (exists a, r = Ok a) \/ r = Panic pn.
Lemma bind_panics : forall pn A B (r : res A) (k : A -> res B), ok_or pn r ->
  (forall a, r = Ok a -> k a = Panic pn) -> bind r k = Panic pn.
Proof. intros pn A B r k [[a ->]| ->] H; cbn; auto. Qed.
Lemma for_ok_or : forall pn A (n : N) (b : A -> res A) s, (forall a, ok_or pn (b a)) -> ok_or pn (for_n n b s).
Proof.
  intros pn A n b s H. unfold for_n. induction n using N.peano_ind.
  - left. exists s. reflexivity.
  - rewrite N.iter_succ. destruct IHn as [[a ->]| ->]; cbn; auto. right. reflexivity.
Qed.

Section Few.
Variable f : fty.
Hypothesis W : fwf f.
Hypothesis S : fsigned f = true.
Notation q := (fone f).
Notation p := (pi_bits f).
Notation the_sin m := (sin (fixed_ops m f) (fixed_signed m f) (fixed_pi m f) (fixed_powi m f)).

Lemma fin_ok_or : forall z, ok_or POverflow (fx_fin Debug f z).
Proof. intros. unfold fx_fin, fin. destruct (in_rangeb (fity f) z); [left; eauto | right; reflexivity]. Qed.
Lemma powi_ok_or : forall z n, ok_or POverflow (mixed_powi (fixed_powi Debug f) z n).
Proof.
  intros. cbn [mixed_powi fixed_powi]. unfold powi. destruct (N.eqb _ _); [apply fin_ok_or|].
  apply for_ok_or. intros. apply fin_ok_or.
Qed.
Lemma int_fits : forall z c, fx_of_int Debug f z = Ok c -> c = z * q /\ fvalid f (z * q).
Proof.
  intros z c H. unfold fx_of_int, fx_fin in H. apply fin_debug_inv in H. destruct H. split; auto.
Qed.
Lemma div_ok_or : forall a z c, 0 < z -> fx_of_int Debug f z = Ok c -> ok_or POverflow (fx_div Debug f a c).
Proof using W.
  intros a z c Hz H. apply int_fits in H. destruct H as [-> _]. unfold fx_div. pose proof (fone_pos f (proj1 W)).
  destruct (Z.eqb_spec (z * q) 0); [nia|]. apply fin_ok_or.
Qed.

Lemma sin_debug_panics : fwidth f - 20 < ffrac f -> forall x, the_sin Debug x = Panic POverflow.
Proof using W S.
  intros L x. rewrite sin_head_eq by auto. cbn [o_of_i32 o_div o_sub o_add fixed_ops].
  apply bind_panics.
  { unfold sin_head. cbn [o_neg fixed_signed]. destruct (fin_ok_or (- (p / 2))) as [[a E]|E]; unfold fx_neg; rewrite E; cbn [bind]; [|right; reflexivity].
    repeat match goal with |- context [if ?c then _ else _] => destruct c end; try (left; eauto; fail).
    - cbn [o_add o_sub fixed_ops]. unfold fx_add, fx_sub. destruct (fin_ok_or (x + p / 2)) as [[b ->]| ->]; cbn [bind]; [|right; reflexivity]. apply fin_ok_or.
    - cbn [o_add o_sub fixed_ops]. unfold fx_add, fx_sub. destruct (fin_ok_or (x - p / 2)) as [[b ->]| ->]; cbn [bind]; [|right; reflexivity]. apply fin_ok_or. }
  intros z _.
  apply bind_panics; [apply powi_ok_or|]; intros p3 _. apply bind_panics; [apply fin_ok_or|]; intros c6 C6.
  apply bind_panics; [apply (div_ok_or _ 6); auto; lia|]; intros t3 _. apply bind_panics; [apply fin_ok_or|]; intros s3 _.
  apply bind_panics; [apply powi_ok_or|]; intros p5 _. apply bind_panics; [apply fin_ok_or|]; intros c120 C120.
  apply bind_panics; [apply (div_ok_or _ 120); auto; lia|]; intros t5 _. apply bind_panics; [apply fin_ok_or|]; intros s5 _.
  apply bind_panics; [apply powi_ok_or|]; intros p7 _. apply bind_panics; [apply fin_ok_or|]; intros c5040 C5040.
  apply bind_panics; [apply (div_ok_or _ 5040); auto; lia|]; intros t7 _. apply bind_panics; [apply fin_ok_or|]; intros s7 _.
  apply bind_panics; [apply powi_ok_or|]; intros p9 _. apply bind_panics; [apply fin_ok_or|]; intros c9 C9.
  exfalso. apply int_fits in C9. destruct C9 as [_ V]. apply fvalid_iff in V. rewrite S in V.
  assert (2 ^ (fwidth f - 1) <= 262144 * q).
  { unfold fone. change 262144 with (2 ^ 18). rewrite <- Z.pow_add_r by (try apply W; lia). apply Z.pow_le_mono_r; lia. }
  pose proof (fone_pos f (proj1 W)). lia.
Qed.

(** *** release builds *)
Lemma fin_release : forall z, exists a, fx_fin Release f z = Ok a.
Proof. intros. unfold fx_fin, fin. destruct (in_rangeb (fity f) z); eauto. Qed.
Lemma fin_release_congr : forall z a, fx_fin Release f z = Ok a -> exists k, a = z + k * 2 ^ fwidth f.
Proof using W. clear S.
  intros z a H. unfold fx_fin, fin in H. destruct (in_rangeb (fity f) z).
  - inversion H. exists 0. lia.
  - inversion H. unfold wrap. cbn [isigned iwidth fity].
    assert (P : 2 ^ fwidth f <> 0) by (apply Z.pow_nonzero; destruct W; lia).
    destruct (fsigned f).
    + pose proof (Z.div_mod (z + 2 ^ (fwidth f - 1)) (2 ^ fwidth f) P). exists (- ((z + 2 ^ (fwidth f - 1)) / 2 ^ fwidth f)). lia.
    + pose proof (Z.div_mod z (2 ^ fwidth f) P). exists (- (z / 2 ^ fwidth f)). lia.
Qed.
Lemma int_release : forall z, exists a, fx_of_int Release f z = Ok a /\ (a = 0 <-> z mod 2 ^ (fwidth f - ffrac f) = 0).
Proof using W S.
  intros z. destruct (fin_release (z * q)) as [a E]. exists a. split; auto.
  destruct (fin_release_congr _ _ E) as [k K].
  assert (V : fvalid f a).
  { unfold fx_fin, fin in E. destruct (in_rangeb (fity f) (z * q)) eqn:B; inversion E; subst.
    - apply in_rangeb_spec in B. exact B.
    - apply wrap_range. cbn. destruct W; lia. }
  apply fvalid_iff in V. rewrite S in V. destruct W as [W1 W2].
  assert (P : 2 ^ fwidth f = 2 ^ (fwidth f - ffrac f) * q) by (unfold fone; rewrite <- Z.pow_add_r by lia; f_equal; lia).
  pose proof (half_le_full (fwidth f) ltac:(lia)). pose proof (fone_pos f W1) as Q.
  assert (M : 0 < 2 ^ (fwidth f - ffrac f)) by (apply Z.pow_pos_nonneg; lia).
  set (M' := 2 ^ (fwidth f - ffrac f)) in *. rewrite P in K. split; intros H0.
  - rewrite H0 in K. assert (z = (- k) * M') by nia. rewrite H1. apply Z.mod_mul. lia.
  - apply Z.mod_divide in H0; [|lia]. destruct H0 as [j ->].
    assert (E2 : a = (j + k) * (M' * q)) by (rewrite K; ring). rewrite <- P in E2. set (FF := 2 ^ fwidth f) in *. set (HH := 2 ^ (fwidth f - 1)) in *. destruct (Z.eq_dec (j + k) 0) as [J|J]; [rewrite E2, J; lia|]. exfalso. clear - E2 J V H. nia.
Qed.
Lemma powi_release : forall z n, exists a, mixed_powi (fixed_powi Release f) z n = Ok a.
Proof.
  intros. cbn [mixed_powi fixed_powi]. unfold powi. destruct (N.eqb _ _); [apply fin_release|].
  set (N := (_ - 1)%N). generalize N. intros k. unfold for_n. induction k as [|k [a IH]] using N.peano_ind; [eexists; reflexivity|].
  rewrite N.iter_succ, IH. cbn [bind]. apply fin_release.
Qed.
Lemma sin_head_release : forall x, exists z, sin_head Release f x = Ok z.
Proof.
  intros x. unfold sin_head. cbn [o_neg fixed_signed o_add o_sub fixed_ops]. unfold fx_neg, fx_add, fx_sub.
  destruct (fin_release (- (p / 2))) as [a ->]. cbn [bind].
  destruct (fin_release (x + p / 2)) as [b ->]. destruct (fin_release (x - p / 2)) as [c ->]. cbn [bind].
  repeat match goal with |- context [if ?c then _ else _] => destruct c end; eauto using fin_release.
Qed.

Lemma sin_release : forall x,
  (fwidth f - ffrac f <= 7 -> the_sin Release x = Panic PDivZero) /\
  (8 <= fwidth f - ffrac f -> exists r, the_sin Release x = Ok r).
Proof using W S.
  intros x. rewrite sin_head_eq by auto. destruct (sin_head_release x) as [z ->]. cbn [bind].
  destruct (powi_release z 3) as [p3 ->]. destruct (powi_release z 5) as [p5 ->].
  destruct (powi_release z 7) as [p7 ->]. destruct (powi_release z 9) as [p9 ->].
  cbn [o_of_i32 o_div o_sub o_add fixed_ops].
  destruct (int_release 6) as [c6 [-> Z6]]. destruct (int_release 120) as [c120 [-> Z120]].
  destruct (int_release 5040) as [c5040 [-> Z5040]]. destruct (int_release 362880) as [c9 [-> Z9]].
  cbn [bind]. unfold fx_div, fx_add, fx_sub.
  assert (T : forall a b, ok_or PDivZero (if b =? 0 then Panic PDivZero else fx_fin Release f (Z.quot (a * q) b))).
  { intros. destruct (b =? 0); [right; reflexivity | left; apply fin_release]. }
  split; intros L.
  - assert (E9 : c9 = 0).
    { apply Z9. assert (K : fwidth f - ffrac f = 3 \/ fwidth f - ffrac f = 4 \/ fwidth f - ffrac f = 5 \/ fwidth f - ffrac f = 6 \/ fwidth f - ffrac f = 7)
        by (destruct W; lia).
      repeat (destruct K as [K|K]; [rewrite K; reflexivity|]). rewrite K; reflexivity. }
    rewrite E9. cbn [Z.eqb].
    repeat (apply bind_panics; [first [apply T | left; apply fin_release]|]; intros). reflexivity.
  - assert (NZ : forall c, c mod 2 ^ (fwidth f - ffrac f) = 0 -> c mod 256 = 0).
    { intros c H. assert (M : 0 < 2 ^ (fwidth f - ffrac f)) by (apply Z.pow_pos_nonneg; lia).
      apply Z.mod_divide in H; [|lia]. destruct H as [j ->].
      replace (fwidth f - ffrac f) with ((fwidth f - ffrac f - 8) + 8) by lia. rewrite Z.pow_add_r by lia.
      change (2 ^ 8) with 256. rewrite Z.mul_assoc. apply Z.mod_mul. lia. }
    assert (C : forall z c (Hz : c = 0 <-> z mod 2 ^ (fwidth f - ffrac f) = 0), (z mod 256 =? 0) = false -> (c =? 0) = false).
    { intros zz c Hz H. apply Z.eqb_neq. intros E. apply Hz in E. apply NZ in E. rewrite E in H. discriminate. }
    rewrite (C _ _ Z6), (C _ _ Z120), (C _ _ Z5040), (C _ _ Z9) by reflexivity.
    repeat match goal with |- context [fx_fin Release f ?z] => first [destruct (fin_release z) as [? ->]; cbn [bind]] end; eauto.
Qed.
End Few.
