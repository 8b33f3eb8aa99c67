(** * Order and exactness of the NIIRF square root in formats with few fractional bits. *)

From Coq Require Import ZArith Reals Lia Lra Psatz List Bool.
From Flocq Require Import Core.Core IEEE754.BinarySingleNaN.
From Verif Require Import Base FloatBase Literals Traits Trig FixedPrim FixedImpl Spec
  Lemmas ScalarProofs ScalarProofs2 WrapProofs SqrtReal NiirfZ NiirfFixed NiirfFixed2 NiirfFixed3 NiirfFixed4 NiirfMore.
Import ListNotations.
Open Scope Z_scope.

Definition rootb (f : fty) (X : Z) : Z := ziter 1 (fone f) (beta_bits f X) X (start f X).

(** ** the normalisation is monotone *)
Lemma normed_mono : forall f X n X1 Y m X2, 0 < fone f -> 0 < X -> X <= Y -> normed f X n X1 -> normed f Y m X2 ->
  n < m \/ n = m /\ X1 <= X2.
Proof.
  intros f X n X1 Y m X2 Q X0 XY (_ & L1 & U1 & D1) (_ & L2 & U2 & D2).
  assert (NM : n <= m).
  { destruct (Z_le_gt_dec n m) as [H|H]; auto. exfalso.
    destruct D1 as [[N1 D1]|[N1 D1]], D2 as [[N2 D2]|[N2 D2]].
    - assert (P : 4 ^ (- m) = 4 * 4 ^ (- n) * 4 ^ (n - m - 1)).
      { change 4 with (4 ^ 1) at 2. rewrite <- !Z.pow_add_r by lia. f_equal. lia. }
      assert (0 < 4 ^ (n - m - 1)) by (apply Z.pow_pos_nonneg; lia). assert (0 < 4 ^ (- n)) by (apply Z.pow_pos_nonneg; lia).
      assert (X1 <= Y * 4 ^ (- n)) by (rewrite D1; apply Z.mul_le_mono_nonneg_r; lia). rewrite P in D2.
      assert (E : X2 = 4 * (Y * 4 ^ (- n)) * 4 ^ (n - m - 1)) by (rewrite D2; ring). set (u := Y * 4 ^ (- n)) in *. nia.
    - lia.
    - assert (4 ^ 1 <= 4 ^ (- m)) by (apply Z.pow_le_mono_r; lia). assert (0 < 4 ^ n) by (apply Z.pow_pos_nonneg; lia).
      assert (X1 <= X) by (rewrite D1; apply Z.div_le_upper_bound; nia). change (4 ^ 1) with 4 in *. nia.
    - assert (P : 4 ^ n = 4 ^ m * 4 * 4 ^ (n - m - 1)).
      { change 4 with (4 ^ 1) at 3. rewrite <- !Z.pow_add_r by lia. f_equal. lia. }
      assert (0 < 4 ^ (n - m - 1)) by (apply Z.pow_pos_nonneg; lia). assert (0 < 4 ^ m) by (apply Z.pow_pos_nonneg; lia).
      rewrite P, <- !Z.div_div in D1 by lia.
      assert (X / 4 ^ m <= X2) by (rewrite D2; apply Z.div_le_mono; lia). set (u := X / 4 ^ m) in *.
      assert (0 <= u) by (apply Z.div_pos; lia).
      assert (u / 4 * 4 <= u) by (rewrite Z.mul_comm; apply Z.mul_div_le; lia).
      assert (0 <= u / 4) by (apply Z.div_pos; lia).
      assert (X1 <= u / 4) by (rewrite D1; apply Z.div_le_upper_bound; nia). lia. }
  destruct (Z.eq_dec n m) as [<-|Ne]; [right|left; lia]. split; auto.
  destruct D1 as [[N1 ->]|[N1 ->]], D2 as [[N2 ->]|[N2 ->]]; try lia.
  - apply Z.mul_le_mono_nonneg_r; [apply Z.pow_nonneg|]; lia.
  - apply Z.div_le_mono; auto. apply Z.pow_pos_nonneg; lia.
Qed.

(** ** the denormalisation is monotone *)
Lemma scaled_mono : forall n y z, 0 <= y <= z -> scaled n y <= scaled n z.
Proof.
  intros n y z H. unfold scaled. destruct (Z.leb_spec 0 n).
  - apply Z.mul_le_mono_nonneg_r; [apply Z.pow_nonneg|]; lia.
  - apply Z.div_le_mono; [apply Z.pow_pos_nonneg|]; lia.
Qed.
Lemma scaled_succ : forall n y, scaled (n + 1) y = scaled n (2 * y).
Proof.
  intros n y. unfold scaled. destruct (Z.leb_spec 0 n), (Z.leb_spec 0 (n + 1)); try lia.
  - rewrite Z.pow_add_r by lia. ring.
  - replace n with (-1) by lia. change (2 ^ (- (-1))) with 2. change (2 ^ (-1 + 1)) with 1. rewrite (Z.mul_comm 2 y), Z.div_mul; lia.
  - replace (- n) with (1 + - (n + 1)) by lia. rewrite Z.pow_add_r by lia. change (2 ^ 1) with 2.
    rewrite Z.div_mul_cancel_l; auto; try lia; apply Z.pow_nonzero; lia.
Qed.
Lemma scaled_nonneg : forall n y, 0 <= y -> 0 <= scaled n y.
Proof.
  intros n y H. unfold scaled. destruct (Z.leb_spec 0 n); [apply Z.mul_nonneg_nonneg; auto; apply Z.pow_nonneg; lia|].
  apply Z.div_pos; auto. apply Z.pow_pos_nonneg; lia.
Qed.
Lemma scaled_le : forall n m y, 0 <= y -> n <= m -> scaled n y <= scaled m y.
Proof.
  intros n m y H L. replace m with (n + Z.of_nat (Z.to_nat (m - n))) by lia. induction (Z.to_nat (m - n)) as [|k IH].
  - rewrite Z.add_0_r. lia.
  - replace (n + Z.of_nat (S k)) with (n + Z.of_nat k + 1) by lia. rewrite scaled_succ.
    eapply Z.le_trans; [exact IH|]. apply scaled_mono. lia.
Qed.

(** ** the two facts that need the numbers, checked for 3 to 9 fractional bits *)
Definition ordb (f : fty) : bool :=
  let q := fone f in
  forallb (fun X => (4 * X <? q) || (q <=? X + 1) || (rootb f X <=? rootb f (X + 1))) (upto (Z.to_nat q)) &&
  (rootb f (q - 1) <=? 2 * rootb f (q / 4)).
Lemma ordb_all : forallb (fun k => ordb (mkFty true 64 (k + 3))) (upto 7) = true.
Proof. vm_compute. reflexivity. Qed.
Lemma ordb_ok : forall f, 3 <= ffrac f <= 9 -> ordb f = true.
Proof.
  intros [sg w F] H. cbn [ffrac] in H. pose proof ordb_all as A. rewrite forallb_forall in A.
  specialize (A (F - 3) (upto_in 7 (F - 3) ltac:(change (Z.of_nat 7) with 7; lia))). cbv beta in A.
  replace (F - 3 + 3) with F in A by lia. exact A.
Qed.
Lemma rootb_mono : forall f, 3 <= ffrac f <= 9 -> forall X Y, fone f <= 4 * X -> X <= Y -> Y < fone f -> rootb f X <= rootb f Y.
Proof.
  intros f F X Y L XY U. pose proof (fone_pos f ltac:(lia)) as Q. pose proof (ordb_ok f F) as O. unfold ordb in O. apply andb_prop in O. destruct O as [O _].
  rewrite forallb_forall in O. assert (EY : exists k, Y = X + Z.of_nat k) by (exists (Z.to_nat (Y - X)); lia). destruct EY as [k ->].
  induction k as [|k IH]; [rewrite Z.add_0_r; lia|].
  specialize (O (X + Z.of_nat k) (upto_in (Z.to_nat (fone f)) (X + Z.of_nat k) ltac:(lia))).
  cbv beta in O. rewrite !orb_true_iff, Z.ltb_lt, !Z.leb_le in O. specialize (IH ltac:(lia) ltac:(lia)).
  replace (X + Z.of_nat (S k)) with (X + Z.of_nat k + 1) by lia. destruct O as [[O|O]|O]; lia.
Qed.
Lemma rootb_wrap : forall f, 3 <= ffrac f <= 9 -> forall X Y, fone f <= 4 * X -> X < fone f -> fone f <= 4 * Y -> Y < fone f ->
  rootb f X <= 2 * rootb f Y.
Proof.
  intros f F X Y LX UX LY UY. pose proof (fone_pos f ltac:(lia)) as Q. pose proof (ordb_ok f F) as O. unfold ordb in O. apply andb_prop in O. destruct O as [_ O].
  apply Z.leb_le in O. pose proof (rootb_mono f F X (fone f - 1) LX ltac:(lia) ltac:(lia)).
  assert (E : fone f = 4 * (fone f / 4)).
  { unfold fone. replace (ffrac f) with (ffrac f - 2 + 2) by lia. rewrite Z.pow_add_r by lia. change (2 ^ 2) with 4. rewrite Z.div_mul by lia. ring. }
  pose proof (rootb_mono f F (fone f / 4) Y ltac:(lia) ltac:(lia) UY). lia.
Qed.
Lemma rootb_nonneg : forall f X, 2 <= ffrac f -> fone f <= 4 * X -> X < fone f -> 0 <= rootb f X.
Proof. intros f X F L U. destruct (core f X 1 F L U) as [S _]. unfold small in S. unfold rootb. lia. Qed.

(** ** the root keeps order *)
Lemma sqrt_mono_39 : forall m f, supported f = true -> fsigned f = true -> 3 <= ffrac f <= 9 -> ffrac f <= fwidth f - 4 ->
  forall x y, fvalid f x -> fvalid f y -> 0 <= x <= y -> exists rx ry,
  returns (fun fuel => mixed_sqrt (fixed_sqrt m f fuel) x) rx /\ returns (fun fuel => mixed_sqrt (fixed_sqrt m f fuel) y) ry /\ rx <= ry.
Proof.
  intros m f S Sg F FW x y Vx Vy [X0 XY]. pose proof (supported_fwf f S) as W. pose proof (fone_pos f ltac:(lia)) as Q.
  pose proof (four_ok f S Sg ltac:(lia)) as V4.
  destruct (Z.eq_dec x 0) as [->|Nx].
  - destruct (Z.eq_dec y 0) as [->|Ny].
    + exists 0, 0. split; [|split; [|lia]]; exists 0%nat; intros; apply (sqrt_zero_api m f S).
    + destruct (niirf_signed m f W ltac:(lia) V4 (width64 f S) y 2 Sg ltac:(lia) Vy) as (n & X' & N & E).
      exists 0. eexists. split; [exists 0%nat; intros; apply (sqrt_zero_api m f S)|].
      split; [exists 101%nat; intros; apply E; lia|]. destruct N as (_ & L & U & _).
      apply scaled_nonneg. apply (rootb_nonneg f X'); auto; lia.
  - destruct (niirf_signed m f W ltac:(lia) V4 (width64 f S) x 2 Sg ltac:(lia) Vx) as (n & X1 & N1 & E1).
    destruct (niirf_signed m f W ltac:(lia) V4 (width64 f S) y 2 Sg ltac:(lia) Vy) as (n2 & X2 & N2 & E2).
    eexists _, _. split; [exists 101%nat; intros; apply E1; lia|]. split; [exists 101%nat; intros; apply E2; lia|].
    change (2 - 1)%N with 1%N. fold (rootb f X1). fold (rootb f X2).
    pose proof (normed_mono f x n X1 y n2 X2 Q ltac:(lia) XY N1 N2) as C.
    destruct N1 as (_ & L1 & U1 & _), N2 as (_ & L2 & U2 & _).
    pose proof (rootb_nonneg f X1 ltac:(lia) L1 U1). pose proof (rootb_nonneg f X2 ltac:(lia) L2 U2).
    destruct C as [C|[<- C]].
    + eapply Z.le_trans; [apply (scaled_mono n _ (2 * rootb f X2)); split; auto; apply rootb_wrap; auto|].
      rewrite <- scaled_succ. apply scaled_le; lia.
    + apply scaled_mono. split; auto. apply rootb_mono; auto.
Qed.
Lemma sqrt_mono_0 : forall m f, supported f = true -> ffrac f = 0 -> ffrac f <= fwidth f - 4 ->
  forall x y, fvalid f x -> fvalid f y -> 0 <= x <= y -> exists rx ry,
  returns (fun fuel => mixed_sqrt (fixed_sqrt m f fuel) x) rx /\ returns (fun fuel => mixed_sqrt (fixed_sqrt m f fuel) y) ry /\ rx <= ry.
Proof.
  intros m f S F FW x y Vx Vy [X0 XY]. exists 0, 0.
  split; [apply (sqrt_frac0 m f S); auto|]. split; [apply (sqrt_frac0 m f S); auto; lia|lia].
Qed.
Lemma sqrt_mono_1 : forall m f, supported f = true -> ffrac f = 1 -> ffrac f <= fwidth f - 4 ->
  forall x y, fvalid f x -> fvalid f y -> 0 <= x <= y -> exists rx ry,
  returns (fun fuel => mixed_sqrt (fixed_sqrt m f fuel) x) rx /\ returns (fun fuel => mixed_sqrt (fixed_sqrt m f fuel) y) ry /\ rx <= ry.
Proof.
  intros m f S F FW x y Vx Vy [X0 XY]. pose proof (fone_pos f ltac:(lia)) as Q.
  destruct (Z.eq_dec x 0) as [->|Nx].
  - destruct (Z.eq_dec y 0) as [->|Ny].
    + exists 0, 0. split; [|split; [|lia]]; exists 0%nat; intros; apply (sqrt_zero_api m f S).
    + destruct (sqrt_frac1_pow m f S (or_intror FW) F 2%N y Vy ltac:(lia)) as (r & k & R & Er & K & _).
      exists 0, r. split; [exists 0%nat; intros; apply (sqrt_zero_api m f S)|]. split; [exact R|]. rewrite Er. apply Z.pow_nonneg. lia.
  - destruct (sqrt_frac1_pow m f S (or_intror FW) F 2%N x Vx ltac:(lia)) as (r & k & R & Er & K & B).
    destruct (sqrt_frac1_pow m f S (or_intror FW) F 2%N y Vy ltac:(lia)) as (r2 & k2 & R2 & Er2 & K2 & B2).
    exists r, r2. split; [exact R|]. split; [exact R2|].
    assert (Sq : (sqrt (fval f x) <= sqrt (fval f y))%R).
    { apply sqrt_le_1_alt. rewrite !fval_eq by lia. apply Rmult_le_compat_r; [|apply IZR_le; auto].
      apply Rlt_le, Rinv_0_lt_compat, IZR_lt. auto. }
    destruct (Z_le_gt_dec k k2) as [Hk|Hk]; [rewrite Er, Er2; apply Z.pow_le_mono_r; lia|]. exfalso.
    assert (P : 2 * r2 <= r).
    { rewrite Er, Er2. replace (2 * 2 ^ k2) with (2 ^ (1 + k2)) by (rewrite Z.pow_add_r by lia; reflexivity). apply Z.pow_le_mono_r; lia. }
    apply IZR_le in P. rewrite mult_IZR in P. rewrite !fval_eq in * by lia.
    assert (0 < / IZR (fone f))%R by (apply Rinv_0_lt_compat, IZR_lt; auto).
    assert (2 * IZR r2 * / IZR (fone f) <= IZR r * / IZR (fone f))%R by (apply Rmult_le_compat_r; lra). lra.
Qed.
Lemma sqrt_mono_small : forall m f, supported f = true -> fsigned f = true -> ffrac f <= fwidth f - 4 -> ffrac f <> 2 -> ffrac f <= 9 ->
  forall x y, fvalid f x -> fvalid f y -> 0 <= x <= y -> exists rx ry,
  returns (fun fuel => mixed_sqrt (fixed_sqrt m f fuel) x) rx /\ returns (fun fuel => mixed_sqrt (fixed_sqrt m f fuel) y) ry /\ rx <= ry.
Proof.
  intros m f S Sg FW F2 F9. pose proof (supported_fwf f S) as W. destruct W as [W _].
  destruct (Z.eq_dec (ffrac f) 0) as [E0|N0]; [apply sqrt_mono_0; auto|].
  destruct (Z.eq_dec (ffrac f) 1) as [E1|N1]; [apply sqrt_mono_1; auto|]. apply sqrt_mono_39; auto. lia.
Qed.

(** ** two fractional bits: the root of one is 1/2, the root of 3/4 is 3/4 *)
Lemma normed_pow4 : forall f k, 0 <= k <= 32 -> 2 <= ffrac f -> normed f (4 ^ k * fone f) (k + 1) (2 ^ (ffrac f - 2)).
Proof.
  intros f k K F. set (h := 2 ^ (ffrac f - 2)).
  assert (Qh : fone f = 4 * h). { unfold fone, h. change 4 with (2 ^ 2). rewrite <- Z.pow_add_r by lia. f_equal. lia. }
  assert (h0 : 0 < h) by (apply Z.pow_pos_nonneg; lia). assert (P4 : 0 < 4 ^ k) by (apply Z.pow_pos_nonneg; lia).
  split; [lia|]. split; [lia|]. split; [lia|]. right. split; [lia|]. rewrite Z.pow_add_r, Qh by lia. change (4 ^ 1) with 4.
  replace (4 ^ k * (4 * h)) with (h * (4 ^ k * 4)) by ring. symmetry. apply Z.div_mul. lia.
Qed.
Lemma pow4_root : forall m f, supported f = true -> fsigned f = true -> 2 <= ffrac f <= fwidth f - 4 ->
  forall k, 0 <= k -> fvalid f (4 ^ k * fone f) ->
  returns (fun fuel => mixed_sqrt (fixed_sqrt m f fuel) (4 ^ k * fone f)) (2 ^ k * (2 * rootb f (2 ^ (ffrac f - 2)))).
Proof.
  intros m f S Sg F k K V. pose proof (supported_fwf f S) as W. pose proof (fone_pos f ltac:(lia)) as Q. pose proof (supported_inv f S) as [Wd Fr].
  pose proof (four_ok f S Sg ltac:(lia)) as V4. assert (P4 : 0 < 4 ^ k) by (apply Z.pow_pos_nonneg; lia).
  destruct (niirf_signed m f W ltac:(lia) V4 (width64 f S) (4 ^ k * fone f) 2 Sg ltac:(nia) V) as (n & X' & N & E).
  assert (K32 : k <= 32).
  { destruct (Z_le_gt_dec k 32); auto. exfalso. pose proof (valid_lt f W (width64 f S) _ V) as B.
    assert (4 ^ 32 <= 4 ^ k) by (apply Z.pow_le_mono_r; lia). change (4 ^ 32) with (2 ^ 64) in *.
    assert (4 ^ k * 1 <= 4 ^ k * fone f) by (apply Z.mul_le_mono_nonneg_l; lia). lia. }
  pose proof (normed_pow4 f k ltac:(lia) ltac:(lia)) as N2.
  destruct (normed_unique f (4 ^ k * fone f) _ _ _ _ Q (Z.mul_pos_pos _ _ P4 Q) N2 N) as [<- <-].
  exists 101%nat. intros fuel Hf. etransitivity; [apply E; lia|]. change (2 - 1)%N with 1%N. fold (rootb f (2 ^ (ffrac f - 2))).
  f_equal. unfold scaled. destruct (Z.leb_spec 0 (k + 1)); [|lia]. rewrite Z.pow_add_r by lia. ring.
Qed.
Lemma sqrt_frac2_bad : forall m f, supported f = true -> fsigned f = true -> ffrac f = 2 -> 
  returns (fun fuel => mixed_sqrt (fixed_sqrt m f fuel) 3) 3 /\ returns (fun fuel => mixed_sqrt (fixed_sqrt m f fuel) 4) 2.
Proof.
  intros m f S Sg F. pose proof (supported_fwf f S) as W. pose proof (supported_inv f S) as [Wd Fr].
  assert (Q4 : fone f = 4) by (unfold fone; rewrite F; reflexivity). split.
  - exists 1%nat. intros [|fuel] Hf; [lia|]. etransitivity; [apply (niirf_norm m f W ltac:(lia)); auto; lia|].
    destruct f as [sg w F']. cbn [ffrac] in F. subst F'. reflexivity.
  - pose proof (pow4_root m f S Sg ltac:(lia) 0 ltac:(lia)) as H. rewrite Q4 in H.
    change (4 ^ 0 * 4) with 4 in H. change (2 ^ 0) with 1 in H. rewrite F in H. change (2 ^ (2 - 2)) with 1 in H.
    replace (1 * (2 * rootb f 1)) with 2 in H; [apply H; apply fv_small; auto; lia|].
    destruct f as [sg w F']. cbn [ffrac] in F. subst F'. reflexivity.
Qed.

(** ** powers of four *)
Lemma quarter_all : forallb (fun k => 2 * rootb (mkFty true 64 (k + 3)) (2 ^ (k + 1)) =? 2 ^ (k + 3)) (upto 8) = true.
Proof. vm_compute. reflexivity. Qed.
Lemma quarter_ok : forall f, 3 <= ffrac f <= 10 -> 2 * rootb f (2 ^ (ffrac f - 2)) = fone f.
Proof.
  intros [sg w F] H. cbn [ffrac] in *. pose proof quarter_all as A. rewrite forallb_forall in A.
  specialize (A (F - 3) (upto_in 8 (F - 3) ltac:(change (Z.of_nat 8) with 8; lia))). cbv beta in A.
  replace (F - 3 + 3) with F in A by lia. replace (F - 3 + 1) with (F - 2) in A by lia. apply Z.eqb_eq in A. exact A.
Qed.
Lemma sqrt_pow4_frac2 : forall m f, supported f = true -> fsigned f = true -> ffrac f = 2 ->
  forall k, 0 <= k -> fvalid f (4 ^ k * fone f) ->
  returns (fun fuel => mixed_sqrt (fixed_sqrt m f fuel) (4 ^ k * fone f)) (2 ^ k * fone f / 2).
Proof.
  intros m f S Sg F k K V. pose proof (supported_inv f S) as [Wd Fr]. pose proof (pow4_root m f S Sg ltac:(lia) k K V) as H.
  replace (2 ^ k * fone f / 2) with (2 ^ k * (2 * rootb f (2 ^ (ffrac f - 2)))); auto.
  replace (rootb f (2 ^ (ffrac f - 2))) with 1.
  - unfold fone. rewrite F. change (2 ^ 2) with 4. replace (2 ^ k * 4) with (2 ^ k * 2 * 2) by ring. rewrite Z.div_mul by lia. ring.
  - destruct f as [sg w F']. cbn [ffrac] in F. subst F'. reflexivity.
Qed.
Lemma sqrt_pow4_small : forall m f, supported f = true -> fsigned f = true -> ffrac f <= fwidth f - 4 -> 1 <= ffrac f <= 10 -> ffrac f <> 2 ->
  forall k, 0 <= k -> fvalid f (4 ^ k * fone f) ->
  returns (fun fuel => mixed_sqrt (fixed_sqrt m f fuel) (4 ^ k * fone f)) (2 ^ k * fone f).
Proof.
  intros m f S Sg FW F F2 k K V. pose proof (fone_pos f ltac:(lia)) as Q. destruct (Z.eq_dec (ffrac f) 1) as [E1|N1].
  - assert (P4 : 0 < 4 ^ k) by (apply Z.pow_pos_nonneg; lia). assert (P2 : 0 < 2 ^ k) by (apply Z.pow_pos_nonneg; lia).
    destruct (sqrt_frac1_pow m f S (or_intror FW) E1 2%N (4 ^ k * fone f) V ltac:(nia)) as (r & j & R & Er & J & B).
    replace (2 ^ k * fone f) with r; [exact R|].
    assert (Sq : sqrt (fval f (4 ^ k * fone f)) = IZR (2 ^ k)).
    { replace (fval f (4 ^ k * fone f)) with (IZR (2 ^ k) * IZR (2 ^ k))%R.
      - apply sqrt_square. apply IZR_le. lia.
      - rewrite fval_eq, mult_IZR by lia. rewrite <- mult_IZR, <- Z.pow_mul_l. change (2 * 2) with 4. field. apply IZR_neq. lia. }
    rewrite Sq in B. rewrite fval_eq in B by lia. unfold fone in B |- *. rewrite E1 in B |- *. change (2 ^ 1) with 2 in B |- *.
    assert (B1 : r <= 2 * 2 ^ k) by (apply le_IZR; rewrite mult_IZR; lra).
    assert (B2 : 2 * 2 ^ k < 2 * r) by (apply lt_IZR; rewrite !mult_IZR; lra).
    rewrite <- Z.pow_succ_r in B1, B2 by lia. rewrite Z.mul_comm, <- Z.pow_succ_r by lia. rewrite Er in *.
    rewrite <- Z.pow_succ_r in B2 by lia. apply Z.pow_le_mono_r_iff in B1; [|lia|lia]. apply Z.pow_lt_mono_r_iff in B2; [|lia|lia].
    f_equal. lia.
  - pose proof (pow4_root m f S Sg ltac:(lia) k K V) as H. rewrite (quarter_ok f ltac:(lia)) in H. exact H.
Qed.
Lemma sqrt_pow4_iff : forall m f, supported f = true -> fsigned f = true -> ffrac f <= fwidth f - 4 ->
  forall k, 0 <= k -> fvalid f (4 ^ k * fone f) ->
  (returns (fun fuel => mixed_sqrt (fixed_sqrt m f fuel) (4 ^ k * fone f)) (2 ^ k * fone f) <-> ffrac f = 1 \/ 3 <= ffrac f <= 10).
Proof.
  intros m f S Sg FW k K V. pose proof (supported_fwf f S) as [W _]. pose proof (fone_pos f ltac:(lia)) as Q.
  assert (P4 : 0 < 4 ^ k) by (apply Z.pow_pos_nonneg; lia). assert (P2 : 0 < 2 ^ k) by (apply Z.pow_pos_nonneg; lia).
  split; [|intros H; apply sqrt_pow4_small; auto; lia].
  intros [N1 R1]. assert (C : ffrac f = 0 \/ ffrac f = 1 \/ ffrac f = 2 \/ 3 <= ffrac f <= 10 \/ 11 <= ffrac f) by lia.
  destruct C as [C|[C|[C|[C|C]]]]; auto; exfalso.
  - destruct (sqrt_frac0 m f S (or_intror FW) C 2%N (4 ^ k * fone f) V ltac:(nia)) as [N2 R2].
    specialize (R1 (N1 + N2)%nat ltac:(lia)). specialize (R2 (N1 + N2)%nat ltac:(lia)). 
    assert (E : 2 ^ k * fone f = 0). { cut (Ok (2 ^ k * fone f) = Ok 0); [congruence|]. rewrite <- R1, <- R2. reflexivity. } nia.
  - destruct (sqrt_pow4_frac2 m f S Sg C k K V) as [N2 R2].
    specialize (R1 (N1 + N2)%nat ltac:(lia)). specialize (R2 (N1 + N2)%nat ltac:(lia)).
    assert (E : 2 ^ k * fone f = 2 ^ k * fone f / 2) by congruence.
    assert (2 ^ k * fone f / 2 < 2 ^ k * fone f) by (apply Z.div_lt; nia). lia.
  - destruct (sqrt_pow4_bad m f S Sg ltac:(lia) k K V) as (r & [N2 R2] & B).
    specialize (R1 (N1 + N2)%nat ltac:(lia)). specialize (R2 (N1 + N2)%nat ltac:(lia)).
    assert (E : r = 2 ^ k * fone f) by congruence. nia.
Qed.

(** ** exactly which formats keep order *)
Lemma sqrt_mono_iff : forall m f, supported f = true -> fsigned f = true -> ffrac f <= fwidth f - 4 ->
  ((forall x y, fvalid f x -> fvalid f y -> 0 <= x <= y -> exists rx ry,
    returns (fun fuel => mixed_sqrt (fixed_sqrt m f fuel) x) rx /\ returns (fun fuel => mixed_sqrt (fixed_sqrt m f fuel) y) ry /\ rx <= ry)
   <-> ffrac f <= 9 /\ ffrac f <> 2).
Proof.
  intros m f S Sg FW. split; [|intros [A B]; apply sqrt_mono_small; auto].
  intros H. destruct (Z.eq_dec (ffrac f) 2) as [E|E].
  - exfalso. destruct (sqrt_frac2_bad m f S Sg E) as [[A1 B1] [A2 B2]].
    pose proof (supported_inv f S) as [Wd Fr]. assert (Q4 : fone f = 4) by (unfold fone; rewrite E; reflexivity).
    destruct (H 3 4) as (rx & ry & [A3 B3] & [A4 B4] & L); [apply fv_small; auto; lia|apply fv_small; auto; lia|lia|].
    set (n := (A1 + A2 + A3 + A4)%nat). specialize (B1 n ltac:(lia)). specialize (B2 n ltac:(lia)). specialize (B3 n ltac:(lia)). specialize (B4 n ltac:(lia)).
    assert (rx = 3) by congruence. assert (ry = 2) by congruence. lia.
  - split; auto. destruct (Z_le_gt_dec (ffrac f) 9) as [L|G]; auto. exfalso.
    destruct (sqrt_not_monotone m f S Sg ltac:(lia)) as (x & y & rx & ry & Vx & Vy & XY & [A1 B1] & [A2 B2] & R).
    destruct (H x y Vx Vy ltac:(lia)) as (rx' & ry' & [A3 B3] & [A4 B4] & L).
    set (n := (A1 + A2 + A3 + A4)%nat). specialize (B1 n ltac:(lia)). specialize (B2 n ltac:(lia)). specialize (B3 n ltac:(lia)). specialize (B4 n ltac:(lia)).
    assert (rx = rx') by congruence. assert (ry = ry') by congruence. lia.
Qed.
