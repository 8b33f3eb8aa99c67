(** * The NIIRF square root: scaling, zeros, order, perfect squares, convergence. *)

From Coq Require Import ZArith Reals Lia Lra Psatz List Bool.
From Flocq Require Import Core.Core IEEE754.BinarySingleNaN.
From Verif Require Import Base FloatBase Literals Traits Trig FixedPrim FixedImpl Spec
  Lemmas ScalarProofs ScalarProofs2 WrapProofs SqrtReal NiirfZ NiirfFixed NiirfFixed2 NiirfFixed3 NiirfFixed4.
Import ListNotations.
Open Scope Z_scope.

(** ** the normalisation is unique *)
Lemma normed_unique : forall f X n X1 m X2, 0 < fone f -> 0 < X -> normed f X n X1 -> normed f X m X2 -> n = m /\ X1 = X2.
Proof.
  assert (G : forall f X n X1 m X2, 0 < fone f -> 0 < X -> normed f X n X1 -> normed f X m X2 -> m <= n).
  { intros f X n X1 m X2 Q X0 (_ & L1 & U1 & D1) (_ & L2 & U2 & D2). destruct (Z_le_gt_dec m n) as [H|H]; auto. exfalso.
    destruct D1 as [[N1 D1]|[N1 D1]], D2 as [[N2 D2]|[N2 D2]].
    - assert (P : 4 ^ (- n) = 4 * 4 ^ (- m) * 4 ^ (m - n - 1)).
      { change 4 with (4 ^ 1) at 2. rewrite <- !Z.pow_add_r by lia. f_equal. lia. }
      assert (0 < 4 ^ (m - n - 1)) by (apply Z.pow_pos_nonneg; lia). rewrite P in D1.
      assert (X1 = 4 * X2 * 4 ^ (m - n - 1)) by (rewrite D1, D2; ring). nia.
    - assert (4 ^ 1 <= 4 ^ (- n)) by (apply Z.pow_le_mono_r; lia). assert (0 < 4 ^ m) by (apply Z.pow_pos_nonneg; lia).
      assert (X2 <= X) by (rewrite D2; apply Z.div_le_upper_bound; nia). change (4 ^ 1) with 4 in *. nia.
    - lia.
    - assert (P : 4 ^ m = 4 ^ n * 4 * 4 ^ (m - n - 1)).
      { change 4 with (4 ^ 1) at 3. rewrite <- !Z.pow_add_r by lia. f_equal. lia. }
      assert (0 < 4 ^ (m - n - 1)) by (apply Z.pow_pos_nonneg; lia). assert (0 < 4 ^ n) by (apply Z.pow_pos_nonneg; lia).
      rewrite P, <- !Z.div_div in D2 by lia. rewrite <- D1 in D2.
      assert (X1 / 4 * 4 <= X1) by (rewrite Z.mul_comm; apply Z.mul_div_le; lia).
      assert (0 <= X1 / 4) by (apply Z.div_pos; lia).
      assert (X2 <= X1 / 4) by (rewrite D2; apply Z.div_le_upper_bound; nia). lia. }
  intros f X n X1 m X2 Q X0 H1 H2. assert (n = m) by (pose proof (G _ _ _ _ _ _ Q X0 H1 H2); pose proof (G _ _ _ _ _ _ Q X0 H2 H1); lia).
  subst m. split; auto. destruct H1 as (_ & _ & _ & D1), H2 as (_ & _ & _ & D2). lia.
Qed.
Lemma normed_up : forall f X n X', fone f <= 4 * X -> 0 < X -> normed f X n X' -> n <= 32 -> normed f (4 * X) (n + 1) X' /\ 0 <= n.
Proof.
  intros f X n X' H X0 (N & L & U & D) NN. assert (N0 : 0 <= n).
  { destruct D as [[Dn D]|[Dn D]]; auto. exfalso. assert (4 ^ 1 <= 4 ^ (- n)) by (apply Z.pow_le_mono_r; lia). change (4 ^ 1) with 4 in *. nia. }
  split; auto. split; [lia|]. split; auto. split; auto. right. split; [lia|]. destruct D as [[? _]|[_ ->]]; [lia|].
  rewrite Z.pow_add_r by lia. change (4 ^ 1) with 4. rewrite (Z.mul_comm (4 ^ n) 4), Z.div_mul_cancel_l; auto; [|lia].
  apply Z.pow_nonzero; lia.
Qed.
Lemma normed_down : forall f X n X', 4 * X < fone f -> 0 < X -> normed f X n X' -> normed f (4 * X) (n + 1) X' /\ n < 0.
Proof.
  intros f X n X' H X0 (N & L & U & D). assert (N0 : n < 0).
  { destruct D as [[Dn D]|[Dn D]]; auto. exfalso. assert (0 < 4 ^ n) by (apply Z.pow_pos_nonneg; lia).
    assert (X' <= X) by (rewrite D; apply Z.div_le_upper_bound; nia). lia. }
  split; auto. split; [lia|]. split; auto. split; auto. destruct D as [[_ D]|[? _]]; [|lia].
  assert (P : 4 ^ (- n) = 4 * 4 ^ (- (n + 1))).
  { change 4 with (4 ^ 1) at 2. rewrite <- Z.pow_add_r by lia. f_equal. lia. }
  destruct (Z_lt_le_dec (n + 1) 0) as [M|M]; [left; split; [lia|] | right; split; [lia|]].
  - rewrite D, P. ring.
  - assert (n = -1) by lia. subst n. change (- -1) with 1 in D. change (-1 + 1) with 0. change (4 ^ 1) with 4 in D. change (4 ^ 0) with 1.
    rewrite Z.div_1_r. lia.
Qed.

Lemma four_ok : forall f, supported f = true -> fsigned f = true -> ffrac f <= fwidth f - 4 -> fvalid f (4 * fone f).
Proof. intros f S Sg F. apply four_valid; auto. Qed.

Lemma valid_norm_32 : forall f X n X', supported f = true -> fvalid f X -> 0 < X -> normed f X n X' -> 2 <= ffrac f -> n <= 32.
Proof.
  intros f X n X' S V X0 (N & L & U & D) F. destruct (Z_le_gt_dec n 32); auto. exfalso. assert (n = 33) by lia. subst n.
  destruct D as [[? _]|[_ D]]; [lia|]. pose proof (valid_lt f (supported_fwf f S) (width64 f S) X V) as B.
  assert (X' = 0). { rewrite D. apply Z.div_small. split; [lia|]. change (4 ^ 33) with (2 ^ 66). assert (2 ^ 64 < 2 ^ 66) by reflexivity. lia. }
  pose proof (fone_pos f ltac:(lia)). lia.
Qed.

Lemma sqrt_scale_up : forall m f, supported f = true -> fsigned f = true -> 2 <= ffrac f <= fwidth f - 4 ->
  forall it x, fone f <= 4 * x -> fvalid f (4 * x) -> exists r,
  returns (fun fuel => NI m f fuel x it) r /\ returns (fun fuel => NI m f fuel (4 * x) it) (2 * r).
Proof.
  intros m f S Sg F it x H V. pose proof (supported_fwf f S) as W. pose proof (fone_pos f ltac:(lia)) as Q.
  assert (X0 : 0 < x) by lia. assert (V1 : fvalid f x) by (eapply fv_le; eauto; lia).
  pose proof (four_ok f S Sg ltac:(lia)) as V4.
  destruct (niirf_signed m f W ltac:(lia) V4 (width64 f S) x it Sg X0 V1) as (n & X' & N & E).
  destruct (niirf_signed m f W ltac:(lia) V4 (width64 f S) (4 * x) it Sg ltac:(lia) V) as (n' & X'' & N' & E').
  destruct (normed_up f x n X' H X0 N (valid_norm_32 f x n X' S V1 X0 N ltac:(lia))) as [N2 N0].
  destruct (normed_unique f (4 * x) _ _ _ _ Q ltac:(lia) N2 N') as [<- <-].
  set (y := ziter _ _ _ _ _) in *. exists (scaled n y). split; [exists 101%nat; intros; apply E; lia|].
  exists 101%nat. intros fuel Hf. rewrite E' by lia. f_equal. unfold scaled. destruct (Z.leb_spec 0 (n + 1)); [|lia].
  destruct (Z.leb_spec 0 n); [|lia]. rewrite Z.pow_add_r by lia. change (2 ^ 1) with 2. ring.
Qed.
Lemma sqrt_scale_down : forall m f, supported f = true -> fsigned f = true -> 2 <= ffrac f <= fwidth f - 4 ->
  forall it x, 0 < x -> 4 * x < fone f -> exists r,
  returns (fun fuel => NI m f fuel (4 * x) it) r /\ returns (fun fuel => NI m f fuel x it) (r / 2).
Proof.
  intros m f S Sg F it x X0 H. pose proof (supported_fwf f S) as W. pose proof (fone_pos f ltac:(lia)) as Q.
  assert (V : fvalid f (4 * x)) by (apply fv_small; auto; lia). assert (V1 : fvalid f x) by (eapply fv_le; eauto; lia).
  pose proof (four_ok f S Sg ltac:(lia)) as V4.
  destruct (niirf_signed m f W ltac:(lia) V4 (width64 f S) x it Sg X0 V1) as (n & X' & N & E).
  destruct (niirf_signed m f W ltac:(lia) V4 (width64 f S) (4 * x) it Sg ltac:(lia) V) as (n' & X'' & N' & E').
  destruct (normed_down f x n X' H X0 N) as [N2 N0].
  destruct (normed_unique f (4 * x) _ _ _ _ Q ltac:(lia) N2 N') as [<- <-].
  set (y := ziter _ _ _ _ _) in *. exists (scaled (n + 1) y). split; [exists 101%nat; intros; apply E'; lia|].
  exists 101%nat. intros fuel Hf. rewrite E by lia. f_equal. unfold scaled. destruct (Z.leb_spec 0 n); [lia|].
  assert (P : 2 ^ (- n) = 2 ^ (- (n + 1)) * 2).
  { change 2 with (2 ^ 1) at 3. rewrite <- Z.pow_add_r by lia. f_equal. lia. }
  destruct (Z.leb_spec 0 (n + 1)) as [G|G].
  - assert (n = -1) by lia. subst n. change (-1 + 1) with 0. change (- -1) with 1. change (2 ^ 0) with 1. change (2 ^ 1) with 2. rewrite Z.mul_1_r. reflexivity.
  - rewrite P, Z.div_div; auto; [apply Z.pow_nonzero; lia | lia].
Qed.

(** ** a positive argument has a positive root *)
Lemma acc_pos : forall q X y j, 4 <= q -> 0 <= j -> 4 ^ j <= X -> q <= 4 * X -> X < q -> acc q X y -> 2 ^ j <= y.
Proof.
  intros q X y j Q J H L U [A _]. apply Rabs_le_inv in A. destruct A as [A _].
  assert (QR : (4 <= IZR q)%R) by (apply IZR_le; auto). assert (UP : (0 < / IZR q)%R) by (apply Rinv_0_lt_compat; lra).
  assert (XR : (0 <= IZR X)%R) by (apply IZR_le; lia).
  set (g := (s q X * IZR q)%R).
  assert (G0 : (0 <= g)%R) by (apply Rmult_le_pos; [apply sqrt_pos|lra]).
  assert (GG : (g * g = IZR (X * q))%R).
  { unfold g. replace (s q X * IZR q * (s q X * IZR q))%R with (s q X * s q X * (IZR q * IZR q))%R by ring.
    replace (s q X * s q X)%R with (IZR X * / IZR q)%R by (symmetry; apply sqrt_sqrt; apply Rmult_le_pos; lra). rewrite mult_IZR. field. lra. }
  assert (Y : (999 / 1000 * g - 145 / 100 <= IZR y)%R).
  { unfold g. apply Rmult_le_reg_r with (/ IZR q)%R; auto.
    replace ((999 / 1000 * (s q X * IZR q) - 145 / 100) * / IZR q)%R with (999 / 1000 * s q X - 145 / 100 * / IZR q)%R by (field; lra). lra. }
  apply le_IZR. set (p := IZR (2 ^ j)). assert (P1 : (1 <= p)%R). { apply IZR_le. assert (0 < 2 ^ j) by (apply Z.pow_pos_nonneg; lia). lia. }
  assert (PP : (IZR (4 ^ j) = p * p)%R) by (apply pow_IZR2; auto).
  assert (GX : (IZR X <= g)%R). { apply sq_le; auto. rewrite GG, mult_IZR. apply Rmult_le_compat_l; auto. apply IZR_le. lia. }
  assert (HG : (p * p <= g)%R) by (rewrite <- PP; apply Rle_trans with (IZR X); auto; apply IZR_le; auto).
  destruct (Z.eq_dec j 0) as [->|J1].
  - assert (Y1 : (0 < IZR y)%R).
    { assert (2 <= g)%R; [|lra]. apply sq_le; auto; [lra|]. rewrite GG. replace (2 * 2)%R with (IZR 4) by (cbn; lra). apply IZR_le.
      assert (1 <= X) by lia. nia. }
    apply lt_IZR in Y1. unfold p. apply IZR_le. change (2 ^ 0) with 1. lia.
  - assert (P2 : (2 <= p)%R). { apply IZR_le. change 2 with (2 ^ 1) at 1. apply Z.pow_le_mono_r; lia. }
    nra.
Qed.
Lemma sqrt_positive : forall m f, supported f = true -> fsigned f = true -> 2 <= ffrac f <= fwidth f - 4 ->
  forall it, (2 <= it)%N -> forall x, fvalid f x -> 0 < x -> exists r,
  returns (fun fuel => NI m f fuel x it) r /\ 0 < r.
Proof.
  intros m f S Sg F it Hit x V X0. pose proof (supported_fwf f S) as W. pose proof (four_ok f S Sg ltac:(lia)) as V4.
  destruct (niirf_signed m f W ltac:(lia) V4 (width64 f S) x it Sg X0 V) as (n & X' & N & E).
  eexists. split; [exists 101%nat; intros; apply E; lia|].
  pose proof N as (N1 & L & U & D). destruct (core f X' (it - 1) ltac:(lia) L U) as (Sm & A & _). specialize (A ltac:(lia)).
  set (y := ziter _ _ _ _ _) in *.
  assert (Q : 4 <= fone f). { unfold fone. change 4 with (2 ^ 2). apply Z.pow_le_mono_r; lia. }
  unfold scaled. destruct (Z.leb_spec 0 n) as [G|G].
  - pose proof (acc_pos (fone f) X' y 0 Q ltac:(lia) ltac:(change (4 ^ 0) with 1; lia) L U A) as P. change (2 ^ 0) with 1 in P.
    assert (0 < 2 ^ n) by (apply Z.pow_pos_nonneg; lia). nia.
  - destruct D as [[_ D]|[? _]]; [|lia]. assert (0 < 4 ^ (- n)) by (apply Z.pow_pos_nonneg; lia).
    pose proof (acc_pos (fone f) X' y (- n) Q ltac:(lia) ltac:(nia) L U A) as P.
    assert (0 < 2 ^ (- n)) by (apply Z.pow_pos_nonneg; lia).
    assert (1 <= y / 2 ^ (- n)) by (apply Z.div_le_lower_bound; lia). lia.
Qed.

(** ** order *)
Definition upto (n : nat) : list Z := map Z.of_nat (seq 0 n).
Lemma upto_in : forall n z, 0 <= z < Z.of_nat n -> In z (upto n).
Proof. intros n z H. unfold upto. apply in_map_iff. exists (Z.to_nat z). split; [lia|]. apply in_seq. lia. Qed.
Definition dip (f : fty) : bool :=
  let h := 2 ^ (ffrac f - 1) in
  ziter 1 (fone f) (beta_bits f h) h (start f h) <? ziter 1 (fone f) (beta_bits f (h - 1)) (h - 1) (start f (h - 1)).
Lemma dip_all : forallb (fun k => dip (mkFty true 64 (k + 10))) (upto 52) = true.
Proof. vm_compute. reflexivity. Qed.
Lemma dip_ok : forall f, 10 <= ffrac f <= 61 -> dip f = true.
Proof.
  intros [sg w F] H. cbn [ffrac] in H. pose proof dip_all as A. rewrite forallb_forall in A.
  specialize (A (F - 10) (upto_in 52 (F - 10) ltac:(change (Z.of_nat 52) with 52; lia))). cbv beta in A.
  replace (F - 10 + 10) with F in A by lia. exact A.
Qed.
Lemma sqrt_not_monotone : forall m f, supported f = true -> fsigned f = true -> 10 <= ffrac f ->
  exists x y rx ry, fvalid f x /\ fvalid f y /\ 0 < x < y /\
  returns (fun fuel => mixed_sqrt (fixed_sqrt m f fuel) x) rx /\ returns (fun fuel => mixed_sqrt (fixed_sqrt m f fuel) y) ry /\ ry < rx.
Proof.
  intros m f S Sg F. pose proof (supported_fwf f S) as W. pose proof (supported_inv f S) as [Wd Fr].
  pose proof (dip_ok f ltac:(lia)) as D. unfold dip in D. set (h := 2 ^ (ffrac f - 1)) in *.
  assert (Qh : fone f = 2 * h). { unfold fone, h. rewrite <- Z.pow_succ_r by lia. f_equal. lia. }
  assert (h9 : 512 <= h). { unfold h. change 512 with (2 ^ 9). apply Z.pow_le_mono_r; lia. }
  apply Z.ltb_lt in D. exists (h - 1), h. eexists _, _. split; [apply fv_small; auto; lia|]. split; [apply fv_small; auto; lia|]. split; [lia|].
  split; [exists 1%nat; intros [|fuel] Hf; [lia|]; apply (niirf_norm m f W ltac:(lia)); auto; lia|].
  split; [exists 1%nat; intros [|fuel] Hf; [lia|]; apply (niirf_norm m f W ltac:(lia)); auto; lia|]. exact D.
Qed.

(** ** powers of four *)
Definition off4 (f : fty) : bool :=
  let h := 2 ^ (ffrac f - 2) in 10007 * fone f <? 2 * 10000 * ziter 1 (fone f) (beta_bits f h) h (start f h).
Lemma off4_all : forallb (fun k => off4 (mkFty true 64 (k + 11))) (upto 51) = true.
Proof. vm_compute. reflexivity. Qed.
Lemma off4_ok : forall f, 11 <= ffrac f <= 61 -> off4 f = true.
Proof.
  intros [sg w F] H. cbn [ffrac] in H. pose proof off4_all as A. rewrite forallb_forall in A.
  specialize (A (F - 11) (upto_in 51 (F - 11) ltac:(change (Z.of_nat 51) with 51; lia))). cbv beta in A.
  replace (F - 11 + 11) with F in A by lia. exact A.
Qed.
Lemma sqrt_pow4_bad : forall m f, supported f = true -> fsigned f = true -> 11 <= ffrac f <= fwidth f - 4 ->
  forall k, 0 <= k -> fvalid f (4 ^ k * fone f) -> exists r,
  returns (fun fuel => mixed_sqrt (fixed_sqrt m f fuel) (4 ^ k * fone f)) r /\
  10007 * (2 ^ k * fone f) < 10000 * r.
Proof.
  intros m f S Sg F k K V. pose proof (supported_fwf f S) as W. pose proof (fone_pos f ltac:(lia)) as Q. pose proof (supported_inv f S) as [Wd Fr].
  pose proof (four_ok f S Sg ltac:(lia)) as V4. assert (P4 : 0 < 4 ^ k) by (apply Z.pow_pos_nonneg; lia).
  destruct (niirf_signed m f W ltac:(lia) V4 (width64 f S) (4 ^ k * fone f) 2 Sg ltac:(nia) V) as (n & X' & N & E).
  set (h := 2 ^ (ffrac f - 2)).
  assert (Qh : fone f = 4 * h). { unfold fone, h. change 4 with (2 ^ 2). rewrite <- Z.pow_add_r by lia. f_equal. lia. }
  assert (h0 : 0 < h) by (apply Z.pow_pos_nonneg; lia).
  assert (K32 : k <= 32).
  { destruct (Z_le_gt_dec k 32); auto. exfalso. pose proof (valid_lt f W (width64 f S) _ V) as B.
    assert (4 ^ 32 <= 4 ^ k) by (apply Z.pow_le_mono_r; lia). change (4 ^ 32) with (2 ^ 64) in *.
    assert (4 ^ k * 1 <= 4 ^ k * fone f) by (apply Z.mul_le_mono_nonneg_l; lia). lia. }
  assert (N2 : normed f (4 ^ k * fone f) (k + 1) h).
  { split; [lia|]. split; [lia|]. split; [lia|]. right. split; [lia|]. rewrite Z.pow_add_r, Qh by lia. change (4 ^ 1) with 4.
    replace (4 ^ k * (4 * h)) with (h * (4 ^ k * 4)) by ring. symmetry. apply Z.div_mul. lia. }
  destruct (normed_unique f (4 ^ k * fone f) _ _ _ _ Q (Z.mul_pos_pos _ _ P4 Q) N2 N) as [<- <-].
  eexists. split; [exists 101%nat; intros; apply E; lia|].
  pose proof (off4_ok f ltac:(lia)) as O. unfold off4 in O. fold h in O. apply Z.ltb_lt in O. change (2 - 1)%N with 1%N. set (y := ziter _ _ _ _ _) in *.
  unfold scaled. destruct (Z.leb_spec 0 (k + 1)); [|lia]. rewrite Z.pow_add_r by lia. change (2 ^ 1) with 2.
  assert (0 < 2 ^ k) by (apply Z.pow_pos_nonneg; lia). nia.
Qed.

(** ** the iteration converges geometrically to the rounding error *)
Lemma ziter_conv : forall q, 16 <= q -> forall X b, 0 <= X -> forall k be, region k be (s q X) ->
  (Rabs (IZR b * / IZR q - bR be) <= / IZR q / 2 + / 1000000000000000)%R ->
  forall y, (Rabs (IZR y * / IZR q - y0i (s q X)) <= 3 / 2 * / IZR q + / 1000000000000000)%R -> forall n : nat,
  (Rabs (IZR (ziter (N.of_nat (S n)) q b X y) * / IZR q - s q X) <= 703 / 1000000 * (/ 4) ^ n + 145 / 100 * / IZR q)%R.
Proof.
  intros q Hq X b HX k be Rg Hb y Hy n. pose proof (u_pos q Hq) as U. induction n as [|n IH].
  - rewrite pow_O, Rmult_1_r. apply (ziter_good q Hq X b HX k be Rg Hb y 1%N Hy ltac:(lia)).
  - replace (N.of_nat (S (S n))) with (N.succ (N.of_nat (S n))) by lia. rewrite ziter_succ. set (z := ziter _ _ _ _ _) in *.
    destruct (zstep_real q Hq X b HX k be Rg Hb z) as [rho [R1 R2]]. rewrite R2.
    assert (P : (0 < (/ 4) ^ n <= 1)%R). { split; [apply pow_lt; lra|]. rewrite <- (pow1 n). apply pow_incr. lra. }
    rewrite <- tech_pow_Rmult. set (p := ((/ 4) ^ n)%R) in *.
    eapply Rle_trans; [apply add_bound; [eapply niirf_next; [exact Rg|exact IH| |exact Hb|]|exact R1]|]; lra.
Qed.
Lemma sqrt_converges : forall m f, supported f = true -> fsigned f = true -> 2 <= ffrac f ->
  forall n x, (/ 4 <= fval f x < 1)%R -> exists r, returns (fun fuel => NI m f fuel x (N.of_nat (n + 2))) r /\
  (Rabs (fval f r - sqrt (fval f x)) <= 703 / 1000000 * (/ 4) ^ n + 145 / 100 * ulp f)%R.
Proof.
  intros m f Sp Sg F2 n x Hx. pose proof (supported_fwf f Sp) as W. destruct (quarter_range f x ltac:(lia) Hx) as [L U].
  eexists. split; [exists 1%nat; intros [|fuel] Hf; [lia|]; apply niirf_norm; auto|].
  rewrite <- s_fval by lia. rewrite fval_eq, ulp_eq by lia. replace (N.of_nat (n + 2) - 1)%N with (N.of_nat (S n)) by lia.
  assert (P : (0 < (/ 4) ^ n)%R) by (apply pow_lt; lra).
  destruct (Z_lt_le_dec (ffrac f) 4) as [F3|F4].
  - destruct (core_small f x ltac:(lia) L U) as [E T]. rewrite ziter_fix by auto. pose proof (fone_pos f ltac:(lia)).
    destruct (acc_test_err (fone f) x (start f x) ltac:(lia) ltac:(lia) T) as [B _].
    assert (0 < / IZR (fone f))%R by (apply Rinv_0_lt_compat; apply IZR_lt; auto). lra.
  - assert (Hq : 16 <= fone f). { unfold fone. change 16 with (2 ^ 4). apply Z.pow_le_mono_r; lia. }
    destruct (beta_region f x F4 L U) as [k [be [I [K1 [K2 B]]]]].
    pose proof (region_of _ x k be Hq I K1 K2 ltac:(lia)) as R.
    pose proof (start_real (fone f) Hq x ltac:(lia) _ (y0_real f ltac:(lia))) as St. fold (start f x) in St.
    apply (ziter_conv (fone f) Hq x _ ltac:(lia) k be R B _ St n).
Qed.

(** ** within one region of the table the order is kept up to one unit *)
Lemma beta_same : forall f k x y, 4 <= ffrac f -> k * fone f <= 16 * x -> x <= y -> 16 * y < (k + 1) * fone f -> beta_bits f x = beta_bits f y.
Proof.
  intros f k x y F L H U. pose proof (fone_16 f F) as Q. assert (P : 0 < 2 ^ (ffrac f - 4)) by (apply Z.pow_pos_nonneg; lia).
  set (p := 2 ^ (ffrac f - 4)) in *. rewrite Q in L, U.
  assert (C : forall (t : f64) j, (B2R t = IZR j / 16)%R -> (x <? fx_bits f t) = (y <? fx_bits f t)).
  { intros t j T. rewrite (sixteenth f t j F T). fold p.
    destruct (Z_lt_le_dec k j) as [G|G].
    - assert (y < j * p) by nia. destruct (Z.ltb_spec x (j * p)), (Z.ltb_spec y (j * p)); auto; lia.
    - assert (j * p <= x) by nia. destruct (Z.ltb_spec x (j * p)), (Z.ltb_spec y (j * p)); auto; lia. }
  unfold beta_bits.
  rewrite (C lit_5_16 5), (C lit_6_16 6), (C lit_7_16 7), (C lit_8_16 8), (C lit_9_16 9), (C lit_10_16 10),
    (C lit_11_16 11), (C lit_12_16 12), (C lit_13_16 13), (C lit_14_16 14), (C lit_15_16 15); [reflexivity|..];
  unfold B2R, F2R; cbn; lra.
Qed.
Lemma start_step : forall f x y, x <= y -> 0 <= start f y - start f x /\ 3 * (start f y - start f x) <= 2 * (y - x) + 2.
Proof.
  intros f x y H. unfold start. set (c := fx_bits f lit_y0). 
  pose proof (Z.div_mod (2 * x) 3 ltac:(lia)). pose proof (Z.div_mod (2 * y) 3 ltac:(lia)).
  pose proof (Z.mod_pos_bound (2 * x) 3 ltac:(lia)). pose proof (Z.mod_pos_bound (2 * y) 3 ltac:(lia)).
  set (a := 2 * x / 3) in *. set (b := 2 * y / 3) in *. lia.
Qed.
Lemma step_order : forall q, 16 <= q -> forall x y b k be Yx Yy, 0 <= x -> x < y -> region k be (s q y) ->
  (Rabs (IZR b * / IZR q - bR be) <= / IZR q / 2 + / 1000000000000000)%R ->
  (Rabs (IZR Yy * / IZR q - y0i (s q y)) <= 3 / 2 * / IZR q + / 1000000000000000)%R ->
  0 <= Yx -> 0 <= Yy - Yx -> 3 * (Yy - Yx) <= 2 * (y - x) + 2 ->
  zstep q b x Yx <= zstep q b y Yy + 1.
Proof.
  intros q Q x y b k be Yx Yy X0 XY Rg Hb Hy Y0 E0 E1. unfold zstep.
  set (gx := Yx * Yx / q). set (gy := Yy * Yy / q). set (e := Yy - Yx) in *. set (d := y - x) in *.
  assert (G : q * (gy - gx) <= e * (Yx + Yy) + q - 1).
  { pose proof (Z.mul_div_le (Yy * Yy) q ltac:(lia)) as A. fold gy in A. pose proof (Z.mod_pos_bound (Yx * Yx) q ltac:(lia)) as B.
    pose proof (Z.div_mod (Yx * Yx) q ltac:(lia)) as D. fold gx in D. unfold e. replace ((Yy - Yx) * (Yx + Yy)) with (Yy * Yy - Yx * Yx) by ring. lia. }
  pose proof (u_pos q Q) as U. pose proof (Q_ge q Q) as QR. pose proof (region_s _ _ _ Rg) as Sr. pose proof (region_b _ _ _ Rg) as Br.
  pose proof (e0i_bound _ Sr) as EB. unfold e0i in EB. set (u := (/ IZR q)%R) in *.
  assert (UQ : (u * IZR q = 1)%R) by (apply Rinv_l; lra).
  assert (Ys : (Rabs (IZR Yy * u - s q y) <= 21 / 1000 + 3 / 2 * u + / 1000000000000000)%R).
  { replace (IZR Yy * u - s q y)%R with ((y0i (s q y) - s q y) + (IZR Yy * u - y0i (s q y)))%R by ring.
    eapply Rle_trans; [apply add_bound; [exact EB|exact Hy]|]. lra. }
  pose proof (slope_bound _ _ _ _ _ _ _ Rg Ys Hb) as Sl. 
  assert (Bq : (46 / 100 <= IZR b * u <= 1)%R) by (apply Rabs_le_inv in Hb; lra).
  assert (S2 : (IZR b * u * (IZR Yy * u + IZR Yy * u) <= 138 / 100)%R).
  { apply Rabs_le_inv in Sl. apply Rabs_le_inv in Ys. 
    assert (D1 : ((u / 2 + / 1000000000000000) * (2 + (21 / 1000 + 3 / 2 * u + / 1000000000000000)) <= 67 / 1000)%R) by nra.
    assert (D2 : (IZR b * u * (IZR Yy * u - s q y) <= 1 * (116 / 1000))%R).
    { destruct (Rle_lt_dec 0 (IZR Yy * u - s q y)) as [Z|Z]; [apply Rmult_le_compat; lra | nra]. }
    replace (IZR b * u * (IZR Yy * u + IZR Yy * u))%R with (IZR b * u * (IZR Yy * u + s q y) + IZR b * u * (IZR Yy * u - s q y))%R by ring. lra. }
  assert (B0 : (0 <= IZR b)%R). { replace (IZR b) with (IZR b * u * IZR q)%R by (rewrite Rmult_assoc, UQ; ring). apply Rmult_le_pos; lra. }
  (* in units of 1/q *)
  assert (M : (0 <= IZR b * (IZR d * IZR q - IZR e * (IZR Yx + IZR Yy) - IZR q + 1) + (IZR e + 1) * IZR q * IZR q)%R).
  { assert (XYr : (IZR Yx + IZR Yy <= IZR Yy + IZR Yy)%R) by (rewrite <- !plus_IZR; apply IZR_le; unfold e in E0; lia). apply IZR_le in E0.
    assert (d1 : (1 <= IZR d)%R) by (apply IZR_le; unfold d; lia). apply IZR_le in E1. rewrite plus_IZR, !mult_IZR in E1.
    assert (T1 : (IZR e * (IZR Yx + IZR Yy) <= IZR e * (IZR Yy + IZR Yy))%R) by (apply Rmult_le_compat_l; auto).
    assert (T2 : (IZR b * (IZR Yy + IZR Yy) <= 138 / 100 * (IZR q * IZR q))%R).
    { replace (IZR b * (IZR Yy + IZR Yy))%R with (IZR b * u * (IZR Yy * u + IZR Yy * u) * (IZR q * IZR q))%R.
      - apply Rmult_le_compat_r; [nra|auto].
      - replace (IZR b * u * (IZR Yy * u + IZR Yy * u) * (IZR q * IZR q))%R with (IZR b * (IZR Yy + IZR Yy) * (u * IZR q) * (u * IZR q))%R by ring. rewrite UQ. ring. }
    assert (T3 : (IZR e * (IZR b * (IZR Yy + IZR Yy)) <= IZR e * (138 / 100 * (IZR q * IZR q)))%R) by (apply Rmult_le_compat_l; auto).
    assert (T4 : (46 / 100 * IZR q <= IZR b)%R).
    { replace (IZR b) with (IZR b * u * IZR q)%R by (rewrite Rmult_assoc, UQ; ring). apply Rmult_le_compat_r; lra. }
    assert (T5 : (46 / 100 * IZR q * ((IZR d - 1) * IZR q) <= IZR b * ((IZR d - 1) * IZR q))%R).
    { apply Rmult_le_compat_r; auto. apply Rmult_le_pos; lra. }
    assert (T6 : (IZR e * (38 / 100) <= 38 / 100 * (2 * IZR d + 2) / 3)%R) by lra.
    assert (T7 : (0 <= (46 / 100 * (IZR d - 1) + 1 - IZR e * (38 / 100)) * (IZR q * IZR q))%R) by (apply Rmult_le_pos; [lra|nra]).
    apply Rmult_le_compat_l with (r := IZR b) in T1; auto. clear - B0 T1 T3 T5 T7. nra. }
  assert (MZ : 0 <= b * (d * q - e * (Yx + Yy) - q + 1) + (e + 1) * q * q).
  { apply le_IZR. rewrite !plus_IZR, !mult_IZR, !plus_IZR, !minus_IZR, !mult_IZR, !plus_IZR. exact M. }
  assert (b0 : 0 <= b) by (apply le_IZR; auto).
  assert (K : - (e + 1) * q <= b * (d - (gy - gx))).
  { assert (b * (q * (gy - gx)) <= b * (e * (Yx + Yy) + q - 1)) by (apply Z.mul_le_mono_nonneg_l; auto).
    assert (0 <= q * (b * (d - (gy - gx)) + (e + 1) * q)).
    { replace (q * (b * (d - (gy - gx)) + (e + 1) * q)) with (b * (d * q - e * (Yx + Yy) - q + 1) + (e + 1) * q * q + (b * (e * (Yx + Yy) + q - 1) - b * (q * (gy - gx)))) by ring. lia. }
    assert (0 <= b * (d - (gy - gx)) + (e + 1) * q) by (apply Z.mul_nonneg_cancel_l with q; lia). lia. }
  assert (D : b * (x - gx) / q <= b * (y - gy) / q + (e + 1)).
  { rewrite <- Z.div_add by lia. apply Z.div_le_mono; [lia|]. replace (y - gy) with (x - gx + (d - (gy - gx))) by (unfold d; ring). lia. }
  unfold e in D. lia.
Qed.
Lemma sqrt_region_order : forall m f, supported f = true -> fsigned f = true -> 2 <= ffrac f ->
  forall k x y, 4 <= k <= 15 -> k * fone f <= 16 * x -> x <= y -> 16 * y < (k + 1) * fone f ->
  exists rx ry, returns (fun fuel => mixed_sqrt (fixed_sqrt m f fuel) x) rx /\ returns (fun fuel => mixed_sqrt (fixed_sqrt m f fuel) y) ry /\ rx <= ry + 1.
Proof.
  intros m f Sp Sg F2 k x y K L H U. pose proof (supported_fwf f Sp) as W. pose proof (fone_pos f ltac:(lia)) as Q.
  eexists _, _. split; [exists 1%nat; intros [|fuel] Hf; [lia|]; apply (niirf_norm m f W F2); auto; nia|].
  split; [exists 1%nat; intros [|fuel] Hf; [lia|]; apply (niirf_norm m f W F2); auto; nia|].
  change (2 - 1)%N with 1%N. unfold ziter. change (N.iter 1 ?g ?x) with (g x). destruct (start_step f x y H) as [S1 S2].
  destruct (Z_lt_le_dec (ffrac f) 4) as [F3|F4].
  - destruct (core_small f x ltac:(lia) ltac:(nia) ltac:(nia)) as [-> _]. destruct (core_small f y ltac:(lia) ltac:(nia) ltac:(nia)) as [-> _]. lia.
  - rewrite (beta_same f k x y F4 L H U). destruct (Z.eq_dec x y) as [->|Nxy]; [lia|].
    assert (Hq : 16 <= fone f). { unfold fone. change 16 with (2 ^ 4). apply Z.pow_le_mono_r; lia. }
    destruct (beta_region f y F4 ltac:(nia) ltac:(nia)) as [k' [be [I [K1 [K2 B]]]]].
    pose proof (region_of _ y k' be Hq I K1 K2 ltac:(nia)) as R.
    pose proof (start_real (fone f) Hq y ltac:(nia) _ (y0_real f ltac:(lia))) as St. fold (start f y) in St.
    apply (step_order (fone f) Hq x y _ k' be); auto; try nia.
    unfold start. assert (0 <= fx_bits f lit_y0); [|pose proof (Z.div_pos (2 * x) 3 ltac:(nia) ltac:(lia)); lia].
    apply (unit_lit f _ _ lit_y0); [lia|]. unfold B2R, F2R. cbn. lra.
Qed.
