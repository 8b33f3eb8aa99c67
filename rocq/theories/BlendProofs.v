(** * Interpolation, averages and smoothing in fixed point. *)

From Coq Require Import ZArith Reals List Lia Lra Psatz.
From Flocq Require Import Core.Core.
From Verif Require Import Base FloatBase Traits FixedPrim FixedImpl Spec Lemmas ScalarProofs SpecBlend.
Import ListNotations.
Open Scope Z_scope.

Section F.
Variables (m : mode) (f : fty).
Hypothesis Hf : supported f = true.
Let O := fixed_ops m f.

Lemma width_pos : 1 <= fwidth f /\ 0 <= ffrac f /\ ffrac f <= fwidth f - 3.
Proof using Hf. pose proof (supported_fwf f Hf) as W. unfold fwf in W. lia. Qed.
Lemma one_pos : 0 < fone f.
Proof using Hf. unfold fone. apply Z.pow_pos_nonneg; [lia|]. pose proof width_pos. lia. Qed.
Lemma between_valid : forall a b c, fvalid f a -> fvalid f b -> a <= c <= b -> fvalid f c.
Proof using. unfold fvalid, in_range. lia. Qed.
Lemma zero_valid : fvalid f 0.
Proof using Hf.
  pose proof width_pos as (W & _). unfold fvalid, in_range, fity, imin, imax. cbn [isigned iwidth].
  assert (0 < 2 ^ (fwidth f - 1)) by (apply Z.pow_pos_nonneg; lia). assert (0 < 2 ^ fwidth f) by (apply Z.pow_pos_nonneg; lia). destruct (fsigned f); lia.
Qed.
Lemma fin_valid : forall z, fvalid f z -> fin m (fity f) z = Ok z.
Proof using. intros z V. apply fin_ok. exact V. Qed.

(** the share of a difference, rounded down *)
Definition share (d t : Z) : Z := d * t / fone f.
Lemma share_pos : forall d t, 0 <= d -> 0 <= t <= fone f -> 0 <= share d t <= d.
Proof using Hf.
  intros d t D T. pose proof one_pos. unfold share. split; [apply Z.div_pos; nia|].
  apply Z.le_trans with (d * fone f / fone f); [apply Z.div_le_mono; nia | rewrite Z.div_mul; lia].
Qed.
Lemma share_neg : forall d t, d <= 0 -> 0 <= t <= fone f -> d <= share d t <= 0.
Proof using Hf.
  intros d t D T. pose proof one_pos. unfold share. split.
  - apply Z.le_trans with (d * fone f / fone f); [rewrite Z.div_mul; lia | apply Z.div_le_mono; nia].
  - apply Z.le_trans with (0 / fone f); [apply Z.div_le_mono; nia | rewrite Z.div_0_l; lia].
Qed.

Lemma lerp_eq : forall a b t, fvalid f a -> fvalid f b -> fvalid f (b - a) -> 0 <= t <= fone f -> lerp O a b t = Ok (a + share (b - a) t).
Proof using Hf.
  intros a b t A B D T. unfold lerp. cbn [O o_sub o_mul o_add fixed_ops]. unfold fx_sub, fx_mul, fx_add, fx_fin.
  rewrite (fin_valid (b - a)) by auto. cbn [bind]. fold (share (b - a) t). pose proof zero_valid as Z0.
  destruct (Z.le_ge_cases 0 (b - a)) as [H|H].
  - pose proof (share_pos (b - a) t H T). rewrite (fin_valid (share (b - a) t)) by (apply (between_valid 0 (b - a)); auto). cbn [bind].
    apply fin_valid. apply (between_valid a b); auto. lia.
  - pose proof (share_neg (b - a) t H T). rewrite (fin_valid (share (b - a) t)) by (apply (between_valid (b - a) 0); auto). cbn [bind].
    apply fin_valid. apply (between_valid b a); auto. lia.
Qed.

Lemma lerp_all : forall a b t, fvalid f a -> fvalid f b -> fvalid f (b - a) -> 0 <= t <= fone f ->
  exists r, lerp O a b t = Ok r /\ Z.min a b <= r <= Z.max a b /\ (t = 0 -> r = a) /\ (t = fone f -> r = b) /\ (a = b -> r = a) /\
  (fval f r <= fval f a + (fval f b - fval f a) * fval f t < fval f r + ulp f)%R.
Proof using Hf.
  intros a b t A B D T. exists (a + share (b - a) t). split; [apply lerp_eq; auto|]. pose proof one_pos as P. split; [|split; [|split; [|split]]].
  - destruct (Z.le_ge_cases 0 (b - a)) as [H|H]; [pose proof (share_pos (b - a) t H T) | pose proof (share_neg (b - a) t H T)]; lia.
  - intros ->. unfold share. rewrite Z.mul_0_r, Z.div_0_l; lia.
  - intros ->. unfold share. rewrite Z.div_mul; lia.
  - intros <-. unfold share. rewrite Z.sub_diag, Z.mul_0_l, Z.div_0_l; lia.
  - pose proof (Z.div_mod ((b - a) * t) (fone f) ltac:(lia)) as E. fold (share (b - a) t) in E. pose proof (Z.mod_pos_bound ((b - a) * t) (fone f) P) as M.
    set (q := share (b - a) t) in *. set (r := ((b - a) * t) mod fone f) in *.
    unfold fval, ulp. set (w := bpow radix2 (- ffrac f)). assert (W : (0 < w)%R) by apply bpow_gt_0.
    assert (FW : (IZR (fone f) * w = 1)%R).
    { unfold w, fone. change 2 with (radix_val radix2) at 1. rewrite IZR_Zpower by (pose proof width_pos; lia). rewrite <- bpow_plus, Z.add_opp_diag_r. reflexivity. }
    assert (ER : (IZR (b - a) * IZR t = IZR (fone f) * IZR q + IZR r)%R) by (rewrite <- !mult_IZR, <- plus_IZR; f_equal; exact E).
    assert (RB : (0 <= IZR r < IZR (fone f))%R) by (split; [apply IZR_le | apply IZR_lt]; lia).
    rewrite minus_IZR in ER. rewrite plus_IZR.
    replace (IZR a * w + (IZR b * w - IZR a * w) * (IZR t * w))%R with (IZR a * w + ((IZR b - IZR a) * IZR t) * w * w)%R by ring. rewrite ER.
    replace (IZR a * w + (IZR (fone f) * IZR q + IZR r) * w * w)%R with ((IZR a + IZR q) * w + (IZR r * w) * w)%R by (replace ((IZR (fone f) * IZR q + IZR r) * w * w)%R with ((IZR (fone f) * w) * IZR q * w + IZR r * w * w)%R by ring; rewrite FW; ring).
    assert (RW : (0 <= IZR r * w < 1)%R) by (rewrite <- FW; split; [apply Rmult_le_pos; lra | apply Rmult_lt_compat_r; lra]). nra.
Qed.
Lemma lerp_mono : forall a b t t' r r', fvalid f a -> fvalid f b -> fvalid f (b - a) -> 0 <= t -> t <= t' -> t' <= fone f ->
  lerp O a b t = Ok r -> lerp O a b t' = Ok r' -> (a <= b -> r <= r') /\ (b <= a -> r' <= r).
Proof using Hf.
  intros a b t t' r r' A B D T1 T2 T3 E E'. rewrite lerp_eq in E, E' by (auto; lia). injection E as <-. injection E' as <-. pose proof one_pos as PP.
  unfold share. split; intros H; apply Zplus_le_compat_l, Z.div_le_mono; nia.
Qed.

(** ** averages *)
Lemma total_eq : forall l acc, (forall k, fvalid f (acc + sumZ (firstn k l))) -> total O acc l = Ok (acc + sumZ l).
Proof using.
  induction l as [|x l IH]; intros acc H.
  - cbn. rewrite Z.add_0_r. reflexivity.
  - cbn [total]. cbn [O o_add fixed_ops]. unfold fx_add, fx_fin. pose proof (H 1%nat) as H1. cbn [firstn] in H1. replace (sumZ [x]) with x in H1 by (cbn; lia).
    rewrite fin_valid by auto. cbn [bind]. rewrite IH; [f_equal; cbn [sumZ fold_right]; fold (sumZ l); lia|].
    intros k. pose proof (H (S k)) as HK. cbn [firstn] in HK. cbn [sumZ fold_right] in HK. fold (sumZ (firstn k l)) in HK. rewrite <- Z.add_assoc. exact HK.
Qed.
Lemma sum_bounds : forall l lo hi, (forall x, In x l -> lo <= x <= hi) -> Z.of_nat (length l) * lo <= sumZ l <= Z.of_nat (length l) * hi.
Proof using.
  induction l as [|x l IH]; intros lo hi H; [cbn; lia|]. cbn [sumZ fold_right length]. fold (sumZ l). pose proof (H x (or_introl eq_refl)). specialize (IH lo hi (fun y Y => H y (or_intror Y))). lia.
Qed.
Lemma quot_between : forall s n lo hi, 0 < n -> n * lo <= s <= n * hi -> lo <= Z.quot s n <= hi.
Proof using.
  intros s n lo hi N [A B]. destruct (Z.le_gt_cases 0 s) as [S|S].
  - rewrite Z.quot_div_nonneg by lia. split; [apply Z.div_le_lower_bound; lia | apply Z.div_le_upper_bound; lia].
  - replace s with (- (- s)) by ring. rewrite Z.quot_opp_l by lia. rewrite Z.quot_div_nonneg by lia. pose proof (Z.div_le_upper_bound (- s) n (- lo) N). pose proof (Z.div_le_lower_bound (- s) n (- hi) N). lia.
Qed.
Lemma mean_all : forall l, l <> [] -> (forall k, fvalid f (sumZ (firstn k l))) -> fvalid f (Z.of_nat (length l) * fone f) ->
  let n := Z.of_nat (length l) in
  exists r, mean O 0 l = Ok r /\ r = Z.quot (sumZ l) n /\ (forall lo hi, (forall x, In x l -> lo <= x <= hi) -> lo <= r <= hi) /\
  (Rabs (fval f r - fval f (sumZ l) / IZR n) < ulp f)%R.
Proof using Hf.
  intros l NE H HN n. assert (N : 0 < n) by (unfold n; destruct l; [congruence|]; cbn [length]; lia). pose proof one_pos as P.
  exists (Z.quot (sumZ l) n).
  assert (BT : forall lo hi, (forall x, In x l -> lo <= x <= hi) -> lo <= Z.quot (sumZ l) n <= hi) by (intros lo hi B; apply quot_between; auto; apply sum_bounds; auto).
  assert (SV : fvalid f (sumZ l)) by (pose proof (H (length l)) as K; rewrite firstn_all in K; exact K).
  assert (QV : fvalid f (Z.quot (sumZ l) n)).
  { pose proof zero_valid as Z0. destruct (Z.le_gt_cases 0 (sumZ l)) as [S|S].
    - apply (between_valid 0 (sumZ l)); auto. apply quot_between; auto. nia.
    - apply (between_valid (sumZ l) 0); auto. apply quot_between; auto. nia. }
  split; [|split; [reflexivity|split; [exact BT|]]].
  - unfold mean. rewrite total_eq by exact H. cbn [bind]. cbn [O o_of_i32 fixed_ops]. unfold fx_of_int, fx_fin. fold n. rewrite fin_valid by exact HN. cbn [bind].
    cbn [O o_div fixed_ops]. unfold fx_div, fx_fin. destruct (Z.eqb_spec (n * fone f) 0); [nia|]. rewrite Z.add_0_l, Z.quot_mul_cancel_r by lia. apply fin_valid. exact QV.
  - pose proof (Z.quot_rem' (sumZ l) n) as E. pose proof (Z.rem_bound_abs (sumZ l) n ltac:(lia)) as R. rewrite (Z.abs_eq n) in R by lia.
    set (q := Z.quot (sumZ l) n) in *. set (rm := Z.rem (sumZ l) n) in *.
    unfold fval, ulp. set (w := bpow radix2 (- ffrac f)). assert (W : (0 < w)%R) by apply bpow_gt_0.
    rewrite E at 1. rewrite plus_IZR, mult_IZR. assert (NR : (0 < IZR n)%R) by (apply IZR_lt; auto).
    replace (IZR q * w - (IZR n * IZR q + IZR rm) * w / IZR n)%R with (- (IZR rm / IZR n) * w)%R by (field; lra).
    rewrite Rabs_mult, Rabs_Ropp, (Rabs_pos_eq w) by lra. rewrite <- (Rmult_1_l w) at 2. apply Rmult_lt_compat_r; auto.
    unfold Rdiv. rewrite Rabs_mult, Rabs_inv, (Rabs_pos_eq (IZR n)) by lra. apply Rmult_lt_reg_r with (IZR n); auto. rewrite Rmult_assoc, Rinv_l, Rmult_1_r, Rmult_1_l by lra.
    rewrite <- abs_IZR. apply IZR_lt. exact R.
Qed.
Lemma mean_const : forall x n, (0 < n)%nat -> fvalid f x -> fvalid f (Z.of_nat n * x) -> fvalid f (Z.of_nat n * fone f) -> mean O 0 (repeat x n) = Ok x.
Proof using Hf.
  intros x n N V VN VO. assert (S : forall k, sumZ (repeat x k) = Z.of_nat k * x).
  { induction k as [|k IH]; [reflexivity|]. cbn [repeat sumZ fold_right]. fold (sumZ (repeat x k)). lia. }
  pose proof zero_valid as Z0.
  destruct (mean_all (repeat x n)) as (r & E & _ & B & _).
  - destruct n; [lia | discriminate].
  - intros k. assert (FN : firstn k (repeat x n) = repeat x (Nat.min k n)).
    { clear. revert n. induction k as [|k IH]; intros [|n]; cbn; auto. f_equal. apply IH. }
    rewrite FN, S. assert (K : 0 <= Z.of_nat (Nat.min k n) <= Z.of_nat n) by lia.
    destruct (Z.le_gt_cases 0 x); [apply (between_valid 0 (Z.of_nat n * x)) | apply (between_valid (Z.of_nat n * x) 0)]; auto; nia.
  - rewrite repeat_length. exact VO.
  - rewrite E. f_equal. specialize (B x x). enough (x <= r <= x) by lia. apply B. intros y Y. apply repeat_spec in Y. subst. lia.
Qed.

(** ** exponential smoothing *)
Variables (alpha lo hi : Z).
Hypothesis Ha : 0 <= alpha <= fone f.
Hypothesis Hlo : fvalid f lo.
Hypothesis Hhi : fvalid f hi.
Hypothesis Hd : fvalid f (hi - lo).
Hypothesis Hd' : fvalid f (lo - hi).

Lemma step_ok : forall y x, lo <= y <= hi -> lo <= x <= hi -> lerp O y x alpha = Ok (y + share (x - y) alpha) /\ lo <= y + share (x - y) alpha <= hi.
Proof using Hf Ha Hlo Hhi Hd Hd'.
  intros y x Y X. assert (V : fvalid f (x - y)) by (apply (between_valid (lo - hi) (hi - lo)); auto; lia). split.
  - apply lerp_eq; auto; apply (between_valid lo hi); auto.
  - destruct (Z.le_ge_cases 0 (x - y)) as [H|H]; [pose proof (share_pos (x - y) alpha H Ha) | pose proof (share_neg (x - y) alpha H Ha)]; lia.
Qed.
Lemma smooth_between : forall l y, lo <= y <= hi -> (forall x, In x l -> lo <= x <= hi) -> exists r, smooth O alpha y l = Ok r /\ lo <= r <= hi.
Proof using Hf Ha Hlo Hhi Hd Hd'.
  induction l as [|x l IH]; intros y Y H; [exists y; auto|]. destruct (step_ok y x Y (H x (or_introl eq_refl))) as [E B].
  destruct (IH _ B (fun z Z => H z (or_intror Z))) as (r & R & RB). exists r. split; auto. cbn [smooth]. rewrite E. exact R.
Qed.
(** constant input from above: reached exactly *)
Lemma smooth_above : 0 < alpha -> forall n x y, lo <= x -> x <= y -> y <= hi -> y - x <= Z.of_nat n -> smooth O alpha y (repeat x n) = Ok x.
Proof using Hf Ha Hlo Hhi Hd Hd'.
  intros A0. induction n as [|n IH]; intros x y X XY Y N; [cbn; f_equal; lia|]. cbn [repeat smooth].
  destruct (step_ok y x ltac:(lia) ltac:(lia)) as [E B]. rewrite E. cbn [bind]. pose proof one_pos as P.
  pose proof (share_neg (x - y) alpha ltac:(lia) Ha) as S. apply IH; try lia.
  destruct (Z.eq_dec x y) as [->|NE]; [lia|]. assert (share (x - y) alpha <= -1); [|lia].
  unfold share. assert ((x - y) * alpha < 0) by nia. pose proof (Z.div_mod ((x - y) * alpha) (fone f) ltac:(lia)). pose proof (Z.mod_pos_bound ((x - y) * alpha) (fone f) P). nia.
Qed.
(** constant input from below: stuck as soon as the increment is less than one unit *)
Lemma smooth_stuck : forall n x y, lo <= y -> y <= x -> x <= hi -> (x - y) * alpha < fone f -> smooth O alpha y (repeat x n) = Ok y.
Proof using Hf Ha Hlo Hhi Hd Hd'.
  induction n as [|n IH]; intros x y Y YX X S; [reflexivity|]. cbn [repeat smooth]. destruct (step_ok y x ltac:(lia) ltac:(lia)) as [E B]. rewrite E. cbn [bind].
  assert (Z0 : share (x - y) alpha = 0) by (unfold share; apply Z.div_small; nia). rewrite Z0, Z.add_0_r. apply IH; auto.
Qed.
Lemma smooth_below : forall n x y, lo <= y -> y <= x -> x <= hi -> x - y <= Z.of_nat n -> exists r, smooth O alpha y (repeat x n) = Ok r /\ y <= r <= x /\ (x - r) * alpha < fone f.
Proof using Hf Ha Hlo Hhi Hd Hd'.
  induction n as [|n IH]; intros x y Y YX X N.
  - exists y. assert (x = y) by lia. subst. split; [reflexivity|]. split; [lia|]. rewrite Z.sub_diag, Z.mul_0_l. apply one_pos.
  - destruct (Z.lt_ge_cases ((x - y) * alpha) (fone f)) as [S|S]; [exists y; split; [apply smooth_stuck; auto | lia]|].
    cbn [repeat smooth]. destruct (step_ok y x ltac:(lia) ltac:(lia)) as [E B]. rewrite E. cbn [bind]. pose proof one_pos as P.
    pose proof (share_pos (x - y) alpha ltac:(lia) Ha) as SP. assert (1 <= share (x - y) alpha) by (unfold share; apply Z.div_le_lower_bound; lia).
    destruct (IH x (y + share (x - y) alpha)) as (r & R & RB & RS); try lia. exists r. split; auto. split; [lia|auto].
Qed.
(** from below the input is reached only by taking it whole *)
Lemma smooth_never : alpha < fone f -> forall n x y, lo <= y -> y < x -> x <= hi -> exists r, smooth O alpha y (repeat x n) = Ok r /\ y <= r < x.
Proof using Hf Ha Hlo Hhi Hd Hd'.
  intros A1. induction n as [|n IH]; intros x y Y YX X; [exists y; split; [reflexivity | lia]|]. cbn [repeat smooth].
  destruct (step_ok y x ltac:(lia) ltac:(lia)) as [E B]. rewrite E. cbn [bind]. pose proof one_pos as P.
  pose proof (share_pos (x - y) alpha ltac:(lia) Ha) as SP.
  assert (L : share (x - y) alpha < x - y) by (unfold share; apply Z.div_lt_upper_bound; nia).
  destruct (IH x (y + share (x - y) alpha)) as (r & R & RB); try lia. exists r. split; auto. lia.
Qed.
Lemma smooth_iff : 0 < alpha -> forall n x y, (0 < n)%nat -> lo <= y <= hi -> lo <= x <= hi -> Z.abs (x - y) <= Z.of_nat n ->
  (smooth O alpha y (repeat x n) = Ok x <-> x <= y \/ alpha = fone f).
Proof using Hf Ha Hlo Hhi Hd Hd'.
  intros A0 n x y N Y X D. split.
  - intros E. destruct (Z.le_gt_cases x y) as [H|H]; auto. right. destruct (Z.eq_dec alpha (fone f)) as [|NE]; auto.
    destruct (smooth_never ltac:(lia) n x y) as (r & R & RB); try lia. rewrite R in E. injection E as E. lia.
  - intros H. destruct (Z.le_gt_cases x y) as [G|G]; [apply smooth_above; lia|]. destruct H as [H|H]; [lia|].
    destruct (smooth_below n x y) as (r & R & RB & RS); try lia. rewrite R. f_equal. rewrite H in RS. pose proof one_pos. nia.
Qed.
End F.
