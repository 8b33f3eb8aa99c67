(** * Negative integer exponents in fixed point (proofs for C17): the exponent becomes 2^64 - n. *)

From Coq Require Import ZArith NArith Reals Lia Lra Psatz Bool.
From Flocq Require Import Core.Core.
From Verif Require Import Base FloatBase Traits Trig FixedPrim FixedImpl Spec Lemmas ScalarProofs ScalarProofs2.
Open Scope Z_scope.

Section P.
Variables (m : mode) (f : fty).
Hypothesis Hf : supported f = true.
Notation F := (fone f).
Lemma F_pos : 0 < F /\ F <= 2 ^ 61.
Proof using Hf. split; [apply fone_pos; exact (proj1 (supported_fwf f Hf))|]. unfold fone. apply supported_inv in Hf. apply Z.pow_le_mono_r; lia. Qed.

(** below one in size: 0 in the end *)
Definition size (t : Z) : Z := if t <? 0 then -2 * t - 1 else 2 * t.
Lemma flush_all : forall x (n : N), - F < x < F -> fvalid f x -> (Z.to_N (2 * F + 1) <= n)%N -> powi (fixed_ops m f) x n = Ok 0.
Proof using Hf.
  intros x n X V Hn. pose proof F_pos as [P _]. pose proof (supported_fwf f Hf) as W.
  destruct (Z.le_gt_cases 0 x) as [X0|X0]; [apply fixed_powi_flush; auto; lia|].
  assert (US : fsigned f = false -> 0 <= x) by (intros S; unfold fvalid, in_range, imin, fity in V; cbn [isigned] in V; rewrite S in V; lia).
  assert (K : forall k : N, exists r, powi (fixed_ops m f) x (N.succ k) = Ok r /\ fvalid f r /\ - F < r < F /\ (fsigned f = false -> 0 <= r) /\ size r <= Z.max 0 (2 * F - Z.of_N k)).
  { induction k using N.peano_ind.
    - exists x. rewrite powi_1. split; auto. split; auto. split; auto. split; auto. unfold size. destruct (Z.ltb_spec x 0); lia.
    - destruct IHk as (r & E & VR & R & UR & SZ). rewrite powi_succ, E. cbn [bind]. set (q := r * x / F).
      assert (Q : q * F <= r * x < q * F + F) by (unfold q; pose proof (Z.div_mod (r * x) F); pose proof (Z.mod_pos_bound (r * x) F); lia).
      assert (S : (r = 0 /\ q = 0) \/ size q < size r).
      { destruct (Z.eq_dec r 0) as [->|R0]; [left; split; auto|]. right. unfold size. destruct (Z.ltb_spec q 0), (Z.ltb_spec r 0); nia. }
      assert (QR : - F < q < F) by (split; nia).
      assert (UQ : fsigned f = false -> 0 <= q) by (intros U; specialize (US U); specialize (UR U); apply Z.div_pos; nia).
      assert (VQ : fvalid f q).
      { pose proof W as [W1 W2]. unfold fvalid, in_range, imin, imax, fity. cbn [isigned iwidth].
        assert (F < 2 ^ (fwidth f - 1)) by (unfold fone; apply Z.pow_lt_mono_r; lia). assert (2 ^ (fwidth f - 1) <= 2 ^ fwidth f) by (apply Z.pow_le_mono_r; lia).
        destruct (fsigned f); [lia|]. specialize (UQ eq_refl). lia. }
      exists q. split; [apply fx_fin_ok; exact VQ|]. split; auto. split; auto. split; auto.
      destruct S as [[-> ->]|S]; [unfold size; cbn; lia|]. assert (0 <= size q) by (unfold size; destruct (Z.ltb_spec q 0); lia). lia. }
  destruct (N.eq_dec n 0) as [->|Hn0]; [lia|].
  replace n with (N.succ (n - 1)) by lia. destruct (K (n - 1)%N) as (r & E & _ & _ & _ & SZ). rewrite E. f_equal.
  unfold size in SZ. destruct (Z.ltb_spec r 0); lia.
Qed.

(** one in size *)
Lemma unit_power : forall k (n : N), k = 1 \/ k = -1 -> fvalid f (k * F) -> powi (fixed_ops m f) (k * F) n = Ok ((if Z.even (Z.of_N n) then 1 else k) * F).
Proof using Hf.
  intros k n K V. rewrite fixed_powi_int by (auto; apply supported_fwf; auto). pose proof F_pos as [P _].
  assert (E : k ^ Z.of_N n = if Z.even (Z.of_N n) then 1 else k).
  { destruct K as [->| ->]; [rewrite Z.pow_1_l by lia; destruct (Z.even _); reflexivity|]. destruct (Z.even (Z.of_N n)) eqn:EV.
    - apply Z.even_spec in EV. change (-1) with (- (1)). rewrite Z.pow_opp_even by exact EV. apply Z.pow_1_l. lia.
    - assert (O : Z.Odd (Z.of_N n)) by (apply Z.odd_spec; rewrite <- Z.negb_even, EV; reflexivity). change (-1) with (- (1)). rewrite Z.pow_opp_odd by exact O. rewrite Z.pow_1_l by lia. reflexivity. }
  rewrite E. apply fx_fin_ok. destruct (Z.even (Z.of_N n)); auto. apply unit_fvalid; try apply supported_fwf; auto; lia.
Qed.
End P.

(** above one in size: the checked build overflows *)
Section D.
Variables (f : fty) (x : Z).
Hypothesis Hf : supported f = true.
Notation F := (fone f).
Hypothesis Hx : F < Z.abs x.
Hypothesis Vx : fvalid f x.
Definition over (c b : Z) (r : res Z) : Prop := r = Panic POverflow \/ exists t, r = Ok t /\ fvalid f t /\ c * F <= Z.abs t /\ b <= Z.abs t.
Lemma grow : forall c b r, 0 <= c -> over c b r -> over c (b + c) (t <- r ;; o_mul (fixed_ops Debug f) t x).
Proof using Hf Hx Vx.
  intros c b r C [->|(t & -> & V & T & B)]; [left; reflexivity|]. cbn [bind]. change (o_mul (fixed_ops Debug f) t x) with (fx_fin Debug f (t * x / F)). set (q := t * x / F).
  pose proof (F_pos f Hf) as [P _].
  assert (Q : q * F <= t * x < q * F + F) by (unfold q; pose proof (Z.div_mod (t * x) F); pose proof (Z.mod_pos_bound (t * x) F); lia).
  assert (G : Z.abs t + c <= Z.abs q).
  { assert (AX : F + 1 <= Z.abs x) by lia. assert (A : (Z.abs t + c) * F <= Z.abs (t * x)) by (rewrite Z.abs_mul; pose proof (Z.mul_le_mono_nonneg_l _ _ (Z.abs t) (Z.abs_nonneg t) AX); lia).
    destruct (Z.le_gt_cases 0 (t * x)) as [S|S].
    - assert (0 <= q) by (apply Z.div_pos; lia). rewrite (Z.abs_eq (t * x)) in A by lia. rewrite (Z.abs_eq q) by lia. nia.
    - assert (q < 0) by nia. rewrite (Z.abs_neq (t * x)) in A by lia. rewrite (Z.abs_neq q) by lia. nia. }
  destruct (in_rangeb (fity f) q) eqn:R.
  - apply in_rangeb_spec in R. right. exists q. split; [apply fin_ok; exact R|]. split; [exact R|]. lia.
  - left. apply fin_debug_over. apply in_rangeb_false. exact R.
Qed.
Lemma grow_n : forall c b n (k : N), 0 <= c -> over c b (powi (fixed_ops Debug f) x (N.succ n)) -> over c (b + c * Z.of_N k) (powi (fixed_ops Debug f) x (N.succ (n + k))).
Proof using Hf Hx Vx.
  intros c b n k C H. induction k using N.peano_ind.
  - rewrite N.add_0_r, Z.mul_0_r, Z.add_0_r. exact H.
  - rewrite N.add_succ_r. rewrite powi_succ. replace (b + c * Z.of_N (N.succ k)) with (b + c * Z.of_N k + c) by lia. apply grow; auto.
Qed.
Lemma overflow_neg : forall n : N, (3 * 2 ^ 62 + 2 <= n)%N -> powi (fixed_ops Debug f) x n = Panic POverflow.
Proof using Hf Hx Vx.
  intros n Hn. pose proof (F_pos f Hf) as [P FB].
  assert (S0 : over 1 F (powi (fixed_ops Debug f) x (N.succ 0))) by (right; exists x; rewrite powi_1; split; auto; split; auto; lia).
  pose proof (grow_n 1 F 0 (2 ^ 61)%N ltac:(lia) S0) as S1. change (Z.of_N (2 ^ 61)) with (2 ^ 61) in S1. rewrite N.add_0_l in S1.
  assert (S2 : over 2 (2 * F) (powi (fixed_ops Debug f) x (N.succ (2 ^ 61)))).
  { destruct S1 as [S1|(t & E & V & A & B)]; [left; exact S1 | right; exists t; split; auto; split; auto; lia]. }
  pose proof (grow_n 2 (2 * F) (2 ^ 61)%N (n - 1 - 2 ^ 61)%N ltac:(lia) S2) as S3.
  replace (N.succ (2 ^ 61 + (n - 1 - 2 ^ 61))) with n in S3 by (change (2 ^ 61)%N with 2305843009213693952%N; change (2 ^ 62)%N with 4611686018427387904%N in Hn; lia).
  destruct S3 as [S3|(t & E & V & A & B)]; [exact S3|exfalso].
  assert (VB : Z.abs t <= 2 ^ 64).
  { unfold fvalid, in_range, imin, imax, fity in V. cbn [isigned iwidth] in V. apply supported_inv in Hf.
    assert (2 ^ (fwidth f - 1) <= 2 ^ 63) by (apply Z.pow_le_mono_r; lia). assert (2 ^ fwidth f <= 2 ^ 64) by (apply Z.pow_le_mono_r; lia).
    assert (2 ^ 63 <= 2 ^ 64) by (apply Z.pow_le_mono_r; lia). destruct (fsigned f); lia. }
  assert (2 ^ 63 + 1 <= Z.of_N (n - 1 - 2 ^ 61)).
  { change (2 ^ 61)%N with 2305843009213693952%N. change (2 ^ 62)%N with 4611686018427387904%N in Hn. change (2 ^ 63) with 9223372036854775808. lia. }
  change (2 ^ 63) with 9223372036854775808 in *. change (2 ^ 64) with 18446744073709551616 in *. lia.
Qed.
End D.

Lemma negative_fixed : forall m f x n, supported f = true -> fvalid f x -> - 2 ^ 31 <= n < 0 ->
  (Z.abs x < 2 ^ ffrac f -> mixed_powi (fixed_powi m f) x n = Ok 0) /\
  (Z.abs x = 2 ^ ffrac f -> mixed_powi (fixed_powi m f) x n = Ok (if Z.even n then 2 ^ ffrac f else x)) /\
  (2 ^ ffrac f < Z.abs x -> mixed_powi (fixed_powi Debug f) x n = Panic POverflow).
Proof.
  intros m f x n Hf V Hn. pose proof (F_pos f Hf) as [P FB]. cbn [mixed_powi fixed_powi]. rewrite to_N_usize_neg by auto. fold (fone f).
  change (2 ^ 64) with 18446744073709551616. change (2 ^ 31) with 2147483648 in Hn. change (2 ^ 61) with 2305843009213693952 in FB.
  split; [|split].
  - intros X. apply flush_all; auto; lia.
  - intros X. destruct (Z.le_gt_cases 0 x) as [E|E].
    + replace x with (1 * fone f) by lia. rewrite unit_power by (auto; replace (1 * fone f) with x by lia; auto). destruct (Z.even _), (Z.even n); f_equal; lia.
    + replace x with ((-1) * fone f) by lia. rewrite unit_power by (auto; replace ((-1) * fone f) with x by lia; auto).
      rewrite Z2N.id by lia. rewrite Z.even_add. change (Z.even 18446744073709551616) with true. destruct (Z.even n); cbn [Bool.eqb]; f_equal; lia.
  - intros X. apply overflow_neg; auto. change (3 * 2 ^ 62 + 2)%N with 13835058055282163714%N. lia.
Qed.
