(** * The first guess of the square-root iteration (proofs for C104). *)

From Coq Require Import ZArith NArith Reals Lia Lra Psatz List Bool.
From Flocq Require Import Core.Core IEEE754.BinarySingleNaN.
From Verif Require Import Base FloatBase Literals Traits Trig FixedPrim FixedImpl Spec
  Lemmas ScalarProofs ScalarProofs2 WrapProofs SqrtReal NiirfZ NiirfFixed NiirfFixed2 NiirfFixed3 NiirfFixed4.
Import ListNotations.
Open Scope Z_scope.

Lemma e0i_bound_tight : forall s, (1 / 2 <= s <= 1)%R -> (Rabs (e0i s) <= 20834 / 1000000)%R.
Proof. intros s H. unfold e0i, y0i. apply Rabs_le.
  assert (0 <= (s - 1/2) * (1 - s))%R by (apply Rmult_le_pos; lra). pose proof (Rle_0_sqr (s - 3/4)) as Q. unfold Rsqr in Q. split; lra. Qed.

Lemma sqrt_guess : forall m f, supported f = true -> fsigned f = true -> 2 <= ffrac f ->
  forall it, (it <= 1)%N -> forall x, (/ 4 <= fval f x < 1)%R -> exists r, returns (fun fuel => NI m f fuel x it) r /\
  (Rabs (fval f r - sqrt (fval f x)) <= 20835 / 1000000 + 3 / 2 * ulp f)%R.
Proof.
  intros m f Sp Sg F2 it Hit x Hx. pose proof (supported_fwf f Sp) as W. destruct (quarter_range f x ltac:(lia) Hx) as [L U].
  eexists. split; [exists 1%nat; intros [|fuel] Hf; [lia|]; apply niirf_norm; auto|].
  rewrite <- s_fval by lia. rewrite fval_eq, ulp_eq by lia. replace (it - 1)%N with 0%N by lia. change (ziter 0 (fone f) (beta_bits f x) x (start f x)) with (start f x).
  destruct (Z_lt_le_dec (ffrac f) 4) as [F3|F4].
  - destruct (core_small f x ltac:(lia) L U) as [E T]. pose proof (fone_pos f ltac:(lia)).
    destruct (acc_test_err (fone f) x (start f x) ltac:(lia) ltac:(lia) T) as [B _].
    assert (0 < / IZR (fone f))%R by (apply Rinv_0_lt_compat; apply IZR_lt; auto). lra.
  - assert (Hq : 16 <= fone f). { unfold fone. change 16 with (2 ^ 4). apply Z.pow_le_mono_r; lia. }
    destruct (beta_region f x F4 L U) as [k [be [I [K1 [K2 B]]]]].
    pose proof (region_of _ x k be Hq I K1 K2 ltac:(lia)) as R.
    pose proof (start_real (fone f) Hq x ltac:(lia) _ (y0_real f ltac:(lia))) as St. fold (start f x) in St.
    pose proof (e0i_bound_tight _ (region_s _ _ _ R)) as E. unfold e0i in E.
    replace (IZR (start f x) / IZR (fone f) - s (fone f) x)%R with ((IZR (start f x) * / IZR (fone f) - y0i (s (fone f) x)) + (y0i (s (fone f) x) - s (fone f) x))%R by (unfold Rdiv; ring).
    eapply Rle_trans; [apply add_bound; [exact St | exact E]|]. lra.
Qed.

Lemma sqrt_guess_bad : forall m f, supported f = true -> fsigned f = true -> 11 <= ffrac f ->
  forall it, (it <= 1)%N -> exists x r, fval f x = (1 / 4)%R /\ returns (fun fuel => NI m f fuel x it) r /\ (2 / 100 < fval f r - sqrt (fval f x))%R.
Proof.
  intros m f Sp Sg F it Hit. pose proof (supported_fwf f Sp) as W.
  assert (Hq : 2048 <= fone f). { unfold fone. change 2048 with (2 ^ 11). apply Z.pow_le_mono_r; lia. }
  set (x := 2 ^ (ffrac f - 2)). assert (E4 : fone f = 4 * x). { unfold x, fone. change 4 with (2 ^ 2). rewrite <- Z.pow_add_r by lia. f_equal. lia. }
  assert (V : fval f x = (1 / 4)%R). { rewrite fval_eq by lia. rewrite E4, mult_IZR. field. apply not_0_IZR. lia. }
  exists x. eexists. split; [exact V|]. split; [exists 1%nat; intros [|fuel] Hf; [lia|]; apply niirf_norm; auto; try lia|].
  replace (it - 1)%N with 0%N by lia. change (ziter 0 (fone f) (beta_bits f x) x (start f x)) with (start f x).
  pose proof (start_real (fone f) ltac:(lia) x ltac:(lia) _ (y0_real f ltac:(lia))) as St. fold (start f x) in St.
  rewrite s_fval in St by lia. rewrite V in St |- *. replace (sqrt (1 / 4)) with (1 / 2)%R in * by (symmetry; apply sqrt_lem_1; lra).
  rewrite fval_eq by lia. unfold y0i in St. apply Rabs_le_inv in St. unfold Rdiv at 2.
  assert (0 < / IZR (fone f) <= / 2048)%R. { split; [apply Rinv_0_lt_compat; apply IZR_lt; lia|]. apply Rinv_le; [lra|]. apply IZR_le. lia. }
  unfold Rdiv in *. lra.
Qed.
