(** Proofs for C181. *)

From Coq Require Import ZArith Reals List Bool Lia Lra.
From Flocq Require Import Core.Core IEEE754.BinarySingleNaN.
From Verif Require Import Base FloatBase Traits IntImpl FixedPrim FixedImpl FloatImpl Spec SpecPeak SpecLimit Lemmas ScalarProofs ScalarProofs2 FloatLemmas PeakProofs.
Import ListNotations.
Open Scope Z_scope.

Section Word.
Variables (m : mode) (t : ity) (O : MixedOps Z).
Hypothesis Hadd : forall x y, o_add O x y = fin m t (x + y).
Hypothesis Hcmp : forall x y, o_cmp O x y = Some (x ?= y).
Lemma clampZ : forall lo hi x, lo <= hi -> clamp O lo hi x = Z.max lo (Z.min hi x).
Proof using Hcmp.
  intros lo hi x L. unfold clamp, o_lt. rewrite !Hcmp. destruct (Z.compare_spec x lo), (Z.compare_spec hi x); lia.
Qed.
Theorem limited_word : forall lo hi b, lo <= hi -> 0 <= b -> in_range t (lo - b) -> in_range t (hi + b) ->
  forall xs a, lo <= a <= hi -> Forall (fun x => - b <= x <= b) xs ->
  limited O lo hi a xs = Ok (exact_limited lo hi a xs) /\ lo <= exact_limited lo hi a xs <= hi.
Proof using Hadd Hcmp.
  intros lo hi b L B R1 R2. induction xs as [|x xs IH]; intros a A F; [cbn; auto|]. inversion F as [|? ? X F']; subst.
  cbn [limited]. rewrite Hadd, fin_ok by (unfold in_range in *; lia). cbn [bind]. rewrite clampZ by exact L.
  change (exact_limited lo hi a (x :: xs)) with (exact_limited lo hi (Z.max lo (Z.min hi (a + x))) xs). apply IH; [lia|exact F'].
Qed.
End Word.
Theorem limited_fixed : forall m f lo hi b, lo <= hi -> 0 <= b -> fvalid f (lo - b) -> fvalid f (hi + b) ->
  forall xs a, lo <= a <= hi -> Forall (fun x => - b <= x <= b) xs ->
  limited (fixed_ops m f) lo hi a xs = Ok (exact_limited lo hi a xs) /\ lo <= exact_limited lo hi a xs <= hi.
Proof. intros m f. apply (limited_word m (fity f)); reflexivity. Qed.
Theorem limited_int : forall m t lo hi b, lo <= hi -> 0 <= b -> in_range t (lo - b) -> in_range t (hi + b) ->
  forall xs a, lo <= a <= hi -> Forall (fun x => - b <= x <= b) xs ->
  limited (int_ops m t) lo hi a xs = Ok (exact_limited lo hi a xs) /\ lo <= exact_limited lo hi a xs <= hi.
Proof. intros m t. apply (limited_word m t); reflexivity. Qed.

(** without the room: from the upper limit, one more step is a panic or lands on the lower limit *)
Lemma no_room : forall t, 1 <= iwidth t -> 1 <= imax t -> fin Debug t (imax t + 1) = Panic POverflow /\ fin Release t (imax t + 1) = Ok (imin t).
Proof.
  intros t W P. assert (N : in_rangeb t (imax t + 1) = false). { destruct (in_rangeb t _) eqn:E; [|reflexivity]. apply in_rangeb_spec in E. unfold in_range in E. lia. }
  split; [unfold fin; rewrite N; reflexivity|]. rewrite fin_release by exact W. f_equal.
  pose proof (wrap_range t W (imax t + 1)) as R. destruct (wrap_congr t W (imax t + 1)) as [k Hk]. unfold in_range in R.
  assert (Q : imax t - imin t + 1 = 2 ^ iwidth t). { unfold imax, imin. destruct (isigned t); [|lia]. replace (2 ^ iwidth t) with (2 * 2 ^ (iwidth t - 1)) by (rewrite <- Z.pow_succ_r by lia; f_equal; lia). lia. }
  set (p := 2 ^ iwidth t) in *. set (w := wrap t (imax t + 1)) in *. assert (K : k <= -2 \/ k = -1 \/ k = 0 \/ k = 1 \/ 2 <= k) by lia.
  destruct K as [K|[->|[->|[->|K]]]]; try lia; nia.
Qed.
Theorem limited_no_room : forall f, supported f = true -> let lo := imin (fity f) in let hi := imax (fity f) in fvalid f 1 /\
  limited (fixed_ops Debug f) lo hi hi [1] = Panic POverflow /\ limited (fixed_ops Release f) lo hi hi [1] = Ok lo /\ exact_limited lo hi hi [1] = hi.
Proof.
  intros f Hf. cbv zeta. assert (W : 1 <= iwidth (fity f)) by (apply fwf_width, supported_fwf; exact Hf). pose proof (zero_in_range (fity f) W) as Z0.
  assert (P1 : 1 <= imax (fity f)).
  { pose proof (supported_fwf f Hf) as [F0 F1]. assert (2 <= 2 ^ (fwidth f - 1)) by (replace 2 with (2 ^ 1) at 1 by reflexivity; apply Z.pow_le_mono_r; lia).
    assert (2 <= 2 ^ fwidth f) by (replace 2 with (2 ^ 1) at 1 by reflexivity; apply Z.pow_le_mono_r; lia). unfold imax, fity. cbn [isigned iwidth]. destruct (fsigned f); lia. }
  destruct (no_room (fity f) W P1) as [A B]. unfold fvalid, in_range in *. split; [lia|].
  cbn [limited o_add fixed_ops]. unfold fx_add, fx_fin. rewrite A, B. split; [reflexivity|]. cbn [bind]. split.
  - rewrite (clampZ (fixed_ops Release f)) by (reflexivity || lia). f_equal. lia.
  - unfold exact_limited. cbn [fold_left]. lia.
Qed.

Section Flt.
Context {p e : Z} {Hp : Prec_gt_0 p} {He : Prec_lt_emax p e}.
Notation flt := (binary_float p e).
Notation O := (@float_ops p e Hp He).
Lemma plus_num : forall a x : flt, is_finite a = true -> is_nan x = false -> is_nan (Bplus mode_NE a x) = false.
Proof.
  intros a x A X. destruct (is_finite x) eqn:Fx.
  - pose proof (Bplus_correct p e _ _ mode_NE a x A Fx) as H. destruct (Rlt_bool _ _).
    + destruct H as (_ & F & _). destruct (Bplus mode_NE a x); try discriminate; reflexivity.
    + destruct H as [H _]. destruct (Bplus mode_NE a x); [reflexivity|reflexivity|cbn in H; discriminate|reflexivity].
  - destruct x as [|s| |]; try discriminate. destruct a as [|?| |]; try discriminate; reflexivity.
Qed.
Lemma plus_nan_r : forall a x : flt, is_nan x = true -> is_nan (Bplus mode_NE a x) = true.
Proof. intros a x X. destruct x; try discriminate. destruct a; reflexivity. Qed.
Lemma plus_nan_l : forall a x : flt, is_nan a = true -> is_nan (Bplus mode_NE a x) = true.
Proof. intros a x X. destruct a; try discriminate. destruct x; reflexivity. Qed.
Lemma between_finite : forall lo hi r : flt, is_finite lo = true -> is_finite hi = true -> o_le O lo r = true -> o_le O r hi = true -> is_finite r = true.
Proof.
  intros lo hi r A B L1 L2. destruct r as [|[|]| |]; try reflexivity.
  - destruct lo; try discriminate; discriminate L1.
  - destruct hi as [| | |[|] ? ? ?]; try discriminate; discriminate L2.
  - destruct lo; try discriminate; discriminate L1.
Qed.
Theorem limited_float : forall lo hi : flt, is_finite lo = true -> is_finite hi = true -> o_le O lo hi = true ->
  forall xs a, o_le O lo a = true -> o_le O a hi = true -> Forall (fun x => is_nan x = false) xs ->
  exists r, limited O lo hi a xs = Ok r /\ is_finite r = true /\ o_le O lo r = true /\ o_le O r hi = true.
Proof.
  intros lo hi Fl Fh L. induction xs as [|x xs IH]; intros a A1 A2 F.
  - exists a. split; [reflexivity|]. split; [apply (between_finite lo hi); auto|auto].
  - inversion F as [|? ? X F']; subst. cbn [limited o_add float_ops bind]. pose proof (between_finite lo hi a Fl Fh A1 A2) as Fa.
    destruct (clamp_float lo hi (Bplus mode_NE a x) L) as [C _]. destruct (C (plus_num a x Fa X)) as (C1 & C2 & _). apply IH; auto.
Qed.
Lemma limited_nan_start : forall lo hi : flt, o_le O lo hi = true -> forall xs a, is_nan a = true -> exists r, limited O lo hi a xs = Ok r /\ is_nan r = true.
Proof.
  intros lo hi L. induction xs as [|x xs IH]; intros a A; [exists a; auto|]. cbn [limited o_add float_ops bind]. apply IH. apply clamp_float; [exact L|]. apply plus_nan_l, A.
Qed.
Theorem limited_nan : forall lo hi : flt, is_finite lo = true -> is_finite hi = true -> o_le O lo hi = true ->
  forall xs a, o_le O lo a = true -> o_le O a hi = true -> exists r, limited O lo hi a xs = Ok r /\ (is_nan r = true <-> Exists (fun x => is_nan x = true) xs).
Proof.
  intros lo hi Fl Fh L. induction xs as [|x xs IH]; intros a A1 A2.
  - exists a. split; [reflexivity|]. pose proof (between_finite lo hi a Fl Fh A1 A2) as Fa. split; intros H; [destruct a; discriminate|inversion H].
  - cbn [limited o_add float_ops bind]. destruct (is_nan x) eqn:X.
    + destruct (limited_nan_start lo hi L xs (clamp O lo hi (Bplus mode_NE a x))) as (r & E & N); [apply clamp_float; [exact L|]; apply plus_nan_r, X|].
      exists r. split; [exact E|]. split; intros _; [apply Exists_cons_hd; exact X|exact N].
    + pose proof (between_finite lo hi a Fl Fh A1 A2) as Fa. destruct (clamp_float lo hi (Bplus mode_NE a x) L) as [C _]. destruct (C (plus_num a x Fa X)) as (C1 & C2 & _).
      destruct (IH _ C1 C2) as (r & E & N). exists r. split; [exact E|]. rewrite N. split; intros H; [apply Exists_cons_tl; exact H|]. inversion H; subst; [congruence|assumption].
Qed.
End Flt.
