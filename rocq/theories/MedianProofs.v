(** Proofs for C184. *)

From Coq Require Import ZArith Reals List Bool Lia Lra.
From Flocq Require Import Core.Core IEEE754.BinarySingleNaN.
From Verif Require Import Base FloatBase Traits IntImpl FixedPrim FixedImpl FloatImpl Spec SpecPeak SpecMedian PeakProofs.
Import ListNotations.
Open Scope Z_scope.

Section Gen.
Context {T : Type} (O : MixedOps T) (ok : T -> bool) (key : T -> R).
Hypothesis H1 : forall x y, ok x = true -> ok y = true -> o_cmp O x y = Some (Rcompare (key x) (key y)).
Hypothesis H0 : forall x y, ok x && ok y = false -> o_cmp O x y = None.
Definition num3 (a b c : T) : Prop := ok a = true /\ ok b = true /\ ok c = true.
Lemma lesser_key : forall a b, ok a = true -> ok b = true -> ok (lesser O a b) = true /\ key (lesser O a b) = Rmin (key a) (key b).
Proof using H1.
  intros a b A B. unfold lesser, o_lt. rewrite H1 by auto. destruct (Rcompare_spec (key a) (key b)); (split; [assumption|]).
  - rewrite Rmin_left; lra.
  - rewrite Rmin_right; lra.
  - rewrite Rmin_right; lra.
Qed.
Lemma greater_key : forall a b, ok a = true -> ok b = true -> ok (greater O a b) = true /\ key (greater O a b) = Rmax (key a) (key b).
Proof using H1.
  intros a b A B. unfold greater, o_lt. rewrite H1 by auto. destruct (Rcompare_spec (key a) (key b)); (split; [assumption|]).
  - rewrite Rmax_right; lra.
  - rewrite Rmax_left; lra.
  - rewrite Rmax_left; lra.
Qed.
Lemma median_key : forall a b c, num3 a b c -> ok (median O a b c) = true /\ key (median O a b c) = Rmax (Rmin (key a) (key b)) (Rmin (Rmax (key a) (key b)) (key c)).
Proof using H1.
  intros a b c (A & B & C). unfold median. destruct (lesser_key a b A B) as [L1 L2], (greater_key a b A B) as [G1 G2]. destruct (lesser_key _ c G1 C) as [M1 M2]. destruct (greater_key _ _ L1 M1) as [N1 N2].
  split; [exact N1|]. rewrite N2, M2, L2, G2. reflexivity.
Qed.
Lemma between_ok : forall lo hi x, between O lo hi x -> ok lo = true /\ ok hi = true /\ ok x = true /\ (key lo <= key x <= key hi)%R.
Proof using H0 H1.
  intros lo hi x [A B]. destruct (ok lo && ok x) eqn:E; [|rewrite (le_bad O ok H0) in A by exact E; discriminate]. destruct (ok x && ok hi) eqn:F; [|rewrite (le_bad O ok H0) in B by exact F; discriminate].
  apply andb_true_iff in E as [E1 E2]. apply andb_true_iff in F as [_ F2]. apply (le_key O ok key H1) in A; auto. apply (le_key O ok key H1) in B; auto.
Qed.
Lemma median_spike : forall lo hi a b c, num3 a b c -> two_of (between O lo hi) a b c -> between O lo hi (median O a b c).
Proof using H0 H1.
  intros lo hi a b c N Tw. destruct (median_key a b c N) as [K1 K2].
  assert (M : ok lo = true /\ ok hi = true /\ (key lo <= key (median O a b c) <= key hi)%R).
  { rewrite K2. destruct Tw as [[X Y]|[[X Y]|[X Y]]]; apply between_ok in X as (X1 & X2 & X3 & X4); apply between_ok in Y as (Y1 & Y2 & Y3 & Y4); (split; [exact X1|]; split; [exact X2|]);
    unfold Rmax, Rmin; repeat (destruct (Rle_dec _ _)); lra. }
  destruct M as (M1 & M2 & M3). split; apply (le_key O ok key H1); auto; lra.
Qed.
Lemma median_mid : forall a b c, num3 a b c -> (o_le O a b = true /\ o_le O b c = true \/ o_le O c b = true /\ o_le O b a = true) -> o_eq O (median O a b c) b = true.
Proof using H1.
  intros a b c N S. destruct (median_key a b c N) as [K1 K2]. destruct N as (A & B & C). unfold o_eq. rewrite H1 by auto. rewrite Rcompare_Eq; [reflexivity|]. rewrite K2.
  destruct S as [[X Y]|[X Y]]; apply (le_key O ok key H1) in X; auto; apply (le_key O ok key H1) in Y; auto; unfold Rmax, Rmin; repeat (destruct (Rle_dec _ _)); lra.
Qed.
Lemma medians_windows : forall (P : T -> T -> T -> Prop) (Q : T -> Prop), (forall a b c, P a b c -> Q (median O a b c)) -> forall xs, windows P xs -> Forall Q (medians O xs).
Proof using Type.
  intros P Q H. induction xs as [|a xs IH]; intros W; [constructor|]. destruct xs as [|b [|c xs]]; try constructor.
  - apply H. apply W.
  - apply IH. apply W.
Qed.
Lemma windows_impl : forall (P Q : T -> T -> T -> Prop), (forall a b c, P a b c -> Q a b c) -> forall xs, windows P xs -> windows Q xs.
Proof using Type. intros P Q H. induction xs as [|a xs IH]; intros W; [constructor|]. destruct xs as [|b [|c xs]]; try exact I. destruct W as [W1 W2]. split; [apply H, W1|apply IH, W2]. Qed.
Lemma windows_all : forall (A : T -> Prop) xs, Forall A xs -> windows (fun a b c => A a /\ A b /\ A c) xs.
Proof using Type.
  intros A. induction xs as [|a xs IH]; intros F; [constructor|]. inversion F as [|? ? F1 F2]; subst. specialize (IH F2). inversion F2 as [|b r F3 F4]; subst; [exact I|]. inversion F4 as [|c r' F5 F6]; subst; [exact I|]. split; [auto|exact IH].
Qed.
Lemma windows_and : forall (P Q : T -> T -> T -> Prop) xs, windows P xs -> windows Q xs -> windows (fun a b c => P a b c /\ Q a b c) xs.
Proof using Type. intros P Q. induction xs as [|a xs IH]; intros W V; [constructor|]. destruct xs as [|b [|c xs]]; try exact I. destruct W, V. split; [auto|apply IH; auto]. Qed.
Theorem medians_spike : forall lo hi xs, Forall (fun x => ok x = true) xs -> windows (two_of (between O lo hi)) xs -> Forall (between O lo hi) (medians O xs).
Proof using H0 H1.
  intros lo hi xs F W. eapply medians_windows; [|apply windows_and; [apply (windows_all _ _ F)|exact W]]. intros a b c [N Tw]. apply median_spike; [exact N|exact Tw].
Qed.
Theorem medians_mono : forall xs, Forall (fun x => ok x = true) xs ->
  windows (fun a b c => o_le O a b = true /\ o_le O b c = true \/ o_le O c b = true /\ o_le O b a = true) xs ->
  Forall2 (fun y x => o_eq O y x = true) (medians O xs) (inner xs).
Proof using H1.
  unfold inner. induction xs as [|a xs IH]; intros F W; [constructor|]. inversion F as [|? ? F1 F2]; subst. destruct xs as [|b [|c xs]]; try constructor.
  - inversion F2 as [|? ? F3 F4]; subst. inversion F4; subst. apply median_mid; [repeat split; assumption|apply W].
  - cbn [tl] in IH. destruct xs as [|d xs]; [constructor|]. apply IH; [exact F2|apply W].
Qed.
End Gen.

Section Flt.
Context {p e : Z} {Hp : Prec_gt_0 p} {He : Prec_lt_emax p e}.
Notation flt := (binary_float p e).
Notation O := (@float_ops p e Hp He).
Lemma nums : forall xs : list flt, Forall (fun x => is_nan x = false) xs -> Forall (fun x => num x = true) xs.
Proof. intros xs. apply Forall_impl. intros a N. unfold num. rewrite N. reflexivity. Qed.
Theorem spike_float : forall (lo hi : flt) xs, Forall (fun x => is_nan x = false) xs -> windows (two_of (between O lo hi)) xs -> Forall (between O lo hi) (medians O xs).
Proof. intros lo hi xs F W. apply (medians_spike O num fkey float_H1 float_H0); [apply nums, F|exact W]. Qed.
Theorem mono_float : forall xs : list flt, Forall (fun x => is_nan x = false) xs ->
  windows (fun a b c => o_le O a b = true /\ o_le O b c = true \/ o_le O c b = true /\ o_le O b a = true) xs -> Forall2 (fun y x => o_eq O y x = true) (medians O xs) (inner xs).
Proof. intros xs F W. apply (medians_mono O num fkey float_H1); [apply nums, F|exact W]. Qed.
(** a NaN at either end of the window is removed, in the middle it is not *)
Theorem median_nan : forall lo hi x y : flt, between O lo hi x -> between O lo hi y ->
  between O lo hi (median O B754_nan x y) /\ between O lo hi (median O x y B754_nan) /\ median O x B754_nan y = B754_nan.
Proof.
  intros lo hi x y X Y. assert (N : forall a : flt, o_lt O B754_nan a = false /\ o_lt O a B754_nan = false) by (intros a; split; apply (lt_bad O num float_H0); [reflexivity|apply andb_false_r]).
  destruct (N x) as [N1 N2], (N y) as [N3 N4]. unfold median, lesser, greater. rewrite N1, N2, N3. split; [destruct (o_lt O x y); auto|]. split.
  - destruct (o_lt O x y); rewrite ?(proj2 (N _)); auto.
  - rewrite (proj1 (N _)). reflexivity.
Qed.
End Flt.
Lemma filters_Z : forall O : MixedOps Z, (forall x y, o_cmp O x y = Some (x ?= y)) -> filters O.
Proof.
  intros O H. assert (H1 : forall x y, all x = true -> all y = true -> o_cmp O x y = Some (Rcompare (IZR x) (IZR y))) by (intros; rewrite Rcompare_IZR; apply H).
  assert (H0 : forall x y : Z, all x && all y = false -> o_cmp O x y = None) by discriminate.
  assert (LE : forall x y, o_le O x y = true <-> x <= y) by (intros x y; unfold o_le; rewrite H; destruct (Z.compare_spec x y); split; intros; try discriminate; auto; lia).
  assert (EQ : forall x y, o_eq O x y = true -> x = y) by (intros x y; unfold o_eq; rewrite H; destruct (Z.compare_spec x y); intros; try discriminate; auto).
  assert (A : forall xs : list Z, Forall (fun x => all x = true) xs) by (intros xs; apply Forall_forall; reflexivity).
  assert (B : forall lo hi x, between O lo hi x <-> lo <= x <= hi) by (intros lo hi x; unfold between; rewrite !LE; tauto).
  split.
  - intros lo hi xs W. eapply Forall_impl; [|apply (medians_spike O all IZR H1 H0 lo hi xs (A xs))]; [intros a Ha; apply B; exact Ha|].
    eapply windows_impl; [|exact W]. intros a b c. unfold two_of. rewrite !B. tauto.
  - intros xs W. assert (F : Forall2 (fun y x => o_eq O y x = true) (medians O xs) (inner xs)).
    { apply (medians_mono O all IZR H1 xs (A xs)). eapply windows_impl; [|exact W]. intros a b c. cbv beta. rewrite !LE. lia. }
    induction F; [reflexivity|]. f_equal; auto.
Qed.
Theorem filters_fixed : forall m f, filters (fixed_ops m f).
Proof. intros m f. apply filters_Z. reflexivity. Qed.
Theorem filters_int : forall m t, filters (int_ops m t).
Proof. intros m t. apply filters_Z. reflexivity. Qed.
