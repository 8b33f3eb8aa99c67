(** Proofs for C180. *)

From Coq Require Import ZArith Reals List Sorted Permutation Bool Lia Lra.
From Flocq Require Import Core.Core IEEE754.BinarySingleNaN.
From Verif Require Import Base FloatBase Traits IntImpl FixedPrim FixedImpl FloatImpl Spec SpecPeak Lemmas FloatLemmas.
Import ListNotations.
Open Scope Z_scope.

Section Gen.
Context {T : Type} (O : MixedOps T) (ok : T -> bool) (key : T -> R).
Hypothesis H1 : forall x y, ok x = true -> ok y = true -> o_cmp O x y = Some (Rcompare (key x) (key y)).
Hypothesis H0 : forall x y, ok x && ok y = false -> o_cmp O x y = None.

Lemma lt_key : forall x y, ok x = true -> ok y = true -> (o_lt O x y = true <-> (key x < key y)%R).
Proof using H1. intros x y A B. unfold o_lt. rewrite H1 by auto. destruct (Rcompare_spec (key x) (key y)); split; intros; try discriminate; auto; lra. Qed.
Lemma le_key : forall x y, ok x = true -> ok y = true -> (o_le O x y = true <-> (key x <= key y)%R).
Proof using H1. intros x y A B. unfold o_le. rewrite H1 by auto. destruct (Rcompare_spec (key x) (key y)); split; intros; try discriminate; auto; lra. Qed.
Lemma lt_bad : forall x y, ok x && ok y = false -> o_lt O x y = false.
Proof using H0. intros x y A. unfold o_lt. rewrite H0; auto. Qed.
Lemma le_bad : forall x y, ok x && ok y = false -> o_le O x y = false.
Proof using H0. intros x y A. unfold o_le. rewrite H0; auto. Qed.
Lemma lt_dec : forall x y, ok x = true -> ok y = true -> o_lt O x y = false -> (key y <= key x)%R.
Proof using H1. intros x y A B E. destruct (Rle_or_lt (key y) (key x)); [auto|]. apply lt_key in H; auto. congruence. Qed.

Theorem peak_gen : forall xs x, ok x = true -> let r := peak O x xs in
  In r (x :: xs) /\ ok r = true /\ (forall y, In y (x :: xs) -> ok y = true -> o_le O y r = true) /\ r = peak O x (filter ok xs).
Proof using H0 H1.
  induction xs as [|a xs IH]; intros x A; cbv zeta.
  - cbn. split; [auto|]. split; [auto|]. split; [|reflexivity]. intros y [<-|[]] _. apply le_key; auto. lra.
  - change (peak O x (a :: xs)) with (peak O (if o_lt O x a then a else x) xs). destruct (ok a) eqn:B.
    + replace (filter ok (a :: xs)) with (a :: filter ok xs) by (cbn; rewrite B; reflexivity). change (peak O x (a :: filter ok xs)) with (peak O (if o_lt O x a then a else x) (filter ok xs)).
      destruct (o_lt O x a) eqn:L.
      * destruct (IH a B) as (I & K & M & E). split; [right; exact I|]. split; [exact K|]. split; [|exact E].
        intros y [<-|Y] Oy; [|apply M; auto]. apply le_key; auto. apply lt_key in L; auto. specialize (M a (or_introl eq_refl) B). apply le_key in M; auto. lra.
      * destruct (IH x A) as (I & K & M & E). split; [destruct I as [I|I]; cbn; auto|]. split; [exact K|]. split; [|exact E].
        intros y [<-|[<-|Y]] Oy; [apply M; cbn; auto| |apply M; cbn; auto]. apply lt_dec in L; auto. specialize (M x (or_introl eq_refl) A). apply le_key in M; auto. apply le_key; auto. lra.
    + rewrite lt_bad by (rewrite B; apply andb_false_r). replace (filter ok (a :: xs)) with (filter ok xs) by (cbn; rewrite B; reflexivity).
      destruct (IH x A) as (I & K & M & E). split; [destruct I as [I|I]; cbn; auto|]. split; [exact K|]. split; [|exact E].
      intros y [<-|[<-|Y]] Oy; [apply M; cbn; auto|congruence|apply M; cbn; auto].
Qed.
Theorem peak_stuck : forall xs x, ok x = false -> peak O x xs = x.
Proof using H0. induction xs as [|a xs IH]; intros x A; [reflexivity|]. change (peak O x (a :: xs)) with (peak O (if o_lt O x a then a else x) xs). rewrite lt_bad by (rewrite A; reflexivity). auto. Qed.

Theorem clamp_gen : forall lo hi x, o_le O lo hi = true -> let r := clamp O lo hi x in
  (ok x = true -> o_le O lo r = true /\ o_le O r hi = true /\ (o_le O lo x = true -> o_le O x hi = true -> r = x) /\
     (o_lt O x lo = true -> r = lo) /\ (o_lt O hi x = true -> r = hi)) /\ (ok x = false -> r = x).
Proof using H0 H1.
  intros lo hi x L. cbv zeta. destruct (ok lo && ok hi) eqn:B; [|rewrite le_bad in L by exact B; discriminate]. apply andb_true_iff in B as [B C].
  unfold clamp. split; intros A.
  - assert (L' := L). apply le_key in L'; auto. destruct (o_lt O x lo) eqn:E.
    + assert (E' := E). apply lt_key in E'; auto. repeat split; auto.
      * apply le_key; auto. lra.
      * intros G. apply le_key in G; auto. lra.
      * intros G. apply lt_key in G; auto. lra.
    + apply lt_dec in E; auto. destruct (o_lt O hi x) eqn:F.
      * assert (F' := F). apply lt_key in F'; auto. repeat split; auto; try discriminate.
        -- apply le_key; auto. lra.
        -- intros _ G. apply le_key in G; auto. lra.
      * apply lt_dec in F; auto. repeat split; auto; try discriminate; apply le_key; auto.
  - rewrite lt_bad by (rewrite A; reflexivity). rewrite lt_bad by (rewrite A; apply andb_false_r). reflexivity.
Qed.

Lemma insert_perm : forall l x, Permutation (x :: l) (insert O x l).
Proof using Type. induction l as [|y l IH]; intros x; cbn; [auto|]. destruct (o_lt O y x); [|auto]. transitivity (y :: x :: l); [apply perm_swap|]. apply perm_skip, IH. Qed.
Lemma sort_perm : forall l, Permutation l (sort O l).
Proof using Type. induction l as [|x l IH]; cbn; [auto|]. transitivity (x :: sort O l); [apply perm_skip, IH|apply insert_perm]. Qed.
Lemma Forall_perm : forall (P : T -> Prop) l k, Permutation l k -> Forall P l -> Forall P k.
Proof using Type. intros P l k Pm F. apply Forall_forall. intros x X. apply (Permutation_in _ (Permutation_sym Pm)) in X. revert x X. apply Forall_forall. exact F. Qed.
Lemma insert_sorted : forall l x, ok x = true -> Forall (fun y => ok y = true) l -> ascending O l -> ascending O (insert O x l).
Proof using H1.
  induction l as [|y l IH]; intros x A F S; cbn; [repeat constructor|]. inversion F as [|? ? B F']; subst. inversion S as [|? ? S' M]; subst. destruct (o_lt O y x) eqn:L.
  - constructor; [apply IH; auto|]. apply (Forall_perm _ _ _ (insert_perm l x)). constructor; [|exact M]. apply lt_key in L; auto. apply le_key; auto. lra.
  - apply lt_dec in L; auto. constructor; [exact S|]. constructor; [apply le_key; auto|]. apply Forall_forall. intros z Z. rewrite Forall_forall in M, F'. specialize (M z Z). specialize (F' z Z).
    apply le_key in M; auto. apply le_key; auto. lra.
Qed.
Theorem sort_gen : forall l, Permutation l (sort O l) /\ (Forall (fun y => ok y = true) l -> ascending O (sort O l)).
Proof using H1.
  intros l. split; [apply sort_perm|]. induction l as [|x l IH]; intros F; [constructor|]. inversion F; subst. cbn. apply insert_sorted; auto. apply (Forall_perm _ _ _ (sort_perm l)); auto.
Qed.
End Gen.

Section Flt.
Context {p e : Z} {Hp : Prec_gt_0 p} {He : Prec_lt_emax p e}.
Definition fkey (x : binary_float p e) : R := match x with B754_infinity true => - bpow radix2 e | B754_infinity false => bpow radix2 e | _ => B2R x end.
Definition num (x : binary_float p e) : bool := negb (is_nan x).
Lemma key_fin : forall x : binary_float p e, is_finite x = true -> fkey x = B2R x /\ (- bpow radix2 e < fkey x < bpow radix2 e)%R.
Proof.
  intros x F. assert (E : fkey x = B2R x) by (destruct x; try discriminate; reflexivity). rewrite E. split; [reflexivity|]. pose proof (abs_B2R_lt_emax p e x) as A. apply Rabs_lt_inv in A. exact A.
Qed.
Lemma float_H1 : forall x y : binary_float p e, num x = true -> num y = true -> o_cmp float_ops x y = Some (Rcompare (fkey x) (fkey y)).
Proof.
  intros x y A B. cbn [o_cmp float_ops]. pose proof (bpow_gt_0 radix2 e) as P.
  destruct (is_finite x) eqn:Fx, (is_finite y) eqn:Fy.
  - rewrite Bcompare_correct by assumption. rewrite (proj1 (key_fin x Fx)), (proj1 (key_fin y Fy)). reflexivity.
  - destruct (key_fin x Fx) as [_ K]. destruct y as [|[|]| |]; try discriminate; cbn [fkey].
    + rewrite Rcompare_Gt by lra. destruct x; try discriminate; reflexivity.
    + rewrite Rcompare_Lt by lra. destruct x; try discriminate; reflexivity.
  - destruct (key_fin y Fy) as [_ K]. destruct x as [|[|]| |]; try discriminate; cbn [fkey].
    + rewrite Rcompare_Lt by lra. destruct y as [| | |[|] ? ? ?]; try discriminate; reflexivity.
    + rewrite Rcompare_Gt by lra. destruct y as [| | |[|] ? ? ?]; try discriminate; reflexivity.
  - destruct x as [|[|]| |], y as [|[|]| |]; try discriminate; cbn [fkey].
    + rewrite Rcompare_Eq; reflexivity.
    + rewrite Rcompare_Lt by lra; reflexivity.
    + rewrite Rcompare_Gt by lra; reflexivity.
    + rewrite Rcompare_Eq; reflexivity.
Qed.
Lemma float_H0 : forall x y : binary_float p e, num x && num y = false -> o_cmp float_ops x y = None.
Proof. intros x y A. destruct x as [|[|]| |[|] ? ? ?], y as [|[|]| |[|] ? ? ?]; try discriminate; reflexivity. Qed.
End Flt.

Definition all {T} (_ : T) : bool := true.
Lemma int_H1 : forall m t x y, all x = true -> all y = true -> o_cmp (int_ops m t) x y = Some (Rcompare (IZR x) (IZR y)).
Proof. intros. cbn [o_cmp int_ops]. rewrite Rcompare_IZR. reflexivity. Qed.
Lemma fixed_H1 : forall m f x y, all x = true -> all y = true -> o_cmp (fixed_ops m f) x y = Some (Rcompare (IZR x) (IZR y)).
Proof. intros. cbn [o_cmp fixed_ops]. unfold fx_cmp. rewrite Rcompare_IZR. reflexivity. Qed.

Section FloatProps.
Context {p e : Z} {Hp : Prec_gt_0 p} {He : Prec_lt_emax p e}.
Notation O := (@float_ops p e Hp He).
Theorem peak_float : forall (x : binary_float p e) xs, let r := peak O x xs in
  (is_nan x = false -> In r (x :: xs) /\ is_nan r = false /\ (forall y, In y (x :: xs) -> is_nan y = false -> o_le O y r = true) /\ r = peak O x (filter (fun y => negb (is_nan y)) xs)) /\
  (is_nan x = true -> is_nan r = true).
Proof.
  intros x xs. cbv zeta. split; intros N.
  - destruct (peak_gen O num fkey float_H1 float_H0 xs x) as (A & B & C & D); [unfold num; rewrite N; reflexivity|]. split; [exact A|]. split; [apply negb_true_iff; exact B|]. split; [|exact D].
    intros y Y M. apply C; [exact Y|]. unfold num. rewrite M. reflexivity.
  - rewrite (peak_stuck O num float_H0); [exact N|]. unfold num. rewrite N. reflexivity.
Qed.
Theorem clamp_float : forall lo hi x : binary_float p e, o_le O lo hi = true -> let r := clamp O lo hi x in
  (is_nan x = false -> o_le O lo r = true /\ o_le O r hi = true /\ (o_le O lo x = true -> o_le O x hi = true -> r = x) /\
     (o_lt O x lo = true -> r = lo) /\ (o_lt O hi x = true -> r = hi)) /\ (is_nan x = true -> is_nan r = true).
Proof.
  intros lo hi x L. cbv zeta. destruct (clamp_gen O num fkey float_H1 float_H0 lo hi x L) as [A B]. split; intros N.
  - apply A. unfold num. rewrite N. reflexivity.
  - rewrite B; [exact N|]. unfold num. rewrite N. reflexivity.
Qed.
Theorem sort_float : forall l : list (binary_float p e), Permutation l (sort O l) /\ (Forall (fun y => is_nan y = false) l -> ascending O (sort O l)).
Proof.
  intros l. destruct (sort_gen O num fkey float_H1 l) as [A B]. split; [exact A|]. intros F. apply B. eapply Forall_impl; [|exact F]. intros a N. unfold num. rewrite N. reflexivity.
Qed.
(** one NaN between two numbers keeps them in the wrong order *)
Theorem sort_nan : exists x y : binary_float p e, o_lt O y x = true /\ sort O [x; B754_nan; y] = [x; B754_nan; y].
Proof.
  exists (B754_infinity false), (B754_infinity true). split; reflexivity.
Qed.
End FloatProps.

Lemma whole_Z : forall O : MixedOps Z, (forall x y, o_cmp O x y = Some (x ?= y)) -> whole O Z.le.
Proof.
  intros O H. assert (H1 : forall x y, all x = true -> all y = true -> o_cmp O x y = Some (Rcompare (IZR x) (IZR y))) by (intros; rewrite Rcompare_IZR; apply H).
  assert (H0 : forall x y : Z, all x && all y = false -> o_cmp O x y = None) by discriminate.
  assert (LE : forall x y, o_le O x y = true <-> x <= y) by (intros x y; unfold o_le; rewrite H; destruct (Z.compare_spec x y); split; intros; try discriminate; auto; lia).
  assert (LT : forall x y, o_lt O x y = true <-> x < y) by (intros x y; unfold o_lt; rewrite H; destruct (Z.compare_spec x y); split; intros; try discriminate; auto; lia).
  split; [|split].
  - intros x xs. cbv zeta. destruct (peak_gen O all IZR H1 H0 xs x eq_refl) as (A & _ & C & _). split; [exact A|]. intros y Y. apply LE, C; auto.
  - intros lo hi x L. cbv zeta. assert (E : clamp O lo hi x = Z.max lo (Z.min hi x)).
    { unfold clamp. destruct (o_lt O x lo) eqn:E1; [apply LT in E1; lia|]. assert (lo <= x) by (apply Z.nlt_ge; intros G; apply LT in G; congruence).
      destruct (o_lt O hi x) eqn:E2; [apply LT in E2; lia|]. assert (x <= hi) by (apply Z.nlt_ge; intros G; apply LT in G; congruence). lia. }
    rewrite E. lia.
  - intros l. destruct (sort_gen O all IZR H1 l) as [A B]. split; [exact A|]. specialize (B ltac:(apply Forall_forall; reflexivity)). unfold ascending in B. clear A.
    induction B; constructor; auto. eapply Forall_impl; [|exact H2]. intros b Hb. apply LE. exact Hb.
Qed.
Theorem whole_fixed : forall m f, whole (fixed_ops m f) Z.le.
Proof. intros m f. apply whole_Z. reflexivity. Qed.
Theorem whole_int : forall m t, whole (int_ops m t) Z.le.
Proof. intros m t. apply whole_Z. reflexivity. Qed.
