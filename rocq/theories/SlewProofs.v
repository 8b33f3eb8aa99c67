(** Proofs for C183. *)

From Coq Require Import ZArith List Lia.
From Verif Require Import Base Traits IntImpl FixedPrim FixedImpl Spec SpecPeak SpecSlew Lemmas ScalarProofs ScalarProofs2 LimitProofs.
Import ListNotations.
Open Scope Z_scope.

Section Word.
Variables (m : mode) (t : ity) (O : MixedOps Z).
Hypothesis Hadd : forall x y, o_add O x y = fin m t (x + y).
Hypothesis Hsub : forall x y, o_sub O x y = fin m t (x - y).
Hypothesis Hcmp : forall x y, o_cmp O x y = Some (x ?= y).
Lemma slew_step : forall lo hi a b x y, lo <= 0 <= hi -> in_range t a -> in_range t b -> in_range t (a - b) -> in_range t (b - a) -> a <= x <= b -> a <= y <= b ->
  forall xs, slew O lo hi y (x :: xs) = slew O lo hi (y + Z.max lo (Z.min hi (x - y))) xs /\ a <= y + Z.max lo (Z.min hi (x - y)) <= b.
Proof using Hadd Hsub Hcmp.
  intros lo hi a b x y L Ra Rb R1 R2 X Y xs. unfold in_range in *. cbn [slew]. rewrite Hsub, fin_ok by (unfold in_range; lia). cbn [bind]. rewrite (clampZ O Hcmp) by lia.
  rewrite Hadd, fin_ok by (unfold in_range; lia). cbn [bind]. split; [reflexivity|lia].
Qed.
Lemma slew_word : forall lo hi a b, lo <= 0 <= hi -> in_range t a -> in_range t b -> in_range t (a - b) -> in_range t (b - a) ->
  forall xs y, Forall (fun x => a <= x <= b) xs -> a <= y <= b -> exists r, slew O lo hi y xs = Ok r /\ a <= r <= b.
Proof using Hadd Hsub Hcmp.
  intros lo hi a b L Ra Rb R1 R2. induction xs as [|x xs IH]; intros y F Y; [exists y; auto|]. inversion F; subst.
  destruct (slew_step lo hi a b x y L Ra Rb R1 R2 ltac:(assumption) Y xs) as [-> B]. apply IH; auto.
Qed.
Lemma slew_const : forall lo hi a b, lo <= 0 <= hi -> in_range t a -> in_range t b -> in_range t (a - b) -> in_range t (b - a) ->
  forall x, a <= x <= b -> forall n y, a <= y <= b -> slew O lo hi y (repeat x n) = Ok (approach lo hi y x (Z.of_nat n)).
Proof using Hadd Hsub Hcmp.
  intros lo hi a b L Ra Rb R1 R2 x X. induction n as [|n IH]; intros y Y.
  - cbn [repeat slew]. f_equal. unfold approach. destruct (Z.leb_spec y x); lia.
  - cbn [repeat]. destruct (slew_step lo hi a b x y L Ra Rb R1 R2 X Y (repeat x n)) as [-> B]. rewrite IH by exact B. f_equal. unfold approach. rewrite Nat2Z.inj_succ.
    set (k := Z.of_nat n). assert (K : 0 <= k) by lia. assert (0 <= k * hi) by nia. assert (k * lo <= 0) by nia.
    replace (Z.succ k * hi) with (k * hi + hi) by ring. replace (Z.succ k * lo) with (k * lo + lo) by ring.
    destruct (Z.leb_spec y x), (Z.leb_spec (y + Z.max lo (Z.min hi (x - y))) x); lia.
Qed.
End Word.

Theorem slew_fixed : forall m f, slews (fixed_ops m f) (fvalid f).
Proof. intros m f lo hi a b L A B C D. split; [apply (slew_word m (fity f))|apply (slew_const m (fity f))]; auto. Qed.
Theorem slew_int : forall m t, slews (int_ops m t) (in_range t).
Proof. intros m t lo hi a b L A B C D. split; [apply (slew_word m t)|apply (slew_const m t)]; auto. Qed.
(** arrival *)
Theorem arrives : forall lo hi y x n, lo < 0 < hi -> 0 <= n -> (approach lo hi y x n = x <-> (y <= x -> x - y <= n * hi) /\ (x <= y -> y - x <= n * - lo)).
Proof. intros lo hi y x n L N. unfold approach. destruct (Z.leb_spec y x); nia. Qed.
(** unsigned types: a step down panics, or in release builds goes up *)
Theorem slew_unsigned : forall f, supported f = true -> fsigned f = false -> forall lo hi y x, 0 <= x < y -> y <= fmax f ->
  slew (fixed_ops Debug f) lo hi y [x] = Panic POverflow.
Proof.
  intros f Hf U lo hi y x X Y. cbn [slew o_sub fixed_ops]. unfold fx_sub, fx_fin, fin. destruct (in_rangeb (fity f) (x - y)) eqn:E; [|reflexivity].
  apply in_rangeb_spec in E. unfold in_range, imin, fity in E. cbn [isigned] in E. rewrite U in E. lia.
Qed.
