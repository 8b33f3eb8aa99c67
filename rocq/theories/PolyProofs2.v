(** * Horner's rule with non-negative numbers in any fixed-point format (proofs for C136). *)

From Coq Require Import ZArith Reals List Lia Lra Psatz Bool.
From Flocq Require Import Core.Core.
From Verif Require Import Base Traits FixedPrim FixedImpl Spec Lemmas ScalarProofs SpecPoly SpecBlend BlendProofs PolyProofs.
Import ListNotations.
Open Scope Z_scope.

Section Fixed.
Variables (m : mode) (f : fty).
Hypothesis Hf : supported f = true.
Lemma hz_range : forall x l, 0 <= x <= fone f -> (forall c, In c l -> 0 <= c) -> 0 <= hz f x l <= sumZ l /\ 0 <= hz f x l * x / fone f <= hz f x l.
Proof using Hf.
  intros x l X. pose proof (one_pos f Hf) as P. induction l as [|c l IH]; intros H.
  - cbn [hz]. rewrite Z.mul_0_l, Z.div_0_l by lia. cbn. lia.
  - destruct (IH (fun z I => H z (or_intror I))) as [A B]. pose proof (H c (or_introl eq_refl)).
    assert (R : 0 <= hz f x (c :: l) <= sumZ (c :: l)) by (cbn [hz]; change (sumZ (c :: l)) with (c + sumZ l); lia).
    split; [exact R|]. set (h := hz f x (c :: l)) in *. split; [apply Z.div_pos; nia|]. apply Z.div_le_upper_bound; nia.
Qed.
Lemma sum_skip : forall l k, (forall c, In c l -> 0 <= c) -> 0 <= sumZ (skipn k l) <= sumZ l.
Proof using.
  induction l as [|a l IH]; intros k H; [rewrite skipn_nil; cbn; lia|].
  assert (G : forall l', (forall c, In c l' -> 0 <= c) -> 0 <= sumZ l').
  { induction l' as [|b l' IH']; intros H'; [cbn; lia|]. change (sumZ (b :: l')) with (b + sumZ l'). pose proof (H' b (or_introl eq_refl)). specialize (IH' (fun z I => H' z (or_intror I))). lia. }
  destruct k as [|k]; [cbn [skipn]; split; [apply G; exact H | lia]|]. cbn [skipn]. specialize (IH k (fun z I => H z (or_intror I))).
  change (sumZ (a :: l)) with (a + sumZ l). pose proof (H a (or_introl eq_refl)). lia.
Qed.
Lemma horner_nonneg : forall x l, 0 <= x <= fone f -> (forall c, In c l -> 0 <= c) -> sumZ l <= fmax f ->
  exists r, horner (fixed_ops m f) 0 x l = Ok r /\ 0 <= r <= sumZ l /\
  (polyR (fval f x) (map (fval f) l) - INR (length l) * ulp f <= fval f r <= polyR (fval f x) (map (fval f) l))%R.
Proof using Hf.
  intros x l X H S. exists (hz f x l). split; [|split].
  - apply horner_hz; [apply zero_valid; auto|]. intros k c r E. pose proof (sum_skip l k H) as K. rewrite E in K.
    assert (HC : forall z, In z (c :: r) -> 0 <= z) by (intros z I; apply H; rewrite <- (firstn_skipn k l); apply in_or_app; right; rewrite E; exact I).
    destruct (hz_range x (c :: r) X HC) as [A _]. destruct (hz_range x r X (fun z I => HC z (or_intror I))) as [B C].
    change (sumZ (c :: r)) with (c + sumZ r) in *. pose proof (HC c (or_introl eq_refl)). pose proof (zero_valid f Hf) as Z0.
    assert (V : forall t, 0 <= t <= fmax f -> fvalid f t) by (unfold fvalid, in_range, fmax in *; intros; lia).
    split; apply V; lia.
  - apply (hz_range x l X H).
  - destruct (hz_err f Hf x l) as [A B]. pose proof (one_pos f Hf) as P. pose proof (bpow_gt_0 radix2 (- ffrac f)) as W.
    assert (FW : (IZR (fone f) * bpow radix2 (- ffrac f) = 1)%R).
    { unfold fone. change 2 with (radix_val radix2) at 1. rewrite IZR_Zpower by (pose proof (width_pos f Hf); lia). rewrite <- bpow_plus, Z.add_opp_diag_r. reflexivity. }
    assert (X0 : (0 <= fval f x <= 1)%R).
    { unfold fval. split; [apply Rmult_le_pos; [apply IZR_le; lia | lra]|]. rewrite <- FW. apply Rmult_le_compat_r; [lra|]. apply IZR_le. lia. }
    split; [|apply B; lra]. rewrite (Rabs_pos_eq (fval f x)) in A by lra. pose proof (geo_one (fval f x) (length l) X0) as G. apply Rabs_le_inv in A.
    assert (0 < ulp f)%R by apply bpow_gt_0. nra.
Qed.
End Fixed.
