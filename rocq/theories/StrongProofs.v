(** Proofs for C182. *)

From Coq Require Import ZArith Reals List Bool Lia Lra Psatz.
From Flocq Require Import Core.Core IEEE754.BinarySingleNaN Relative.
From Verif Require Import Base FloatBase Traits IntImpl FixedPrim FixedImpl FloatImpl Complex Spec SpecStrong Lemmas ScalarProofs ScalarProofs2 FloatLemmas SqrtInv MagOrder PeakProofs.
Import ListNotations.
Open Scope Z_scope.

Section Gen.
Context {T : Type} (O : MixedOps T) (ok : T -> Prop) (key : T -> R).
Hypothesis H1 : forall x y, ok x -> ok y -> o_cmp O x y = Some (Rcompare (key x) (key y)).
Definition has (z : Cartesian T) (s : T) : Prop := strength O z = Ok s /\ ok s.
Lemma strongest_gen : forall zs best, (forall y, In y (best :: zs) -> exists s, has y s) ->
  exists r, strongest O best zs = Ok r /\ In r (best :: zs) /\ exists s, has r s /\ forall y d, In y (best :: zs) -> strength O y = Ok d -> (key d <= key s)%R.
Proof using H1.
  induction zs as [|y zs IH]; intros best A.
  - destruct (A best (or_introl eq_refl)) as (s & S). exists best. split; [reflexivity|]. split; [cbn; auto|]. exists s. split; [exact S|].
    intros y d [<-|[]] E. destruct S as [S _]. rewrite S in E. injection E as <-. lra.
  - destruct (A best (or_introl eq_refl)) as (s & S). destruct (A y (or_intror (or_introl eq_refl))) as (d & D). cbn [strongest].
    rewrite (proj1 S), (proj1 D). cbn [bind]. unfold o_lt. rewrite H1 by (apply S || apply D).
    assert (C : forall b c, (b = best /\ (key c <= key s)%R /\ c = d \/ b = y /\ (key s <= key d)%R /\ c = s) ->
      exists r, strongest O b zs = Ok r /\ In r (best :: y :: zs) /\ exists s, has r s /\ forall y' d, In y' (best :: y :: zs) -> strength O y' = Ok d -> (key d <= key s)%R).
    { intros b c B. destruct (IH b) as (r & R1 & R2 & s' & R3 & R4).
      - intros y' [<-|Y]; [|apply A; cbn; auto]. destruct B as [(-> & _)|(-> & _)]; eauto.
      - exists r. split; [exact R1|]. split; [destruct R2 as [<-|R2]; [destruct B as [(-> & _)|(-> & _)]; cbn; auto|cbn; auto]|]. exists s'. split; [exact R3|].
        intros y' d' Y E. assert (Q : In y' (b :: zs) \/ y' = best \/ y' = y) by (destruct Y as [<-|[<-|Y]]; cbn; auto). destruct Q as [Q|Q]; [eapply R4; eauto|].
        destruct B as [(-> & B & ->)|(-> & B & ->)].
        + pose proof (R4 best s (or_introl eq_refl) (proj1 S)) as K. destruct Q as [->| ->]; [rewrite (proj1 S) in E; injection E as <-; exact K|]. rewrite (proj1 D) in E. injection E as <-. lra.
        + pose proof (R4 y d (or_introl eq_refl) (proj1 D)) as K. destruct Q as [->| ->]; [rewrite (proj1 S) in E; injection E as <-; lra|]. rewrite (proj1 D) in E. injection E as <-. exact K. }
    destruct (Rcompare_spec (key s) (key d)) as [L|L|L]; cbn.
    + apply (C y s). right. repeat split. lra.
    + apply (C best d). left. repeat split. lra.
    + apply (C best d). left. repeat split. lra.
Qed.
End Gen.

Lemma strength_fixed : forall f z s, strength (fixed_ops Debug f) z = Ok s -> s = re z * re z / fone f + im z * im z / fone f.
Proof.
  intros f z s E. unfold strength in E. cbn [o_mul o_add fixed_ops] in E. unfold fx_mul, fx_add, fx_fin in E.
  destruct (fin Debug (fity f) (re z * re z / fone f)) as [x1| |] eqn:E1; cbn [bind] in E; try discriminate. apply fin_debug_inv in E1 as [-> _].
  destruct (fin Debug (fity f) (im z * im z / fone f)) as [x1| |] eqn:E1; cbn [bind] in E; try discriminate. apply fin_debug_inv in E1 as [-> _].
  apply fin_debug_inv in E as [-> _]. reflexivity.
Qed.
Theorem strongest_fixed : forall f, supported f = true -> forall best zs, (forall y, In y (best :: zs) -> exists s, strength (fixed_ops Debug f) y = Ok s) ->
  exists r, strongest (fixed_ops Debug f) best zs = Ok r /\ In r (best :: zs) /\
  forall y, In y (best :: zs) -> re y * re y + im y * im y <= re r * re r + im r * im r + 2 * (fone f - 1).
Proof.
  intros f Hf best zs A. pose proof (fone_pos f (proj1 (supported_fwf f Hf))) as P.
  destruct (strongest_gen (fixed_ops Debug f) (fun _ => True) IZR ltac:(intros; apply fixed_H1; reflexivity) zs best) as (r & R1 & R2 & s & [R3 _] & R4).
  { intros y Y. destruct (A y Y) as (s & S). exists s. split; auto. }
  exists r. split; [exact R1|]. split; [exact R2|]. intros y Y. destruct (A y Y) as (d & D). pose proof (R4 y d Y D) as K. apply le_IZR in K.
  apply strength_fixed in D, R3. subst s d.
  pose proof (Z.div_mod (re y * re y) (fone f) ltac:(lia)). pose proof (Z.div_mod (im y * im y) (fone f) ltac:(lia)).
  pose proof (Z.mod_pos_bound (re y * re y) (fone f) P). pose proof (Z.mod_pos_bound (im y * im y) (fone f) P).
  pose proof (Z.div_mod (re r * re r) (fone f) ltac:(lia)). pose proof (Z.div_mod (im r * im r) (fone f) ltac:(lia)).
  pose proof (Z.mod_pos_bound (re r * re r) (fone f) P). pose proof (Z.mod_pos_bound (im r * im r) (fone f) P). nia.
Qed.
Theorem strongest_zero : forall m f, supported f = true -> 1 <= ffrac f -> fvalid f 1 /\ strongest (fixed_ops m f) (mkC 0 0) [mkC 1 1] = Ok (mkC 0 0).
Proof.
  intros m f Hf Fr. assert (W : 1 <= iwidth (fity f)) by (apply fwf_width, supported_fwf; exact Hf). pose proof (zero_in_range (fity f) W) as Z0.
  pose proof (supported_fwf f Hf) as [F0 F1]. assert (O : 2 <= fone f) by (unfold fone; replace 2 with (2 ^ 1) at 1 by reflexivity; apply Z.pow_le_mono_r; lia).
  assert (P1 : 1 <= imax (fity f)).
  { assert (2 <= 2 ^ (fwidth f - 1)) by (replace 2 with (2 ^ 1) at 1 by reflexivity; apply Z.pow_le_mono_r; lia).
    assert (2 <= 2 ^ fwidth f) by (replace 2 with (2 ^ 1) at 1 by reflexivity; apply Z.pow_le_mono_r; lia). unfold imax, fity. cbn [isigned iwidth]. destruct (fsigned f); lia. }
  split; [unfold fvalid, in_range in *; lia|].
  assert (S : forall x, x = 0 \/ x = 1 -> strength (fixed_ops m f) (mkC x x) = Ok 0).
  { intros x X. unfold strength. cbn [re im o_mul o_add fixed_ops]. unfold fx_mul, fx_add, fx_fin. replace (x * x / fone f) with 0 by (symmetry; apply Z.div_small; nia). rewrite fin_ok by exact Z0. cbn [bind]. apply fin_ok. exact Z0. }
  cbn [strongest]. rewrite (S 0), (S 1) by auto. reflexivity.
Qed.

Section Flt.
Context {p e : Z} {Hp : Prec_gt_0 p} {He : Prec_lt_emax p e}.
Notation flt := (binary_float p e).
Notation O := (@float_ops p e Hp He).
Notation rnd := (round radix2 (SpecFloat.fexp p e) ZnearestE).
Definition sq (z : Cartesian flt) : R := (B2R (re z) * B2R (re z) + B2R (im z) * B2R (im z))%R.
Lemma rnd_err : forall v, (0 <= v)%R -> ((1 - bpow radix2 (- p)) * v - bpow radix2 (3 - e - p) / 2 <= rnd v <= (1 + bpow radix2 (- p)) * v + bpow radix2 (3 - e - p) / 2)%R.
Proof.
  intros v V. destruct (error_N_FLT radix2 (3 - e - p) p (prec_gt_0 p) (fun x => negb (Z.even x)) v) as (d & h & A & B & _ & D).
  change (round radix2 (FLT_exp (3 - e - p) p) (Znearest (fun x => negb (Z.even x))) v) with (rnd v) in D. rewrite D.
  assert (E : (/ 2 * bpow radix2 (- p + 1) = bpow radix2 (- p))%R) by (rewrite bpow_plus; change (bpow radix2 1) with 2%R; field). rewrite E in A.
  apply Rabs_le_inv in A. apply Rabs_le_inv in B. nra.
Qed.
Lemma strength_float : forall z s, strength O z = Ok s -> is_finite s = true ->
  let u := bpow radix2 (- p) in let h := (bpow radix2 (3 - e - p) / 2)%R in
  ((1 - u) * ((1 - u) * sq z - 2 * h) - h <= B2R s <= (1 + u) * ((1 + u) * sq z + 2 * h) + h)%R.
Proof.
  intros z s E F. cbv zeta. unfold strength in E. cbn [o_mul o_add float_ops bind] in E. injection E as <-.
  destruct (plus_fin _ _ F) as [F1 F2]. rewrite (plus_val _ _ F), (mult_fin _ _ F1), (mult_fin _ _ F2). unfold sq.
  set (a := (B2R (re z) * B2R (re z))%R). set (b := (B2R (im z) * B2R (im z))%R).
  assert (A0 : (0 <= a)%R) by (unfold a; nra). assert (B0 : (0 <= b)%R) by (unfold b; nra).
  assert (Vn : Valid_rnd ZnearestE) by apply valid_rnd_N.
  assert (P : forall v, (0 <= v)%R -> (0 <= rnd v)%R) by (intros v V; rewrite <- (round_0 radix2 (SpecFloat.fexp p e) ZnearestE); apply round_le; auto; apply (fexp_correct p e Hp)).
  pose proof (rnd_err a A0) as Ea. pose proof (rnd_err b B0) as Eb. pose proof (P a A0). pose proof (P b B0). pose proof (rnd_err (rnd a + rnd b) ltac:(lra)) as Es.
  set (u := bpow radix2 (- p)) in *. set (h := (bpow radix2 (3 - e - p) / 2)%R) in *.
  assert (U : (0 < u <= 1)%R). { unfold u. split; [apply bpow_gt_0|]. change 1%R with (bpow radix2 0). apply bpow_le. pose proof (prec_gt_0 p); lia. }
  split.
  - apply Rle_trans with ((1 - u) * (rnd a + rnd b) - h)%R; [|lra]. apply Rplus_le_compat_r. apply Rmult_le_compat_l; lra.
  - apply Rle_trans with ((1 + u) * (rnd a + rnd b) + h)%R; [lra|]. apply Rplus_le_compat_r. apply Rmult_le_compat_l; lra.
Qed.
Theorem strongest_float : forall best zs, (forall y, In y (best :: zs) -> exists s, strength O y = Ok s /\ is_finite s = true) ->
  exists r, strongest O best zs = Ok r /\ In r (best :: zs) /\
  forall y, In y (best :: zs) -> ((1 - bpow radix2 (- p)) ^ 2 * sq y <= (1 + bpow radix2 (- p)) ^ 2 * sq r + 3 * bpow radix2 (3 - e - p))%R.
Proof.
  intros best zs A.
  destruct (strongest_gen O (fun x => is_finite x = true) B2R ltac:(intros x y X Y; cbn [o_cmp float_ops]; apply Bcompare_correct; assumption) zs best A) as (r & R1 & R2 & s & [R3 R3'] & R4).
  exists r. split; [exact R1|]. split; [exact R2|]. intros y Y. destruct (A y Y) as (d & D & D'). pose proof (R4 y d Y D) as K.
  pose proof (strength_float y d D D') as Ey. pose proof (strength_float r s R3 R3') as Er. cbv zeta in Ey, Er. set (u := bpow radix2 (- p)) in *. set (h := bpow radix2 (3 - e - p)) in *. nra.
Qed.
End Flt.
