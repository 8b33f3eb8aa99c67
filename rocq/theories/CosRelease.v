(** * The polynomial cosine in release builds with 8 to 19 integer bits (proofs for C73). *)

From Coq Require Import ZArith Reals Lia Lra Psatz List Bool.
From Flocq Require Import Core.Core IEEE754.BinarySingleNaN.
From Verif Require Import Base FloatBase Literals Traits Trig FixedPrim FixedImpl Spec
  Lemmas ScalarProofs ScalarProofs2 WrapProofs NiirfZ SinReal SinFixed AtanFixed TrigProofs PolarProofs RangeProofs SinRelease SinRelease8 WrapFar.
Open Scope Z_scope.

Notation the_cos m f := (Trig.cos (fixed_ops m f) (fixed_signed m f) (fixed_pi m f) (fixed_powi m f)).
Notation the_sin m f := (Trig.sin (fixed_ops m f) (fixed_signed m f) (fixed_pi m f) (fixed_powi m f)).

(** an error bound of the sine gives one of the cosine *)
Lemma cos_from_sin : forall m f B, fwf f -> fsigned f = true -> m = Release \/ ffrac f <= fwidth f - 4 ->
  (forall y, Z.abs y <= pi_bits f -> exists r, the_sin m f y = Ok r /\ (Rabs (fval f r - Rtrigo_def.sin (fval f y)) <= B)%R) ->
  forall x, fvalid f (x + pi_bits f / 2) -> exists r, returns (fun fuel => the_cos m f fuel x) r /\
  (Rabs (fval f r - Rtrigo_def.cos (fval f x)) <= B + (2 + Rabs (fval f x) / 5) * ulp f + (3 + Rabs (fval f x) / 2) / 1000000000000000)%R.
Proof.
  intros m f B W S HM HS x V. set (p := pi_bits f) in *. set (q := fone f).
  destruct (wrap_phase_fixed m f W S HM (x + p / 2) V) as [y [[n0 R] [Y1 [k Y2]]]]. fold p in Y1, Y2.
  pose proof (pi_bits_bounds f W) as PB. pose proof (fone_pos f (proj1 W)) as Q0. fold p q in PB, Q0.
  destruct (HS y ltac:(lia)) as [r [E A]]. exists r. split.
  - exists n0. intros n Hn. unfold Trig.cos. rewrite half_pi_ok by auto. cbn [o_add fixed_ops]. unfold fx_add. fold p.
    rewrite fx_fin_ok by auto. cbn [bind]. specialize (R n Hn). cbn [mixed_wrap_phase fixed_wrap_phase] in R. rewrite R. exact E.
  - pose proof (half_real f W) as HN. pose proof (pi_real f W) as PN. fold p q in HN, PN.
    assert (Q : (1 <= IZR q)%R) by (apply IZR_le; lia).
    rewrite !fval_eq, ulp_eq in * by apply W. fold q in A |- *. set (v := (IZR x / IZR q)%R) in *.
    assert (U : (0 < / IZR q)%R) by (apply Rinv_0_lt_compat; lra).
    assert (K : (Rabs (IZR k) <= 76 / 100 + Rabs v / 6)%R).
    { assert (K1 : Z.abs k * (2 * p) <= Z.abs x + p / 2 + p).
      { rewrite <- (Z.abs_eq (2 * p)) by lia. rewrite <- Z.abs_mul, <- Y2. pose proof (Z.div_pos p 2 ltac:(lia) ltac:(lia)). lia. }
      assert (K2 : Z.abs k * (4 * p) <= 2 * Z.abs x + 3 * p) by (pose proof (Z.mul_div_le p 2 ltac:(lia)); lia).
      apply IZR_le in K2. rewrite plus_IZR, !mult_IZR, !abs_IZR in K2.
      assert (X : (Rabs (IZR x) = Rabs v * IZR q)%R).
      { unfold v, Rdiv. rewrite Rabs_mult, Rabs_inv, (Rabs_pos_eq (IZR q)) by lra. field. lra. }
      rewrite X in K2. assert (P3 : (3 * IZR q <= IZR p)%R) by (rewrite <- mult_IZR; apply IZR_le; lia).
      pose proof (Rabs_pos v).
      assert (Rabs v * IZR q <= Rabs v * (IZR p / 3))%R by (apply Rmult_le_compat_l; lra).
      apply Rmult_le_reg_r with (4 * IZR p)%R; lra. }
    set (e := (/ 1000000000000000)%R) in *. assert (E0 : (0 < e)%R) by (unfold e; lra).
    replace (/ 2000000000000000)%R with (e / 2)%R in HN by (unfold e; lra).
    assert (D : (Rabs (IZR y / IZR q - (v + PI / 2 - 2 * IZR k * PI)) <= (3 / 4 + Rabs (IZR k)) * / IZR q + (/ 2 + 2 * Rabs (IZR k)) * e)%R).
    { assert (Y : y = x + p / 2 - k * (2 * p)) by lia. rewrite Y, minus_IZR, plus_IZR, !mult_IZR.
      replace ((IZR x + IZR (p / 2) - IZR k * (2 * IZR p)) / IZR q - (v + PI / 2 - 2 * IZR k * PI))%R with
        (((IZR (p / 2) - PI / 2 * IZR q) - 2 * IZR k * (IZR p - PI * IZR q)) * / IZR q)%R by (unfold v; field; lra).
      rewrite Rabs_mult, (Rabs_pos_eq (/ IZR q)) by lra.
      replace ((3 / 4 + Rabs (IZR k)) * / IZR q + (/ 2 + 2 * Rabs (IZR k)) * e)%R with
        ((3 / 4 + Rabs (IZR k) + (/ 2 + 2 * Rabs (IZR k)) * e * IZR q) * / IZR q)%R by (field; lra).
      apply Rmult_le_compat_r; [lra|].
      eapply Rle_trans; [apply Rabs_triang|]. rewrite Rabs_Ropp, !Rabs_mult, (Rabs_pos_eq 2) by lra.
      assert (Rabs (IZR k) * Rabs (IZR p - PI * IZR q) <= Rabs (IZR k) * (/ 2 + e * IZR q))%R by (apply Rmult_le_compat_l; auto using Rabs_pos).
      lra. }
    assert (C : Rtrigo_def.cos v = Rtrigo_def.sin (v + PI / 2 - 2 * IZR k * PI)).
    { replace (v + PI / 2 - 2 * IZR k * PI)%R with (v + PI / 2 + 2 * IZR (- k) * PI)%R by (rewrite opp_IZR; ring).
      rewrite sin_turns, <- sin_shift. replace (v + PI / 2)%R with (PI - (PI / 2 - v))%R by field. apply eq_sym, sin_PI_x. }
    rewrite C. pose proof (sin_lipschitz (IZR y / IZR q) (v + PI / 2 - 2 * IZR k * PI)) as L.
    assert (Bd : ((3 / 4 + Rabs (IZR k)) * / IZR q <= (2 + Rabs v / 5) * / IZR q)%R).
    { apply Rmult_le_compat_r; [lra|]. pose proof (Rabs_pos v). lra. }
    assert (Be : ((/ 2 + 2 * Rabs (IZR k)) * e <= (3 + Rabs v / 2) * e)%R).
    { apply Rmult_le_compat_r; [lra|]. pose proof (Rabs_pos v). lra. }
    replace ((3 + Rabs v / 2) / 1000000000000000)%R with ((3 + Rabs v / 2) * e)%R by reflexivity.
    replace (IZR r / IZR q - Rtrigo_def.sin (v + PI / 2 - 2 * IZR k * PI))%R with
      ((IZR r / IZR q - Rtrigo_def.sin (IZR y / IZR q)) + (Rtrigo_def.sin (IZR y / IZR q) - Rtrigo_def.sin (v + PI / 2 - 2 * IZR k * PI)))%R by ring.
    eapply Rle_trans; [apply Rabs_triang|]. lra.
Qed.

(** the deviation with [i] integer bits *)
Definition cos_dev (i : Z) : R := if i <=? 13 then sin_dev8 i else sin_dev i.
Lemma cos_release_near : forall f, supported f = true -> fsigned f = true -> 8 <= fwidth f - ffrac f <= 19 ->
  exists p, mixed_pi (fixed_pi Release f) = Ok p /\ forall x, fvalid f x -> (fval f x + fval f p / 2 <= fval f (fmax f))%R ->
  exists r, returns (fun fuel => the_cos Release f fuel x) r /\
  (Rabs (fval f r - Rtrigo_def.cos (fval f x)) <= cos_dev (fwidth f - ffrac f) + (12 + Rabs (fval f x) / 5) * ulp f + (3 + Rabs (fval f x) / 2) / 1000000000000000)%R.
Proof.
  intros f Hf S I. pose proof (supported_fwf f Hf) as W. pose proof (proj1 W) as F0.
  pose proof (pi_bits_bounds f W) as PB. pose proof (fone_pos f F0) as Q0. pose proof (fone_IZR_pos f F0) as QR.
  exists (pi_bits f). split; [apply fixed_pi_eq; auto|]. intros x V H1.
  assert (V2 : fvalid f (x + pi_bits f / 2)).
  { assert (L : x + pi_bits f / 2 <= fmax f).
    { rewrite !fval_eq in H1 by auto.
      assert (H2 : (IZR x + IZR (pi_bits f) / 2 <= IZR (fmax f))%R).
      { apply Rmult_le_reg_r with (/ IZR (fone f))%R; [apply Rinv_0_lt_compat; auto|]. unfold Rdiv in *. lra. }
      pose proof (floor_real (pi_bits f) 2 ltac:(lia)). apply le_IZR. rewrite plus_IZR. lra. }
    pose proof (Z.div_pos (pi_bits f) 2 ltac:(lia) ltac:(lia)).
    unfold fvalid, in_range in *. unfold fmax in L. split; [lia|exact L]. }
  assert (U : (0 < ulp f)%R) by (unfold ulp; apply bpow_gt_0).
  destruct (cos_from_sin Release f (cos_dev (fwidth f - ffrac f) + 10 * ulp f) W S (or_introl eq_refl)) with (x := x) as [r [R A]]; auto.
  - intros y Y. assert (Y' : (Rabs (fval f y) <= fval f (pi_bits f))%R).
    { rewrite !fval_eq by auto. unfold Rdiv. rewrite Rabs_mult, Rabs_inv, (Rabs_pos_eq (IZR (fone f))) by lra.
      apply Rmult_le_compat_r; [left; apply Rinv_0_lt_compat; lra|]. rewrite <- abs_IZR. apply IZR_le. exact Y. }
    unfold cos_dev. destruct (Z.leb_spec (fwidth f - ffrac f) 13).
    + destruct (sin_release_near8 f Hf S ltac:(lia)) as (p & Ep & H2). rewrite fixed_pi_eq in Ep by auto. injection Ep as <-. exact (H2 y Y').
    + destruct (sin_release_near f Hf S ltac:(lia)) as (p & Ep & H2). rewrite fixed_pi_eq in Ep by auto. injection Ep as <-.
      destruct (H2 y Y') as (r & Er & Ar). exists r. split; auto. lra.
  - exists r. split; [exact R|]. lra.
Qed.

(** the cosine of zero, in thousandths *)
Definition cos_zero (i : Z) : Z :=
  if i <=? 9 then 844 else if i =? 10 then 1451 else if i =? 11 then 1131 else if i =? 12 then 944 else if i =? 13 then 1035 else if i <=? 15 then 1023 else 997.
Definition cos_zero_ok (w i : Z) : bool :=
  let f := mkFty true w (w - i) in
  match the_cos Release f 3 0 with
  | Ok r => (cos_zero i * fone f <=? r * 1000) && (r * 1000 <=? (cos_zero i + 1) * fone f) | _ => false end.
Lemma cos_zero_all : forallb (fun i => cos_zero_ok 32 (i + 8) && cos_zero_ok 64 (i + 8)) (upto 10) = true.
Proof. vm_compute. reflexivity. Qed.
Lemma fixed_cos_mono : forall m f n x r, the_cos m f n x = Ok r -> returns (fun fuel => the_cos m f fuel x) r.
Proof.
  intros m f n x r E. unfold Trig.cos in *.
  destruct (mixed_pi (fixed_pi m f)) as [p| |]; cbn [bind] in E |- *; try discriminate.
  destruct (o_of_i32 (fixed_ops m f) 2) as [t| |]; cbn [bind] in E |- *; try discriminate.
  destruct (o_div (fixed_ops m f) p t) as [h| |]; cbn [bind] in E |- *; try discriminate.
  destruct (o_add (fixed_ops m f) x h) as [y| |]; cbn [bind] in E |- *; try discriminate.
  destruct (wrap_phase (fixed_ops m f) (fixed_signed m f) (fixed_pi m f) n y) as [w| |] eqn:Wq; cbn [bind] in E; try discriminate.
  destruct (wrap_mono _ _ _ _ _ _ Wq) as [k Hk]. exists k. intros fuel L. cbv beta in Hk. rewrite (Hk fuel L). exact E.
Qed.
Lemma cos_zero_wrong : forall f, fsigned f = true -> fwidth f = 32 \/ fwidth f = 64 -> 8 <= fwidth f - ffrac f <= 17 ->
  exists r, returns (fun fuel => the_cos Release f fuel 0) r /\
  (IZR (cos_zero (fwidth f - ffrac f)) / 1000 <= fval f r <= (IZR (cos_zero (fwidth f - ffrac f)) + 1) / 1000)%R.
Proof.
  intros f S W K.
  assert (A : cos_zero_ok (fwidth f) (fwidth f - ffrac f) = true).
  { pose proof cos_zero_all as A. rewrite forallb_forall in A. specialize (A (fwidth f - ffrac f - 8) (upto_in 10 (fwidth f - ffrac f - 8) ltac:(change (Z.of_nat 10) with 10; lia))).
    rewrite andb_true_iff in A. replace (fwidth f - ffrac f - 8 + 8) with (fwidth f - ffrac f) in A by lia. destruct A as [A1 A2]. set (k := fwidth f - ffrac f) in *. clearbody k. destruct W as [W|W]; rewrite W; assumption. }
  unfold cos_zero_ok in A. replace (mkFty true (fwidth f) (fwidth f - (fwidth f - ffrac f))) with f in A by (destruct f as [sg w k]; cbn [fsigned fwidth ffrac] in *; subst sg; f_equal; lia).
  destruct (the_cos Release f 3 0) as [r| |] eqn:E; try discriminate. rewrite andb_true_iff, !Z.leb_le in A. destruct A as [A B].
  exists r. split; [exact (fixed_cos_mono _ _ _ _ _ E)|].
  assert (F0 : 0 <= ffrac f) by lia. pose proof (fone_IZR_pos f F0) as Q. rewrite fval_eq by auto.
  apply IZR_le in A, B. rewrite !mult_IZR in A, B. rewrite plus_IZR in B. set (c := IZR (cos_zero _)) in *.
  split; apply Rmult_le_reg_r with (1000 * IZR (fone f))%R; try lra.
  - replace (IZR r / IZR (fone f) * (1000 * IZR (fone f)))%R with (IZR r * 1000)%R by (field; lra). lra.
  - replace (IZR r / IZR (fone f) * (1000 * IZR (fone f)))%R with (IZR r * 1000)%R by (field; lra). lra.
Qed.
