(** * Extreme values, sine bounds, periodicity of phase wrapping, order of summation. *)

From Coq Require Import ZArith Reals Lia Lra List Bool Permutation.
From Flocq Require Import Core.Core IEEE754.BinarySingleNaN.
From Verif Require Import Base FloatBase Literals Traits Trig IntImpl FixedPrim FixedImpl FloatImpl Complex Spec SpecRange
  Lemmas ScalarProofs ScalarProofs2 ComplexProofs ComplexProofs3 FloatLemmas WrapProofs WrapProofs2 TrigProofs SinReal SinFixed.
Import ListNotations.
Open Scope Z_scope.

(** ** extreme values *)
Lemma extreme_float : forall {prec emax : Z} {Hp : Prec_gt_0 prec} {He : Prec_lt_emax prec emax},
  let lo := mixed_min_value (@float_real prec emax Hp He) in let hi := mixed_max_value (@float_real prec emax Hp He) in
  is_finite lo = true /\ is_finite hi = true /\
  B2R hi = (bpow radix2 emax - bpow radix2 (emax - prec))%R /\ B2R lo = (- B2R hi)%R /\
  forall v : binary_float prec emax, is_finite v = true -> (B2R lo <= B2R v <= B2R hi)%R.
Proof.
  intros prec emax Hp He. cbn [float_real mixed_min_value mixed_max_value].
  assert (F : is_finite (@Bmax_float prec emax Hp He) = true) by reflexivity.
  assert (V : B2R (@Bmax_float prec emax Hp He) = (bpow radix2 emax - bpow radix2 (emax - prec))%R).
  { unfold Bmax_float. rewrite B2R_SF2B. cbn [SF2R cond_Zopp]. unfold F2R. cbn [Fnum Fexp].
    assert (P : 0 < prec) by exact Hp.
    assert (E : Z.pos (shift_pos (Z.to_pos prec) 1 - 1) = 2 ^ prec - 1).
    { rewrite Pos2Z.inj_sub.
      - rewrite shift_pos_correct, Z.pow_pos_fold, Z2Pos.id by lia. lia.
      - change (1 < shift_pos (Z.to_pos prec) 1)%positive. assert (Q : (Z.pos 1 < Z.pos (shift_pos (Z.to_pos prec) 1))); [rewrite shift_pos_correct, Z.pow_pos_fold, Z2Pos.id by lia;
        pose proof (proj1 (Z.pow_gt_1 2 prec ltac:(lia)) P); lia | exact Q]. }
    rewrite E, minus_IZR, (IZR_Zpower radix2) by lia.
    replace emax with (prec + (emax - prec)) at 2 by lia. rewrite bpow_plus. ring. }
  split; [rewrite is_finite_Bopp; auto|]. split; auto. split; auto. split; [apply B2R_Bopp|].
  intros v Fv. rewrite B2R_Bopp, V. apply Rabs_le_inv. apply (abs_B2R_le_emax_minus_prec prec emax Hp).
Qed.
Lemma extreme_fixed : forall m f, supported f = true ->
  let lo := mixed_min_value (fixed_real m f) in let hi := mixed_max_value (fixed_real m f) in
  fvalid f lo /\ fvalid f hi /\ (forall v, fvalid f v -> (fval f lo <= fval f v <= fval f hi)%R) /\
  fval f hi = ((if fsigned f then bpow radix2 (fwidth f - 1 - ffrac f) else bpow radix2 (fwidth f - ffrac f)) - ulp f)%R /\
  fval f lo = (if fsigned f then - bpow radix2 (fwidth f - 1 - ffrac f) else 0)%R.
Proof.
  intros m f Hf. pose proof (supported_inv f Hf) as [W F]. cbn [fixed_real mixed_min_value mixed_max_value].
  assert (W1 : 8 <= fwidth f) by lia.
  assert (B : forall k, 0 <= k -> (IZR (2 ^ k) * bpow radix2 (- ffrac f) = bpow radix2 (k - ffrac f))%R).
  { intros k K. change 2 with (radix_val radix2). rewrite IZR_Zpower by lia. rewrite <- bpow_plus. reflexivity. }
  assert (L : imin (fity f) <= imax (fity f)).
  { unfold imin, imax, fity. cbn [isigned iwidth]. assert (0 < 2 ^ (fwidth f - 1)) by (apply Z.pow_pos_nonneg; lia).
    assert (0 < 2 ^ fwidth f) by (apply Z.pow_pos_nonneg; lia). destruct (fsigned f); lia. }
  split; [unfold fvalid, in_range, fmin; lia|]. split; [unfold fvalid, in_range, fmax; lia|]. split.
  - intros v [V1 V2]. split; apply IZR_le in V1; apply IZR_le in V2; unfold fval, F2R; cbn [Fnum Fexp]; apply Rmult_le_compat_r; auto; apply bpow_ge_0.
  - assert (FE : forall z, fval f z = (IZR z * bpow radix2 (- ffrac f))%R) by (intros; unfold fval, F2R; reflexivity).
    assert (UE : ulp f = bpow radix2 (- ffrac f)) by reflexivity.
    rewrite !FE, UE. unfold fmax, fmin, imin, imax, fity. cbn [isigned iwidth].
    destruct (fsigned f); rewrite ?opp_IZR, ?minus_IZR.
    + split.
      * rewrite Rmult_minus_distr_r, B by lia. ring.
      * rewrite <- B by lia. ring.
    + split.
      * rewrite Rmult_minus_distr_r, B by lia. ring.
      * ring.
Qed.

(** ** bound on the sine *)
Notation fixed_sin m f := (Trig.sin (fixed_ops m f) (fixed_signed m f) (fixed_pi m f) (fixed_powi m f)).
Notation flt_sin := (Trig.sin float_ops float_signed float_pi float_powi).
Lemma sin_le1 : forall a b e, (Rabs (a - Rtrigo_def.sin b) <= e -> Rabs a <= 1 + e)%R.
Proof. intros a b e H. pose proof (SIN_bound b) as S. apply Rabs_le_inv in H. apply Rabs_le. lra. Qed.
Lemma sin_bound_fixed : forall m f, supported f = true -> fsigned f = true -> ffrac f <= fwidth f - 20 ->
  exists p, mixed_pi (fixed_pi m f) = Ok p /\ forall x, (Rabs (fval f x) <= fval f p)%R -> exists r, fixed_sin m f x = Ok r /\
    (Rabs (fval f r) <= 1 + (362 / 100000000 + 405 / 100 * ulp f))%R.
Proof.
  intros m f Hf S F. destruct (c19 m f Hf S F) as (p & Ep & _ & H). exists p. split; auto. intros x Hx. destruct (H x Hx) as (r & Er & B).
  exists r. split; auto. eapply sin_le1; eauto.
Qed.
Lemma sin_bound_f32 : exists p : f32, mixed_pi float_pi = Ok p /\ forall x : f32, is_finite x = true -> (Rabs (B2R x) <= B2R p)%R ->
    exists r, flt_sin x = Ok r /\ is_finite r = true /\ (Rabs (B2R r) <= 1 + 5 / 1000000)%R.
Proof.
  destruct c22_f32 as [_ (p & Ep & _ & H)]. exists p. split; auto. intros x Fx Hx. destruct (H x Fx Hx) as (r & Er & Fr & B).
  exists r. repeat split; auto. eapply sin_le1; eauto.
Qed.
Lemma sin_bound_f64 : exists p : f64, mixed_pi float_pi = Ok p /\ forall x : f64, is_finite x = true -> (Rabs (B2R x) <= B2R p)%R ->
    exists r, flt_sin x = Ok r /\ is_finite r = true /\ (Rabs (B2R r) <= 1 + 5 / 1000000)%R.
Proof.
  destruct c22_f64 as [_ (p & Ep & _ & H)]. exists p. split; auto. intros x Fx Hx. destruct (H x Fx Hx) as (r & Er & Fr & B).
  exists r. repeat split; auto. eapply sin_le1; eauto.
Qed.
(** at half of its own pi the sine of every 64-bit format with 16 to 44 fractional bits exceeds one *)
Definition upto (n : nat) : list Z := map Z.of_nat (seq 0 n).
Lemma upto_in : forall n z, 0 <= z < Z.of_nat n -> In z (upto n).
Proof. intros n z H. unfold upto. apply in_map_iff. exists (Z.to_nat z). split; [lia|]. apply in_seq. lia. Qed.
Definition sin_over (m : mode) (f : fty) : bool :=
  match mixed_pi (fixed_pi m f) with
  | Ok p => match fixed_sin m f (p / 2) with Ok r => (0 <? p) && in_rangeb (fity f) (p / 2) && (2 ^ ffrac f <? r) | _ => false end
  | _ => false
  end.
Lemma sin_over_all : forall m, forallb (fun k => sin_over m (mkFty true 64 (k + 16))) (upto 29) = true.
Proof. intros [|]; vm_compute; reflexivity. Qed.
Lemma sin_exceeds_fixed : forall m f, fsigned f = true -> fwidth f = 64 -> 16 <= ffrac f <= 44 ->
  exists p x r, mixed_pi (fixed_pi m f) = Ok p /\ fvalid f x /\ (0 <= fval f x <= fval f p)%R /\ fixed_sin m f x = Ok r /\ (1 < fval f r)%R.
Proof.
  intros m [sg w k] S W K. cbn [fsigned fwidth ffrac] in *. subst sg w.
  pose proof (sin_over_all m) as A. rewrite forallb_forall in A. specialize (A (k - 16) (upto_in 29 (k - 16) ltac:(change (Z.of_nat 29) with 29; lia))).
  replace (k - 16 + 16) with k in A by lia. unfold sin_over in A. cbn [ffrac] in A.
  destruct (mixed_pi (fixed_pi m (mkFty true 64 k))) as [p| |] eqn:Ep; try discriminate.
  destruct (fixed_sin m (mkFty true 64 k) (p / 2)) as [r| |] eqn:Er; try discriminate.
  rewrite !andb_true_iff in A. destruct A as [[A1 A2] A3]. apply Z.ltb_lt in A1, A3. apply in_rangeb_spec in A2.
  exists p, (p / 2), r. split; auto. split; auto. assert (H : 0 <= p / 2 <= p) by (Z.to_euclidean_division_equations; lia).
  split; [|split; auto].
  - rewrite !fval_eq by (cbn; lia). destruct H as [H1 H2]. apply IZR_le in H1, H2.
    pose proof (fone_IZR_pos (mkFty true 64 k) ltac:(cbn; lia)) as P. apply Rinv_0_lt_compat in P. split.
    + apply Rmult_le_pos; lra.
    + apply Rmult_le_compat_r; lra.
  - rewrite fval_eq by (cbn; lia). pose proof (fone_IZR_pos (mkFty true 64 k) ltac:(cbn; lia)) as P.
    apply Rmult_lt_reg_r with (IZR (fone (mkFty true 64 k))); auto. unfold Rdiv. rewrite Rmult_assoc, Rinv_l by lra. rewrite Rmult_1_l, Rmult_1_r. apply IZR_lt. exact A3.
Qed.

(** ** the sine in release builds, where 5! ... 9! may wrap *)
Definition sin_off (f : fty) : bool :=
  match mixed_pi (fixed_pi Release f) with
  | Ok p => match fixed_sin Release f (p / 2) with
            | Ok r => (0 <? p) && in_rangeb (fity f) (p / 2) && ((r * 100 <? 98 * 2 ^ ffrac f) || (102 * 2 ^ ffrac f <? r * 100)) | _ => false end
  | _ => false
  end.
Lemma sin_off_all : forallb (fun i => sin_off (mkFty true 32 (32 - (i + 8))) && sin_off (mkFty true 64 (64 - (i + 8)))) (upto 8) = true.
Proof. vm_compute. reflexivity. Qed.
Lemma sin_release_wrong : forall f, fsigned f = true -> fwidth f = 32 \/ fwidth f = 64 -> 8 <= fwidth f - ffrac f <= 15 ->
  exists p x r, mixed_pi (fixed_pi Release f) = Ok p /\ fvalid f x /\ (0 <= fval f x <= fval f p)%R /\ fixed_sin Release f x = Ok r /\
  (19 / 1000 < Rabs (fval f r - Rtrigo_def.sin (fval f x)))%R.
Proof.
  intros f S W K. assert (Hf : supported f = true).
  { unfold supported. rewrite !andb_true_iff, !orb_true_iff, !Z.eqb_eq, !Z.leb_le. lia. }
  assert (A : sin_off f = true).
  { pose proof sin_off_all as A. rewrite forallb_forall in A. specialize (A (fwidth f - ffrac f - 8) (upto_in 8 (fwidth f - ffrac f - 8) ltac:(change (Z.of_nat 8) with 8; lia))).
    apply andb_true_iff in A. destruct f as [sg w k]. cbn [fsigned fwidth ffrac] in *. subst sg. destruct W as [-> | ->].
    - destruct A as [A _]. replace (32 - (32 - k - 8 + 8)) with k in A by lia. exact A.
    - destruct A as [_ A]. replace (64 - (64 - k - 8 + 8)) with k in A by lia. exact A. }
  unfold sin_off in A. rewrite (fixed_pi_eq Release f) in A by (apply supported_fwf; auto).
  pose proof (supported_fwf f Hf) as Wf. pose proof (pi_real f Wf) as PR. pose proof (fone_IZR_pos f (proj1 Wf)) as Q.
  assert (Q17 : (131072 <= IZR (fone f))%R).
  { apply IZR_le. unfold fone. change 131072 with (2 ^ 17). apply Z.pow_le_mono_r; lia. }
  set (p := pi_bits f) in *.
  destruct (fixed_sin Release f (p / 2)) as [r| |] eqn:Er; try discriminate.
  rewrite !andb_true_iff in A. destruct A as [[A1 A2] A3]. apply Z.ltb_lt in A1. apply in_rangeb_spec in A2.
  change (2 ^ ffrac f) with (fone f) in A3.
  exists p, (p / 2), r. split; [apply fixed_pi_eq; auto|]. split; auto.
  assert (H : 2 * (p / 2) <= p <= 2 * (p / 2) + 1) by (Z.to_euclidean_division_equations; lia).
  set (h := p / 2) in *. assert (H0 : 0 <= h <= p) by lia. destruct H as [H1 H2]. destruct H0 as [H3 H4].
  apply IZR_le in H1, H2, H3, H4. rewrite mult_IZR in H1. rewrite plus_IZR, mult_IZR in H2.
  assert (Qi := Rinv_0_lt_compat _ Q). rewrite !fval_eq by apply Wf. unfold Rdiv.
  split; [split; [apply Rmult_le_pos; lra | apply Rmult_le_compat_r; lra]|]. split; auto.
  set (q := IZR (fone f)) in *.
  assert (SN : (Rabs (Rtrigo_def.sin (IZR h * / q) - 1) <= 1 / 10000)%R).
  { pose proof (sin_lipschitz (IZR h * / q) (PI / 2)) as LP. rewrite sin_PI2 in LP. eapply Rle_trans; [exact LP|]. clear LP.
    replace (IZR h * / q - PI / 2)%R with ((IZR h - PI * q / 2) * / q)%R by (field; lra).
    rewrite Rabs_mult, (Rabs_pos_eq (/ q)) by lra. apply Rmult_le_reg_r with q; auto. rewrite Rmult_assoc, Rinv_l, Rmult_1_r by lra.
    apply Rabs_le_inv in PR. apply Rabs_le. lra. }
  apply Rabs_le_inv in SN. apply orb_true_iff in A3. destruct A3 as [A3|A3]; apply Z.ltb_lt, IZR_lt in A3; rewrite !mult_IZR in A3; fold q in A3.
  - assert (IZR r * / q < 98 / 100)%R by (apply Rmult_lt_reg_r with q; auto; rewrite Rmult_assoc, Rinv_l, Rmult_1_r by lra; lra).
    rewrite Rabs_left by lra. lra.
  - assert (102 / 100 < IZR r * / q)%R by (apply Rmult_lt_reg_r with q; auto; rewrite Rmult_assoc, Rinv_l, Rmult_1_r by lra; lra).
    rewrite Rabs_pos_eq by lra. lra.
Qed.

(** ** phase wrapping depends on the angle modulo 2 pi only, and is odd *)
Lemma wrap_period : forall m f, supported f = true -> fsigned f = true -> (m = Release \/ ffrac f <= fwidth f - 4) ->
  exists p, mixed_pi (fixed_pi m f) = Ok p /\
  (forall a b, fvalid f a -> fvalid f b -> (exists k, fval f a - fval f b = IZR k * (2 * fval f p))%R -> exists r,
     returns (fun fuel => mixed_wrap_phase (fixed_wrap_phase m f fuel) a) r /\
     returns (fun fuel => mixed_wrap_phase (fixed_wrap_phase m f fuel) b) r) /\
  (forall a, fvalid f a -> fvalid f (- a) -> exists r r',
     returns (fun fuel => mixed_wrap_phase (fixed_wrap_phase m f fuel) a) r /\
     returns (fun fuel => mixed_wrap_phase (fixed_wrap_phase m f fuel) (- a)) r' /\ (r = - p /\ r' = - p \/ r <> - p /\ r' = - r)).
Proof.
  intros m f Hf S HM. pose proof (supported_fwf f Hf) as W. destruct (fixed_wrap_all m f Hf S HM) as (p & Ep & Pp & H). exists p. split; auto.
  assert (NV : forall a, fval f (- a) = (- fval f a)%R).
  { intros a. rewrite !fval_eq by apply W. rewrite opp_IZR. field. pose proof (fone_IZR_pos f (proj1 W)). lra. }
  split.
  - intros a b Va Vb [k K]. destruct (H a Va) as (r & R & B & [j J] & _). destruct (H b Vb) as (r' & R' & B' & _ & U).
    exists r. split; auto. rewrite (U r B); auto. exists (j - k). rewrite minus_IZR. lra.
  - intros a Va Vn. destruct (H a Va) as (r & R & B & [j J] & _). destruct (H (- a) Vn) as (r' & R' & B' & _ & U).
    exists r, r'. split; auto. split; auto. rewrite NV in U. destruct (Z.eq_dec r (- p)) as [E|E].
    + left. split; auto. symmetry. apply U; [rewrite NV; lra|]. exists (1 - j). rewrite minus_IZR. subst r. rewrite NV in *. lra.
    + right. split; auto. symmetry. apply U.
      * rewrite NV. split; [lra|]. assert (fval f r <> - fval f p)%R; [|lra]. intros C. apply E. rewrite <- NV in C.
        rewrite !fval_eq in C by apply W. pose proof (fone_IZR_pos f (proj1 W)) as Q. apply eq_IZR. 
        apply Rmult_eq_reg_r with (/ IZR (fone f))%R; [exact C|]. apply Rinv_neq_0_compat. lra.
      * exists (- j). rewrite opp_IZR, NV. lra.
Qed.

(** ** order of summation *)
Lemma sumZ_perm : forall l l', Permutation l l' -> sumZ l = sumZ l'.
Proof. intros l l' H. induction H; cbn [sumZ]; lia. Qed.
Lemma run_cons : forall A B (s : A -> B -> res A) z w ws, run s z (w :: ws) = (z' <- s z w ;; run s z' ws).
Proof.
  intros. unfold run. cbn [fold_left]. cbn [bind]. destruct (s z w) as [z'|p|]; [reflexivity| |]; cbn [bind];
  induction ws; cbn [fold_left bind]; auto.
Qed.

Lemma sum_release : forall t O, word_arith Release t O -> 8 <= iwidth t -> forall ws z, cvalid t z ->
  run (cartesian_add O) z ws = Ok (cwrap t (psum z ws)).
Proof.
  intros t O HO W ws. induction ws as [|w ws IH]; intros z V.
  - cbn. unfold cwrap, psum. cbn [map sumZ re im]. rewrite !Z.add_0_r. destruct V. rewrite !wrap_id by (auto; lia). destruct z; reflexivity.
  - rewrite run_cons. rewrite (cadd_release Release t O HO ltac:(lia) eq_refl). cbn [bind].
    rewrite IH by (split; cbn [re im]; apply wrap_range; lia). f_equal. unfold cwrap, psum. cbn [map sumZ re im].
    f_equal; rewrite wrap_add_l by lia; f_equal; lia.
Qed.
Lemma psum_cons : forall z w ws, psum z (w :: ws) = psum (mkC (re z + re w) (im z + im w)) ws.
Proof. intros. unfold psum. cbn [map sumZ re im]. f_equal; lia. Qed.
Lemma sum_debug : forall t O, word_arith Debug t O -> 8 <= iwidth t -> forall ws z, cvalid t z -> forall r,
  run (cartesian_add O) z ws = Ok r <-> (forall k, cvalid t (psum z (firstn k ws))) /\ r = psum z ws.
Proof.
  intros t O HO W ws. induction ws as [|w ws IH]; intros z V r.
  - assert (E : psum z [] = z) by (unfold psum; cbn [map sumZ]; rewrite !Z.add_0_r; destruct z; reflexivity).
    cbn. split.
    + intros H. injection H as <-. split; [|auto]. intros k. rewrite firstn_nil, E. auto.
    + intros [_ H]. rewrite E in H. subst. reflexivity.
  - rewrite run_cons, (cadd_debug Debug t O HO eq_refl).
    assert (P1 : cvalid t (psum z (firstn 1 (w :: ws))) <-> cvalid t (mkC (re z + re w) (im z + im w))).
    { cbn [firstn]. rewrite psum_cons. unfold psum. cbn [map sumZ]. rewrite !Z.add_0_r. cbn [re im]. tauto. }
    destruct (in_rangeb t (re z + re w) && in_rangeb t (im z + im w)) eqn:E.
    + apply andb_true_iff in E. destruct E as [E1 E2]. apply in_rangeb_spec in E1, E2. cbn [bind]. rewrite IH by (split; auto).
      rewrite psum_cons. split; intros [H ->]; split; auto; intros k.
      * destruct k; [|cbn [firstn]; rewrite psum_cons; auto]. unfold psum. cbn [firstn map sumZ]. rewrite !Z.add_0_r. destruct z. exact V.
      * specialize (H (S k)). cbn [firstn] in H. rewrite psum_cons in H. exact H.
    + split; [discriminate|]. intros [H _]. exfalso. specialize (H 1%nat). apply P1 in H. destruct H as [H1 H2]. cbn [re im] in H1, H2.
      apply in_rangeb_spec in H1, H2. rewrite H1, H2 in E. discriminate.
Qed.
Lemma psum_perm : forall z ws ws', Permutation ws ws' -> psum z ws = psum z ws'.
Proof. intros z ws ws' P. unfold psum. f_equal; f_equal; apply sumZ_perm, Permutation_map, P. Qed.
Lemma sum_order : forall m t O, word_arith m t O -> 8 <= iwidth t -> forall z ws ws', cvalid t z -> Permutation ws ws' ->
  (m = Release -> run (cartesian_add O) z ws = run (cartesian_add O) z ws') /\
  (forall r r', run (cartesian_add O) z ws = Ok r -> run (cartesian_add O) z ws' = Ok r' -> r = r').
Proof.
  intros m t O HO W z ws ws' V P. assert (R : m = Release -> run (cartesian_add O) z ws = run (cartesian_add O) z ws').
  { intros ->. rewrite !(sum_release t O HO W) by auto. rewrite (psum_perm z ws ws' P). reflexivity. }
  split; auto. intros r r' H H'. destruct m.
  - apply (sum_debug t O HO W) in H, H'; auto. destruct H as [_ ->], H' as [_ ->]. apply psum_perm; auto.
  - rewrite R in H by auto. congruence.
Qed.
(** with all terms in one quadrant the order does not matter at all *)
Lemma sumZ_part : forall ws, (forall w, In w ws -> 0 <= w) -> forall k, 0 <= sumZ (firstn k ws) <= sumZ ws.
Proof.
  induction ws as [|w ws IH]; intros H k.
  - rewrite firstn_nil. cbn. lia.
  - pose proof (H w (or_introl eq_refl)). assert (H' : forall v, In v ws -> 0 <= v) by (intros; apply H; right; auto).
    destruct k; cbn [firstn sumZ].
    + pose proof (IH H' (length ws)). rewrite firstn_all in H1. lia.
    + pose proof (IH H' k). lia.
Qed.
Lemma sum_quadrant : forall t O, word_arith Debug t O -> 8 <= iwidth t -> forall z ws, cvalid t z ->
  (forall w, In w ws -> 0 <= re w /\ 0 <= im w) ->
  run (cartesian_add O) z ws = if in_rangeb t (re z + sumZ (map re ws)) && in_rangeb t (im z + sumZ (map im ws))
    then Ok (mkC (re z + sumZ (map re ws)) (im z + sumZ (map im ws))) else Panic POverflow.
Proof.
  intros t O HO W z ws V H.
  assert (HR : forall w, In w (map re ws) -> 0 <= w) by (intros w I; apply in_map_iff in I; destruct I as [x [<- I]]; apply H; auto).
  assert (HI : forall w, In w (map im ws) -> 0 <= w) by (intros w I; apply in_map_iff in I; destruct I as [x [<- I]]; apply H; auto).
  destruct (in_rangeb t _ && in_rangeb t _) eqn:E.
  - apply andb_true_iff in E. destruct E as [E1 E2]. apply in_rangeb_spec in E1, E2. apply (sum_debug t O HO W); auto. split; [|reflexivity].
    intros k. destruct V as [V1 V2]. unfold psum. rewrite <- !firstn_map. pose proof (sumZ_part _ HR k). pose proof (sumZ_part _ HI k).
    unfold in_range in *. split; cbn [re im]; unfold in_range; lia.
  - assert (N : forall r, run (cartesian_add O) z ws <> Ok r).
    { intros r C. apply (sum_debug t O HO W) in C; auto. destruct C as [C _]. specialize (C (length ws)). rewrite firstn_all in C. destruct C as [C1 C2].
      cbn [psum re im] in C1, C2. apply in_rangeb_spec in C1, C2. rewrite C1, C2 in E. discriminate. }
    clear - HO N. revert z N. induction ws as [|w ws IH]; intros z N.
    + exfalso. apply (N z). reflexivity.
    + rewrite run_cons in *. rewrite (cadd_debug Debug t O HO eq_refl) in *. destruct (in_rangeb t _ && in_rangeb t _); [|reflexivity].
      cbn [bind] in *. apply IH. exact N.
Qed.
Lemma extreme_int : forall m t, In t int_types ->
  let lo := mixed_min_value (int_real m t) in let hi := mixed_max_value (int_real m t) in
  (if isigned t then lo = - 2 ^ (iwidth t - 1) /\ hi = 2 ^ (iwidth t - 1) - 1 else lo = 0 /\ hi = 2 ^ iwidth t - 1) /\
  in_range t lo /\ in_range t hi /\ forall v, in_range t v -> lo <= v <= hi.
Proof.
  intros m t H lo hi. pose proof (int_types_width t H) as W. unfold lo, hi. cbn [int_real mixed_min_value mixed_max_value].
  assert (0 < 2 ^ (iwidth t - 1)) by (apply Z.pow_pos_nonneg; lia). assert (0 < 2 ^ iwidth t) by (apply Z.pow_pos_nonneg; lia).
  unfold in_range, imin, imax. destruct (isigned t); repeat split; lia.
Qed.
