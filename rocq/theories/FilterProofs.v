(** * Recursive filters [z = z * w + x] on fixed-point types. *)

From Coq Require Import ZArith Reals Lia Lra Psatz Bool List.
From Flocq Require Import Core.Core.
From Verif Require Import Base FloatBase Traits IntImpl FixedPrim FixedImpl Complex Spec SpecFilter Lemmas ScalarProofs ScalarProofs2 ComplexProofs ComplexProofs3 ProdProofs PhaseAcc.
Import ListNotations.
Open Scope Z_scope.

(** ** magnitudes *)
Section Mag.
Open Scope R_scope.
Lemma cabs_sq : forall z, cabs z * cabs z = fst z * fst z + snd z * snd z.
Proof. intros [a b]. unfold cabs. cbn [fst snd]. apply sqrt_sqrt. nra. Qed.
Lemma cabs_pos : forall z, 0 <= cabs z. Proof. intros. apply sqrt_pos. Qed.
Lemma cabs_le : forall z B, 0 <= B -> fst z * fst z + snd z * snd z <= B * B -> cabs z <= B.
Proof. intros z B B0 H. pose proof (cabs_sq z). pose proof (cabs_pos z). nra. Qed.
Lemma cabs_fst : forall z, Rabs (fst z) <= cabs z.
Proof. intros z. pose proof (cabs_sq z). pose proof (cabs_pos z). apply Rabs_le. nra. Qed.
Lemma cabs_snd : forall z, Rabs (snd z) <= cabs z.
Proof. intros z. pose proof (cabs_sq z). pose proof (cabs_pos z). apply Rabs_le. nra. Qed.
Lemma cs_le : forall a b c d s t, 0 <= s -> 0 <= t -> a * a + b * b = s * s -> c * c + d * d = t * t -> a * c + b * d <= s * t.
Proof.
  intros a b c d s t S0 T0 S T. destruct (Rle_lt_dec (a * c + b * d) 0) as [H|H]; [pose proof (Rmult_le_pos _ _ S0 T0); lra|].
  assert (E : (a * c + b * d) * (a * c + b * d) <= (s * t) * (s * t)).
  { replace ((s * t) * (s * t)) with ((s * s) * (t * t)) by ring. rewrite <- S, <- T. pose proof (Rle_0_sqr (a * d - b * c)) as Q. unfold Rsqr in Q. nra. }
  pose proof (Rmult_le_pos _ _ S0 T0). set (u := a * c + b * d) in *. set (v := s * t) in *. nra.
Qed.
Lemma cabs_tri : forall a b c d, cabs (a + c, b + d) <= cabs (a, b) + cabs (c, d).
Proof.
  intros. pose proof (cabs_sq (a, b)) as S. pose proof (cabs_sq (c, d)) as T. cbn [fst snd] in *. pose proof (cabs_pos (a, b)). pose proof (cabs_pos (c, d)).
  apply cabs_le; [lra|]. cbn [fst snd]. pose proof (cs_le a b c d _ _ H H0 ltac:(lra) ltac:(lra)). nra.
Qed.
Lemma cabs_mul : forall z w, cabs (fst z * fst w - snd z * snd w, fst z * snd w + snd z * fst w) = cabs z * cabs w.
Proof. intros [a b] [c d]. unfold cabs. cbn [fst snd]. rewrite <- sqrt_mult by nra. f_equal. ring. Qed.
Lemma cabs_part : forall z w, Rabs (fst z * fst w) <= cabs z * cabs w /\ Rabs (snd z * snd w) <= cabs z * cabs w /\
  Rabs (fst z * snd w) <= cabs z * cabs w /\ Rabs (snd z * fst w) <= cabs z * cabs w.
Proof.
  intros z w. pose proof (cabs_fst z). pose proof (cabs_snd z). pose proof (cabs_fst w). pose proof (cabs_snd w).
  rewrite !Rabs_mult. repeat split; apply Rmult_le_compat; auto using Rabs_pos.
Qed.
End Mag.

Notation filt O w := (fun z x => p <- cartesian_mul O z w ;; cartesian_add O p x).
Definition r5 : R := (224 / 100)%R.

(** ** one step *)
Lemma filt_step : forall f, supported f = true -> forall w z x r, filt (fixed_ops Debug f) w z x = Ok r ->
  filt (fixed_ops Release f) w z x = Ok r /\
  let e := iir (cval f w) (cval f z) (cval f x) in
  (Rabs (fst (cval f r) - fst e) <= ulp f)%R /\ (- (2 * ulp f) <= snd (cval f r) - snd e <= 0)%R.
Proof.
  intros f Hf w z x r H. pose proof (supported_fwf f Hf) as W. pose proof (proj1 W) as F0. pose proof (fone_pos f F0) as Q.
  cbv beta in H |- *. destruct (cartesian_mul (fixed_ops Debug f) z w) as [pr| |] eqn:EM; cbn [bind] in H; try discriminate.
  rewrite (mul_release_of_debug _ _ _ _ EM). cbn [bind]. split; [apply add_release_of_debug; exact H|].
  rewrite mul_fixed_debug in EM. cbv zeta in EM. destruct (forallb _ _) in EM; [|discriminate]. injection EM as <-.
  rewrite add_fixed_debug in H. destruct (forallb _ _) in H; [|discriminate]. injection H as <-. unfold cval, iir. cbn [re im fst snd].
  pose proof (fone_IZR_pos f F0) as P. rewrite ulp_eq by auto.
  assert (FL : forall a b, exists t, (0 <= t < 1)%R /\ fval f (a * b / fone f) = (fval f a * fval f b - t * / IZR (fone f))%R).
  { intros a b. rewrite !fval_eq by auto. pose proof (Z.div_mod (a * b) (fone f) ltac:(lia)) as D. pose proof (Z.mod_pos_bound (a * b) (fone f) Q) as [M1 M2].
    set (d := a * b / fone f) in *. set (mo := (a * b) mod fone f) in *. exists (IZR mo / IZR (fone f))%R.
    apply (f_equal IZR) in D. rewrite plus_IZR, !mult_IZR in D. apply IZR_le in M1. apply IZR_lt in M2. split.
    - split; [apply Rmult_le_pos; [lra|apply Rlt_le, Rinv_0_lt_compat; lra]|]. apply Rmult_lt_reg_r with (IZR (fone f)); auto. unfold Rdiv. rewrite Rmult_assoc, Rinv_l by lra. lra.
    - apply Rmult_eq_reg_r with (IZR (fone f) * IZR (fone f))%R; [|nra]. field_simplify; lra. }
  destruct (FL (re z) (re w)) as (t1 & T1 & E1). destruct (FL (im z) (im w)) as (t2 & T2 & E2).
  destruct (FL (re z) (im w)) as (t3 & T3 & E3). destruct (FL (im z) (re w)) as (t4 & T4 & E4).
  unfold Z.sub. rewrite !fval_add, fval_neg, E1, E2, E3, E4. assert (U : (0 < / IZR (fone f))%R) by (apply Rinv_0_lt_compat; auto). set (u := (/ IZR (fone f))%R) in *.
  split; [apply Rabs_le|]; split; nra.
Qed.
Lemma filt_step_abs : forall f, supported f = true -> forall w z x r, filt (fixed_ops Debug f) w z x = Ok r ->
  (cabs (csub (cval f r) (iir (cval f w) (cval f z) (cval f x))) <= r5 * ulp f)%R.
Proof.
  intros f Hf w z x r H. destruct (filt_step f Hf w z x r H) as (_ & A & B). cbv zeta in A, B.
  assert (U : (0 < ulp f)%R) by apply bpow_gt_0. apply Rabs_le_inv in A. apply cabs_le; [unfold r5; lra|]. unfold csub. cbn [fst snd].
  set (d := (fst (cval f r) - _)%R) in *. set (e := (snd (cval f r) - _)%R) in *. unfold r5. nra.
Qed.

(** ** error of a run *)
Lemma iir_diff : forall w z z' x, csub (iir w z x) (iir w z' x) = (fst (csub z z') * fst w - snd (csub z z') * snd w, fst (csub z z') * snd w + snd (csub z z') * fst w)%R.
Proof. intros. unfold csub, iir. cbn [fst snd]. f_equal; ring. Qed.
Lemma err_step : forall f, supported f = true -> forall w z x r e, filt (fixed_ops Debug f) w z x = Ok r ->
  (cabs (csub (cval f r) (iir (cval f w) e (cval f x))) <= cabs (csub (cval f z) e) * cabs (cval f w) + r5 * ulp f)%R.
Proof.
  intros f Hf w z x r e H. pose proof (filt_step_abs f Hf w z x r H) as A.
  pose proof (iir_diff (cval f w) (cval f z) e (cval f x)) as D. pose proof (cabs_mul (csub (cval f z) e) (cval f w)) as M. rewrite <- D in M.
  set (a := iir (cval f w) (cval f z) (cval f x)) in *. set (b := iir (cval f w) e (cval f x)) in *. rewrite <- M.
  replace (csub (cval f r) b) with (fst (csub (cval f r) a) + fst (csub a b), snd (csub (cval f r) a) + snd (csub a b))%R by (unfold csub; cbn [fst snd]; f_equal; ring).
  eapply Rle_trans; [apply cabs_tri|]. rewrite <- !surjective_pairing. lra.
Qed.

Lemma filt_release : forall f, supported f = true -> forall w xs z r, run (filt (fixed_ops Debug f) w) z xs = Ok r -> run (filt (fixed_ops Release f) w) z xs = Ok r.
Proof.
  intros f Hf w. induction xs as [|x xs IH]; intros z r H; [exact H|]. rewrite run_cons in H |- *.
  destruct (filt (fixed_ops Debug f) w z x) as [z'| |] eqn:E; cbn [bind] in H; try discriminate.
  destruct (filt_step f Hf w z x z' E) as [-> _]. cbn [bind]. auto.
Qed.
Lemma filt_lin : forall f, supported f = true -> forall w, (cabs (cval f w) <= 1)%R -> forall xs z r e, run (filt (fixed_ops Debug f) w) z xs = Ok r ->
  (cabs (csub (cval f r) (fold_left (iir (cval f w)) (map (cval f) xs) e)) <= cabs (csub (cval f z) e) + INR (length xs) * (r5 * ulp f))%R.
Proof.
  intros f Hf w W1. induction xs as [|x xs IH]; intros z r e H.
  - cbn in H. injection H as <-. cbn. lra.
  - rewrite run_cons in H. destruct (filt (fixed_ops Debug f) w z x) as [z'| |] eqn:E; cbn [bind] in H; try discriminate.
    cbn [map fold_left length]. rewrite S_INR. pose proof (err_step f Hf w z x z' e E) as S. specialize (IH z' r (iir (cval f w) e (cval f x)) H).
    pose proof (cabs_pos (csub (cval f z) e)). pose proof (cabs_pos (cval f w)).
    assert (cabs (csub (cval f z) e) * cabs (cval f w) <= cabs (csub (cval f z) e))%R by nra. lra.
Qed.
Lemma filt_geo : forall f, supported f = true -> forall w rho, (cabs (cval f w) <= rho < 1)%R -> forall xs z r e, run (filt (fixed_ops Debug f) w) z xs = Ok r ->
  (cabs (csub (cval f z) e) * (1 - rho) <= r5 * ulp f)%R ->
  (cabs (csub (cval f r) (fold_left (iir (cval f w)) (map (cval f) xs) e)) * (1 - rho) <= r5 * ulp f)%R.
Proof.
  intros f Hf w rho W1. induction xs as [|x xs IH]; intros z r e H Z0.
  - cbn in H. injection H as <-. cbn. lra.
  - rewrite run_cons in H. destruct (filt (fixed_ops Debug f) w z x) as [z'| |] eqn:E; cbn [bind] in H; try discriminate.
    cbn [map fold_left]. pose proof (err_step f Hf w z x z' e E) as S. apply IH with z'; auto.
    pose proof (cabs_pos (csub (cval f z) e)). pose proof (cabs_pos (cval f w)). set (d := cabs (csub (cval f z) e)) in *. set (a := cabs (cval f w)) in *.
    assert (d * a <= d * rho)%R by (apply Rmult_le_compat_l; lra).
    eapply Rle_trans; [apply Rmult_le_compat_r; [lra|exact S]|]. assert (d * a * (1 - rho) <= d * rho * (1 - rho))%R by (apply Rmult_le_compat_r; lra). nra.
Qed.
Lemma csub_self : forall z, cabs (csub z z) = 0%R.
Proof. intros z. unfold cabs, csub. cbn [fst snd]. rewrite !Rminus_diag_eq by reflexivity. rewrite Rmult_0_l, Rplus_0_l. apply sqrt_0. Qed.

Lemma filter_error : forall f, supported f = true -> forall w z xs r, run (filt (fixed_ops Debug f) w) z xs = Ok r ->
  let e := fold_left (iir (cval f w)) (map (cval f) xs) (cval f z) in
  run (filt (fixed_ops Release f) w) z xs = Ok r /\
  ((cabs (cval f w) <= 1)%R -> (cabs (csub (cval f r) e) <= 224 / 100 * INR (length xs) * ulp f)%R) /\
  (forall rho, (cabs (cval f w) <= rho < 1)%R -> (cabs (csub (cval f r) e) <= 224 / 100 * ulp f / (1 - rho))%R).
Proof.
  intros f Hf w z xs r H e. split; [apply filt_release; auto|]. split.
  - intros W1. pose proof (filt_lin f Hf w W1 xs z r (cval f z) H) as L. rewrite csub_self in L. unfold r5 in L. fold e in L. lra.
  - intros rho W1. assert (U : (0 < ulp f)%R) by apply bpow_gt_0.
    pose proof (filt_geo f Hf w rho W1 xs z r (cval f z) H) as L. rewrite csub_self in L. unfold r5 in L. fold e in L. specialize (L ltac:(lra)).
    apply Rmult_le_reg_r with (1 - rho)%R; [lra|]. unfold Rdiv. rewrite (Rmult_assoc (224 * / 100 * ulp f)%R), Rinv_l by lra. lra.
Qed.

(** ** a filter with enough head room never overflows *)
Lemma fval_inj_range : forall f, supported f = true -> fsigned f = true -> forall v, (Rabs (fval f v) <= fval f (fmax f))%R -> in_rangeb (fity f) v = true.
Proof.
  intros f Hf Sg v H. pose proof (supported_fwf f Hf) as W. apply in_rangeb_true. apply Rabs_le_inv in H. destruct H as [H1 H2]. rewrite <- fval_neg in H1.
  apply fval_le in H1, H2; try apply W. unfold fmax, imax, in_range, imin, imax, fity in *. cbn in *. rewrite Sg in *. lia.
Qed.
Lemma filt_total : forall f, supported f = true -> fsigned f = true -> forall w z x,
  (cabs (cval f z) * cabs (cval f w) + cabs (cval f x) + r5 * ulp f <= fval f (fmax f))%R ->
  exists r, filt (fixed_ops Debug f) w z x = Ok r /\ (cabs (cval f r) <= cabs (cval f z) * cabs (cval f w) + cabs (cval f x) + r5 * ulp f)%R.
Proof.
  intros f Hf Sg w z x H. pose proof (supported_fwf f Hf) as W. pose proof (proj1 W) as F0. pose proof (fone_pos f F0) as Q.
  pose proof (fone_IZR_pos f F0) as P. assert (U : (0 < ulp f)%R) by apply bpow_gt_0. pose proof (cabs_pos (cval f x)) as X0.
  destruct (cabs_part (cval f z) (cval f w)) as (C1 & C2 & C3 & C4). pose proof (cabs_mul (cval f z) (cval f w)) as M.
  pose proof (cabs_fst (cval f x)) as X1. pose proof (cabs_snd (cval f x)) as X2.
  unfold cval in C1, C2, C3, C4, X1, X2. cbn [fst snd] in C1, C2, C3, C4, X1, X2.
  set (B := (cabs (cval f z) * cabs (cval f w))%R) in *. set (X := cabs (cval f x)) in *. unfold r5 in H.
  change (cabs (fval f (re z), fval f (im z)) * cabs (fval f (re w), fval f (im w)))%R with B in C1, C2, C3, C4.
  change (cabs (fval f (re x), fval f (im x)))%R with X in X1, X2.
  assert (FL : forall a b, (fval f a * fval f b - ulp f <= fval f (a * b / fone f) <= fval f a * fval f b)%R).
  { intros a b. rewrite ulp_eq, !fval_eq by auto. pose proof (Z.div_mod (a * b) (fone f) ltac:(lia)) as D. pose proof (Z.mod_pos_bound (a * b) (fone f) Q) as [M1 M2].
    set (d := a * b / fone f) in *. set (mo := (a * b) mod fone f) in *.
    apply (f_equal IZR) in D. rewrite plus_IZR, !mult_IZR in D. apply IZR_le in M1. apply IZR_lt in M2. 
    assert (IP : (0 < / IZR (fone f))%R) by (apply Rinv_0_lt_compat; auto). set (qq := IZR (fone f)) in *.
    assert (E : (IZR a / qq * (IZR b / qq) = IZR d / qq + IZR mo * / qq * / qq)%R).
    { apply Rmult_eq_reg_r with (qq * qq)%R; [|nra]. field_simplify; lra. }
    rewrite E. assert (0 <= IZR mo * / qq <= 1)%R.
    { split; [apply Rmult_le_pos; lra|]. apply Rmult_le_reg_r with qq; auto. rewrite Rmult_assoc, Rinv_l by lra. lra. }
    set (t := (IZR mo * / qq)%R) in *. split; nra. }
  pose proof (FL (re z) (re w)) as E1. pose proof (FL (im z) (im w)) as E2. pose proof (FL (re z) (im w)) as E3. pose proof (FL (im z) (re w)) as E4. clear FL.
  pose proof (cabs_fst (fst (cval f z) * fst (cval f w) - snd (cval f z) * snd (cval f w), fst (cval f z) * snd (cval f w) + snd (cval f z) * fst (cval f w))%R) as N1.
  pose proof (cabs_snd (fst (cval f z) * fst (cval f w) - snd (cval f z) * snd (cval f w), fst (cval f z) * snd (cval f w) + snd (cval f z) * fst (cval f w))%R) as N2.
  rewrite M in N1, N2. unfold cval in N1, N2. cbn [fst snd] in N1, N2.
  rewrite mul_fixed_debug. cbv zeta.
  set (ac := re z * re w / fone f) in *. set (bd := im z * im w / fone f) in *. set (ad := re z * im w / fone f) in *. set (bc := im z * re w / fone f) in *.
  assert (R1 : fval f (ac - bd) = (fval f ac - fval f bd)%R) by (unfold Z.sub; rewrite fval_add, fval_neg; ring).
  assert (R2 : fval f (ad + bc) = (fval f ad + fval f bc)%R) by apply fval_add.
  apply Rabs_le_inv in C1. apply Rabs_le_inv in C2. apply Rabs_le_inv in C3. apply Rabs_le_inv in C4. apply Rabs_le_inv in X1. apply Rabs_le_inv in X2. apply Rabs_le_inv in N1. apply Rabs_le_inv in N2.
  assert (OK : forallb (in_rangeb (fity f)) [ac; bd; ad; bc; ac - bd; ad + bc] = true).
  { cbn [forallb]. rewrite !(fval_inj_range f Hf Sg); try reflexivity; rewrite ?R1, ?R2; apply Rabs_le; lra. }
  rewrite OK. cbn [bind]. rewrite add_fixed_debug. cbn [re im forallb].
  assert (R3 : fval f (ac - bd + re x) = (fval f ac - fval f bd + fval f (re x))%R) by (rewrite fval_add, R1; reflexivity).
  assert (R4 : fval f (ad + bc + im x) = (fval f ad + fval f bc + fval f (im x))%R) by (rewrite fval_add, R2; reflexivity).
  rewrite !(fval_inj_range f Hf Sg) by (rewrite ?R3, ?R4; apply Rabs_le; lra). cbn [andb]. eexists. split; [reflexivity|].
  set (r := mkC _ _). assert (Er : filt (fixed_ops Debug f) w z x = Ok r).
  { rewrite mul_fixed_debug. cbv zeta. fold ac bd ad bc. rewrite OK. cbn [bind]. rewrite add_fixed_debug. cbn [re im forallb].
    rewrite !(fval_inj_range f Hf Sg) by (rewrite ?R3, ?R4; apply Rabs_le; lra). reflexivity. }
  pose proof (filt_step_abs f Hf w z x r Er) as A. set (e := iir (cval f w) (cval f z) (cval f x)) in *.
  replace (cval f r) with (fst (csub (cval f r) e) + fst e, snd (csub (cval f r) e) + snd e)%R by (unfold csub, cval; cbn [fst snd]; f_equal; ring).
  eapply Rle_trans; [apply cabs_tri|]. rewrite <- !surjective_pairing.
  assert (cabs e <= B + X)%R.
  { unfold e, iir. eapply Rle_trans; [apply cabs_tri|]. rewrite M. rewrite <- surjective_pairing. fold X. lra. }
  lra.
Qed.

Lemma filter_total : forall f, supported f = true -> fsigned f = true -> forall w, (cabs (cval f w) <= 1)%R -> forall xs z,
  (cabs (cval f z) + fold_right Rplus 0 (map (fun x => cabs (cval f x)) xs) + 224 / 100 * INR (length xs) * ulp f <= fval f (fmax f))%R ->
  exists r, run (filt (fixed_ops Debug f) w) z xs = Ok r.
Proof.
  intros f Hf Sg w W1. assert (U : (0 < ulp f)%R) by apply bpow_gt_0. induction xs as [|x xs IH]; intros z H; [exists z; reflexivity|].
  rewrite run_cons. cbn [map fold_right length] in H. rewrite S_INR in H.
  assert (N : (0 <= fold_right Rplus 0 (map (fun x => cabs (cval f x)) xs))%R).
  { clear. induction xs as [|x xs IH]; cbn; [lra|]. pose proof (cabs_pos (cval f x)). lra. }
  pose proof (pos_INR (length xs)) as LN. assert (LU : (0 <= INR (length xs) * ulp f)%R) by (apply Rmult_le_pos; lra).
  pose proof (cabs_pos (cval f z)). pose proof (cabs_pos (cval f w)).
  assert (cabs (cval f z) * cabs (cval f w) <= cabs (cval f z))%R by nra.
  destruct (filt_total f Hf Sg w z x) as (z' & E & B); [unfold r5; lra|]. rewrite E. cbn [bind]. apply IH. unfold r5 in B. lra.
Qed.
Lemma filter_stable : forall f, supported f = true -> fsigned f = true -> forall w rho X B, (cabs (cval f w) <= rho)%R ->
  (rho * B + X + 224 / 100 * ulp f <= B <= fval f (fmax f))%R -> forall xs z, (cabs (cval f z) <= B)%R ->
  Forall (fun x => (cabs (cval f x) <= X)%R) xs ->
  exists r, run (filt (fixed_ops Debug f) w) z xs = Ok r /\ (cabs (cval f r) <= B)%R.
Proof.
  intros f Hf Sg w rho X B W1 HB. induction xs as [|x xs IH]; intros z Hz FA; [exists z; split; auto; reflexivity|].
  inversion FA as [|? ? Hx FA']; subst. rewrite run_cons. pose proof (cabs_pos (cval f z)). pose proof (cabs_pos (cval f w)).
  assert (cabs (cval f z) * cabs (cval f w) <= rho * B)%R by (rewrite Rmult_comm; apply Rmult_le_compat; lra).
  destruct (filt_total f Hf Sg w z x) as (z' & E & BB); [unfold r5; lra|]. rewrite E. cbn [bind]. apply IH; auto. unfold r5 in BB. lra.
Qed.
