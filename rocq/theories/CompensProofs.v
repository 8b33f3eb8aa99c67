(** * Proofs about compensated addition and summation (C175). *)

From Coq Require Import ZArith Reals Lia Lra List Bool Psatz.
From Flocq Require Import Core.Core IEEE754.BinarySingleNaN Relative Plus_error Pff2Flocq.
From Verif Require Import Base FloatBase Traits IntImpl FixedPrim FixedImpl FloatImpl Spec SpecCompens Lemmas ScalarProofs ScalarProofs2 FloatLemmas FloatArith FormulaProofs.
Import ListNotations.
Open Scope Z_scope.

(** ** floats *)
Section Flt.
Context {prec emax : Z} {Hp : Prec_gt_0 prec} {He : Prec_lt_emax prec emax}.
Hypothesis Pp : 4 <= prec.
Hypothesis Pe : prec + 8 <= emax.
Notation float := (binary_float prec emax).
Notation rnd := (round radix2 (SpecFloat.fexp prec emax) ZnearestE).
Notation u := (bpow radix2 (- prec)).
Notation format := (generic_format radix2 (SpecFloat.fexp prec emax)).

Lemma rnd_pow : forall v k, 3 - emax <= k -> (Rabs v <= bpow radix2 k)%R -> (Rabs (rnd v) <= bpow radix2 k)%R.
Proof using All.
  intros v k K H. apply abs_round_le_generic; try typeclasses eauto; [|exact H].
  apply generic_format_bpow. unfold SpecFloat.fexp, SpecFloat.emin. red in Hp, He. lia.
Qed.
Lemma pow_lt : forall k, k < emax -> forall v, (Rabs v <= bpow radix2 k)%R -> (Rabs v < bpow radix2 emax)%R.
Proof using. intros k K v H. eapply Rle_lt_trans; [exact H|]. apply bpow_lt. exact K. Qed.
Lemma add_pow : forall (a b : float) k, 3 - emax <= k < emax -> is_finite a = true -> is_finite b = true -> (Rabs (B2R a + B2R b) <= bpow radix2 k)%R ->
  is_finite (Bplus mode_NE a b) = true /\ B2R (Bplus mode_NE a b) = rnd (B2R a + B2R b) /\ (Rabs (B2R (Bplus mode_NE a b)) <= bpow radix2 k)%R.
Proof using All.
  intros a b k [K1 K2] Fa Fb H. pose proof (rnd_pow _ _ K1 H) as P. destruct (plus_ok a b Fa Fb (pow_lt k K2 _ P)) as [F V]. rewrite V. auto.
Qed.
Lemma sub_pow : forall (a b : float) k, 3 - emax <= k < emax -> is_finite a = true -> is_finite b = true -> (Rabs (B2R a - B2R b) <= bpow radix2 k)%R ->
  is_finite (Bminus mode_NE a b) = true /\ B2R (Bminus mode_NE a b) = rnd (B2R a - B2R b) /\ (Rabs (B2R (Bminus mode_NE a b)) <= bpow radix2 k)%R.
Proof using All.
  intros a b k [K1 K2] Fa Fb H. pose proof (rnd_pow _ _ K1 H) as P. destruct (minus_ok a b Fa Fb (pow_lt k K2 _ P)) as [F V]. rewrite V. auto.
Qed.
Lemma add_tri : forall a b x y z : R, (Rabs a <= x -> Rabs b <= y -> x + y <= z -> Rabs (a + b) <= z)%R.
Proof using. intros. eapply Rle_trans; [apply Rabs_triang|]. lra. Qed.
Lemma sub_tri : forall a b x y z : R, (Rabs a <= x -> Rabs b <= y -> x + y <= z -> Rabs (a - b) <= z)%R.
Proof using. intros. unfold Rminus. eapply Rle_trans; [apply Rabs_triang|]. rewrite Rabs_Ropp. lra. Qed.

Theorem two_sum_float : forall a b : float, is_finite a = true -> is_finite b = true ->
  (Rabs (B2R a) <= bpow radix2 (emax - 6))%R -> (Rabs (B2R b) <= bpow radix2 (emax - 6))%R ->
  exists s e, two_sum float_ops a b = Ok (s, e) /\ is_finite s = true /\ is_finite e = true /\ s = Bplus mode_NE a b /\ (B2R s + B2R e = B2R a + B2R b)%R.
Proof using All.
  intros a b Fa Fb Ba Bb. set (k := emax - 6) in *.
  assert (E : forall j, bpow radix2 (k + (j + 1)) = (2 * bpow radix2 (k + j))%R) by (intros j; replace (k + (j + 1)) with (1 + (k + j)) by lia; rewrite bpow_plus; reflexivity).
  pose proof (E 0) as E0. pose proof (E 1) as E1. pose proof (E 2) as E2. pose proof (E 3) as E3. pose proof (E 4) as E4. cbn [Z.add Pos.add Pos.succ] in E0, E1, E2, E3, E4.
  rewrite Z.add_0_r in E0. pose proof (bpow_gt_0 radix2 k) as K0.
  destruct (add_pow a b (k + 1)) as (F1 & V1 & B1); [lia|auto|auto|apply (add_tri _ _ _ _ _ Ba Bb); lra|]. set (s := Bplus mode_NE a b) in *.
  destruct (sub_pow s a (k + 2)) as (F2 & V2 & B2); [lia|auto|auto|apply (sub_tri _ _ _ _ _ B1 Ba); lra|]. set (v := Bminus mode_NE s a) in *.
  destruct (sub_pow s v (k + 3)) as (F3 & V3 & B3); [lia|auto|auto|apply (sub_tri _ _ _ _ _ B1 B2); lra|]. set (w := Bminus mode_NE s v) in *.
  destruct (sub_pow a w (k + 4)) as (F4 & V4 & B4); [lia|auto|auto|apply (sub_tri _ _ _ _ _ Ba B3); lra|]. set (p := Bminus mode_NE a w) in *.
  destruct (sub_pow b v (k + 3)) as (F5 & V5 & B5); [lia|auto|auto|apply (sub_tri _ _ _ _ _ Bb B2); lra|]. set (q := Bminus mode_NE b v) in *.
  destruct (add_pow p q (k + 5)) as (F6 & V6 & B6); [lia|auto|auto|apply (add_tri _ _ _ _ _ B4 B5); lra|].
  exists s, (Bplus mode_NE p q). split; [reflexivity|]. split; [exact F1|]. split; [exact F6|]. split; [reflexivity|].
  rewrite V6, V4, V5, V3, V2, V1.
  assert (Em : SpecFloat.emin prec emax <= 0) by (unfold SpecFloat.emin; lia). assert (P1 : 1 < prec) by lia.
  apply (TwoSum_correct (SpecFloat.emin prec emax) prec (fun x => negb (Z.even x)) P1 Em).
  - intros x. rewrite Z.even_opp, Z.even_add. destruct (Z.even x); reflexivity.
  - apply generic_format_B2R.
  - apply generic_format_B2R.
Qed.

(** rounding error of one addition, relative to its result even among subnormal numbers *)
Lemma add_rel : forall x y, format x -> format y -> (Rabs (rnd (x + y) - (x + y)) <= u * Rabs (x + y))%R.
Proof using All.
  intros x y Fx Fy. destruct (FLT_plus_error_N_ex radix2 (SpecFloat.emin prec emax) prec (fun z => negb (Z.even z)) x y Fx Fy) as (eps & B & V).
  change (rnd (x + y) = ((x + y) * (1 + eps))%R) in V. rewrite V. replace ((x + y) * (1 + eps) - (x + y))%R with (eps * (x + y))%R by ring. rewrite Rabs_mult.
  apply Rmult_le_compat_r; [apply Rabs_pos|]. eapply Rle_trans; [exact B|].
  assert (U : u_ro radix2 prec = u). { unfold u_ro. rewrite bpow_plus. change (bpow radix2 1) with 2%R. lra. }
  rewrite U. pose proof (bpow_gt_0 radix2 (- prec)). apply (Rmult_le_reg_r (1 + u)); [lra|]. unfold Rdiv. rewrite Rmult_assoc, Rinv_l by lra. nra.
Qed.

Lemma total_app : forall xs y, total (xs ++ [y]) = (total xs + y)%R.
Proof using. unfold total. induction xs as [|x xs IH]; intros y; cbn [app fold_right]; [ring|]. rewrite IH. ring. Qed.

(** [i] rounds done, [E] the exact sum of the rounding errors so far, [S] the exact sum of the inputs so far. *)
Lemma comp_loop_near : forall n A, (0 <= A <= bpow radix2 (emax - 7))%R -> (INR n * u <= / 2)%R ->
  forall xs, Forall (fun x : float => is_finite x = true) xs -> forall (s c : float) S E i, (i + length xs = n)%nat -> is_finite s = true -> is_finite c = true ->
  (Rabs S + total (map (fun x : float => Rabs (B2R x)) xs) <= A)%R -> (B2R s + E = S)%R -> (Rabs E <= 2 * (INR i * u) * A)%R -> (Rabs (B2R c - E) <= 4 * (INR i * u) * (INR n * u) * A)%R ->
  exists s' c' E', comp_loop float_ops s c xs = Ok (s', c') /\ is_finite s' = true /\ is_finite c' = true /\ (B2R s' + E' = S + total (map B2R xs))%R /\
    (Rabs E' <= 2 * (INR n * u) * A)%R /\ (Rabs (B2R c' - E') <= 4 * (INR n * u) * (INR n * u) * A)%R.
Proof using All.
  intros n A A0 NU. pose proof (bpow_gt_0 radix2 (- prec)) as U0. set (uu := u) in *.
  assert (P6 : bpow radix2 (emax - 6) = (2 * bpow radix2 (emax - 7))%R) by (replace (emax - 6) with (1 + (emax - 7)) by lia; rewrite bpow_plus; reflexivity).
  assert (P5 : bpow radix2 (emax - 5) = (4 * bpow radix2 (emax - 7))%R) by (replace (emax - 5) with (2 + (emax - 7)) by lia; rewrite bpow_plus; reflexivity).
  induction 1 as [|x xs Fx HF IH]; intros s c S E i L Fs Fc HA HE BE BC.
  - cbn [length] in L. rewrite Nat.add_0_r in L. subst i. exists s, c, E. cbn [map total fold_right]. unfold total. cbn [fold_right]. rewrite Rplus_0_r. auto 7.
  - cbn [map length] in *. unfold total in HA. cbn [fold_right] in HA. fold (total (map (fun x : float => Rabs (B2R x)) xs)) in HA.
    assert (T0 : (0 <= total (map (fun x : float => Rabs (B2R x)) xs))%R). { clear. unfold total. induction xs as [|y xs IH]; cbn [map fold_right]; [lra|]. pose proof (Rabs_pos (B2R y)). lra. }
    assert (I1 : (INR i + 1 <= INR n)%R). { rewrite <- S_INR. apply le_INR. lia. } pose proof (pos_INR i) as I0.
    assert (IU : (INR i * uu + uu <= / 2)%R). { replace (INR i * uu + uu)%R with ((INR i + 1) * uu)%R by ring. eapply Rle_trans; [|exact NU]. apply Rmult_le_compat_r; lra. }
    assert (IU0 : (0 <= INR i * uu)%R) by (apply Rmult_le_pos; lra). pose proof (Rabs_pos S) as S0. pose proof (Rabs_pos (B2R x)) as X0.
    assert (BE1 : (Rabs E <= A)%R). { eapply Rle_trans; [exact BE|]. rewrite <- (Rmult_1_l A) at 2. apply Rmult_le_compat_r; lra. }
    assert (Bs : (Rabs (B2R s) <= 2 * A)%R). { replace (B2R s) with (S - E)%R by lra. apply (sub_tri _ _ _ _ _ (Rle_refl _) BE1). lra. }
    destruct (two_sum_float s x Fs Fx) as (t & e & Et & Ft & Fe & Vt & Ve); [lra|lra|].
    assert (Be : (Rabs (B2R e) <= uu * Rabs (B2R s + B2R x))%R).
    { assert (Vr : B2R t = rnd (B2R s + B2R x)).
      { rewrite Vt. apply (add_pow s x (emax - 5)); auto; [lia|]. apply (add_tri _ _ (2 * A) A); [exact Bs|lra|lra]. }
      replace (B2R e) with (- (rnd (B2R s + B2R x) - (B2R s + B2R x)))%R by lra. rewrite Rabs_Ropp. apply add_rel; apply generic_format_B2R. }
    assert (Sx : (Rabs (S + B2R x) <= Rabs S + Rabs (B2R x))%R) by apply Rabs_triang.
    assert (Bsx : (Rabs (B2R s + B2R x) <= A + 2 * (INR i * uu) * A)%R). { replace (B2R s + B2R x)%R with (S + B2R x - E)%R by lra. apply (sub_tri _ _ _ _ _ (Rle_refl _) BE). lra. }
    assert (Bsx2 : (Rabs (B2R s + B2R x) <= 2 * A)%R). { eapply Rle_trans; [exact Bsx|]. assert (2 * (INR i * uu) * A <= 1 * A)%R by (apply Rmult_le_compat_r; lra). lra. }
    assert (Be2 : (Rabs (B2R e) <= 2 * uu * A)%R). { eapply Rle_trans; [exact Be|]. replace (2 * uu * A)%R with (uu * (2 * A))%R by ring. apply Rmult_le_compat_l; lra. }
    set (E1 := (E + B2R e)%R).
    assert (BE' : (Rabs E1 <= 2 * (INR (Datatypes.S i) * uu) * A)%R). { rewrite S_INR. apply (add_tri _ _ _ _ _ BE Be2). lra. }
    assert (NU0 : (0 <= INR n * uu)%R) by (apply Rmult_le_pos; [apply pos_INR|lra]).
    assert (BE'' : (Rabs E1 <= 2 * (INR n * uu) * A)%R). { eapply Rle_trans; [exact BE'|]. apply Rmult_le_compat_r; [lra|]. apply Rmult_le_compat_l; [lra|]. apply Rmult_le_compat_r; [lra|]. rewrite S_INR. exact I1. }
    assert (QA : (4 * (INR i * uu) * (INR n * uu) * A <= 2 * (INR n * uu) * A)%R). { apply Rmult_le_compat_r; [lra|]. apply Rmult_le_compat_r; lra. }
    assert (Bce : (Rabs (B2R c + B2R e) <= 4 * (INR n * uu) * A)%R). { replace (B2R c + B2R e)%R with (E1 + (B2R c - E))%R by (unfold E1; ring). apply (add_tri _ _ _ _ _ BE'' BC). lra. }
    assert (NA : (4 * (INR n * uu) * A <= 2 * A)%R) by (apply Rmult_le_compat_r; lra).
    destruct (add_pow c e (emax - 6)) as (F2 & V2 & _); [lia|auto|auto|lra|].
    destruct (IH t (Bplus mode_NE c e) (S + B2R x)%R E1 (Datatypes.S i)) as (s' & c' & E' & R1 & R2 & R3 & R4 & R5 & R6); auto.
    + lia.
    + lra.
    + unfold E1. lra.
    + rewrite V2. replace (rnd (B2R c + B2R e) - E1)%R with ((rnd (B2R c + B2R e) - (B2R c + B2R e)) + (B2R c - E))%R by (unfold E1; ring).
      apply (add_tri _ _ (uu * (4 * (INR n * uu) * A)) _ _ ) with (2 := BC); [|rewrite S_INR; lra].
      eapply Rle_trans; [apply add_rel; apply generic_format_B2R|]. apply Rmult_le_compat_l; lra.
    + exists s', c', E'. split; [cbn [comp_loop]; rewrite Et; cbn [bind fst snd]; exact R1|]. split; [exact R2|]. split; [exact R3|]. split; [|auto]. rewrite R4. unfold total. cbn [fold_right]. ring.
Qed.

Lemma zero_ok : is_finite (float_of_Z prec emax 0) = true /\ B2R (float_of_Z prec emax 0) = 0%R.
Proof using. split; reflexivity. Qed.
Theorem comp_sum_float : forall xs : list float, Forall (fun x => is_finite x = true) xs -> (INR (length xs) * u <= / 2)%R ->
  (total (map (fun x => Rabs (B2R x)) xs) <= bpow radix2 (emax - 7))%R ->
  exists r, comp_sum float_ops float_zero xs = Ok r /\ is_finite r = true /\
  (Rabs (B2R r - total (map B2R xs)) <= u * Rabs (total (map B2R xs)) + 5 * (INR (length xs) * u) ^ 2 * total (map (fun x => Rabs (B2R x)) xs))%R.
Proof using All.
  intros xs HF NU HA. set (A := total _) in *. set (n := length xs) in *. destruct zero_ok as [Z1 Z2].
  assert (A0 : (0 <= A)%R). { unfold A. clear. unfold total. induction xs as [|y xs IH]; cbn [map fold_right]; [lra|]. pose proof (Rabs_pos (B2R y)). lra. }
  destruct (comp_loop_near n A (conj A0 HA) NU xs HF (float_of_Z prec emax 0) (float_of_Z prec emax 0) 0 0 0) as (s & c & E & R1 & Fs & Fc & R4 & R5 & R6); auto.
  - rewrite Rabs_R0. unfold A. lra.
  - rewrite Z2. ring.
  - rewrite Rabs_R0. cbn [INR]. lra.
  - rewrite Z2, Rminus_0_r, Rabs_R0. cbn [INR]. lra.
  - rewrite Rplus_0_l in R4. set (S := total (map B2R xs)) in *. pose proof (bpow_gt_0 radix2 (- prec)) as U0. set (uu := u) in *.
    assert (SA : (Rabs S <= A)%R). { unfold S, A. clear. unfold total. induction xs as [|y xs IH]; cbn [map fold_right]; [rewrite Rabs_R0; lra|]. eapply Rle_trans; [apply Rabs_triang|]. lra. }
    assert (N0 : (0 <= INR n * uu)%R) by (apply Rmult_le_pos; [apply pos_INR|lra]).
    set (q := (INR n * uu)%R) in *. assert (Q : (4 * q * q * A <= A)%R). { rewrite <- (Rmult_1_l A) at 2. apply Rmult_le_compat_r; [lra|]. nra. }
    assert (P5 : bpow radix2 (emax - 5) = (4 * bpow radix2 (emax - 7))%R) by (replace (emax - 5) with (2 + (emax - 7)) by lia; rewrite bpow_plus; reflexivity).
    assert (SC : (B2R s + B2R c = S + (B2R c - E))%R) by lra.
    assert (B1 : (Rabs (B2R s + B2R c) <= Rabs S + 4 * q * q * A)%R). { rewrite SC. apply (add_tri _ _ _ _ _ (Rle_refl _) R6). lra. }
    destruct (add_pow s c (emax - 5)) as (F & V & _); [lia|auto|auto|lra|].
    exists (Bplus mode_NE s c). split; [unfold comp_sum; cbn [mixed_zero float_zero bind]; rewrite R1; reflexivity|]. split; [exact F|]. rewrite V.
    replace (rnd (B2R s + B2R c) - S)%R with ((rnd (B2R s + B2R c) - (B2R s + B2R c)) + (B2R c - E))%R by lra.
    assert (U16 : (uu <= / 16)%R) by (unfold uu; change (/ 16)%R with (bpow radix2 (-4)); apply bpow_le; lia).
    eapply (add_tri _ _ _ _ _ (add_rel _ _ (generic_format_B2R _ _ s) (generic_format_B2R _ _ c)) R6).
    assert (uu * Rabs (B2R s + B2R c) <= uu * (Rabs S + 4 * q * q * A))%R by (apply Rmult_le_compat_l; lra).
    assert (Q0 : (0 <= 4 * q * q * A)%R) by (apply Rmult_le_pos; [nra|exact A0]).
    assert (uu * (4 * q * q * A) <= / 16 * (4 * q * q * A))%R by (apply Rmult_le_compat_r; lra). fold uu. replace (q ^ 2)%R with (q * q)%R by ring. lra.
Qed.
End Flt.

(** ** fixed-point types and integers: the correction is always zero, so the compensated sum is the plain one *)
Section Exact.
Variables (m : mode) (t : ity) (O : MixedOps Z).
Hypothesis W : 1 <= iwidth t.
Hypothesis Z0 : in_range t 0.
Hypothesis HA : forall a b, o_add O a b = fin m t (a + b).
Hypothesis HS : forall a b, o_sub O a b = fin m t (a - b).
Lemma sub_back : forall a b s, in_range t b -> fin m t (a + b) = Ok s -> fin m t (s - a) = Ok b.
Proof using W.
  clear HA HS. intros a b s Hb H. destruct m.
  - apply fin_debug_inv in H as [-> _]. replace (a + b - a) with b by ring. apply fin_ok. exact Hb.
  - rewrite fin_release in H by exact W. injection H as <-. rewrite fin_release by exact W. rewrite wrap_sub_l by exact W. replace (a + b - a) with b by ring. rewrite wrap_id; auto.
Qed.
Lemma two_sum_exact : forall a b, in_range t a -> in_range t b -> two_sum O a b = (s <- o_add O a b ;; Ok (s, 0)).
Proof using W Z0 HA HS.
  intros a b Ha Hb. unfold two_sum. rewrite !HA. destruct (fin m t (a + b)) as [s| |] eqn:E; cbn [bind]; try reflexivity.
  rewrite HS, (sub_back a b s Hb E). cbn [bind]. rewrite HS. rewrite (Z.add_comm a b) in E. rewrite (sub_back b a s Ha E). cbn [bind].
  rewrite !HS, !Z.sub_diag, !(fin_ok m t 0 Z0). cbn [bind]. rewrite HA, (fin_ok m t (0 + 0)) by exact Z0. reflexivity.
Qed.
Lemma comp_loop_exact : forall xs, Forall (in_range t) xs -> forall s, in_range t s -> comp_loop O s 0 xs = (r <- plain_loop O s xs ;; Ok (r, 0)).
Proof using W Z0 HA HS.
  induction 1 as [|x xs Hx HF IH]; intros s Hs; [reflexivity|]. cbn [comp_loop plain_loop]. rewrite two_sum_exact by assumption. rewrite HA.
  destruct (fin m t (s + x)) as [r| |] eqn:E; cbn [bind fst snd]; try reflexivity. rewrite HA, (fin_ok m t (0 + 0)) by exact Z0. cbn [bind]. apply IH. eapply fin_range; eauto.
Qed.
Lemma plain_range : forall xs s r, in_range t s -> plain_loop O s xs = Ok r -> in_range t r.
Proof using W HA.
  induction xs as [|x xs IH]; intros s r Hs H; [injection H as <-; exact Hs|]. cbn [plain_loop] in H. rewrite HA in H. destruct (fin m t (s + x)) as [y| |] eqn:E; try discriminate. cbn [bind] in H.
  apply (IH y); [|exact H]. eapply fin_range; eauto.
Qed.
Lemma comp_sum_exact : forall Zr xs, mixed_zero Zr = Ok 0 -> Forall (in_range t) xs -> comp_sum O Zr xs = plain_sum O Zr xs.
Proof using W Z0 HA HS.
  intros Zr xs EZ HF. unfold comp_sum, plain_sum. rewrite EZ. cbn [bind]. rewrite (comp_loop_exact xs HF 0 Z0). destruct (plain_loop O 0 xs) as [r| |] eqn:E; cbn [bind fst snd]; try reflexivity.
  rewrite HA, Z.add_0_r. apply fin_ok. eapply plain_range; eauto.
Qed.
End Exact.
Lemma plain_debug : forall t O, (forall a b, o_add O a b = fin Debug t (a + b)) -> forall xs s r, plain_loop O s xs = Ok r -> r = s + fold_right Z.add 0 xs.
Proof.
  intros t O HA. induction xs as [|x xs IH]; intros s r H; cbn [plain_loop fold_right] in *; [injection H as <-; ring|]. rewrite HA in H.
  destruct (fin Debug t (s + x)) as [y| |] eqn:E; try discriminate. apply fin_debug_inv in E as [-> _]. cbn [bind] in H. rewrite (IH _ _ H). ring.
Qed.
Theorem comp_fixed : forall m f, supported f = true ->
  (forall a b, fvalid f a -> fvalid f b -> two_sum (fixed_ops m f) a b = (s <- o_add (fixed_ops m f) a b ;; Ok (s, 0))) /\
  (forall xs, Forall (fvalid f) xs -> comp_sum (fixed_ops m f) (fixed_zero m f) xs = plain_sum (fixed_ops m f) (fixed_zero m f) xs) /\
  (forall xs r, m = Debug -> plain_sum (fixed_ops m f) (fixed_zero m f) xs = Ok r -> r = fold_right Z.add 0 xs).
Proof.
  intros m f Hf. assert (W : 1 <= iwidth (fity f)) by (apply fwf_width, supported_fwf; exact Hf). assert (Z0 : in_range (fity f) 0) by (apply zero_in_range; exact W).
  assert (EZ : mixed_zero (fixed_zero m f) = Ok 0) by (cbn [mixed_zero fixed_zero]; unfold fx_of_int, fx_fin; apply fin_ok; exact Z0).
  split; [|split].
  - intros a b. apply (two_sum_exact m (fity f)); auto; reflexivity.
  - intros xs HF. apply (comp_sum_exact m (fity f)); auto; reflexivity.
  - intros xs r -> H. unfold plain_sum in H. rewrite EZ in H. cbn [bind] in H. apply (plain_debug (fity f)) in H; [|reflexivity]. exact H.
Qed.
Theorem comp_int : forall m t, In t int_types ->
  (forall a b, in_range t a -> in_range t b -> two_sum (int_ops m t) a b = (s <- o_add (int_ops m t) a b ;; Ok (s, 0))) /\
  (forall xs, Forall (in_range t) xs -> comp_sum (int_ops m t) (int_zero t) xs = plain_sum (int_ops m t) (int_zero t) xs) /\
  (forall xs r, m = Debug -> plain_sum (int_ops m t) (int_zero t) xs = Ok r -> r = fold_right Z.add 0 xs).
Proof.
  intros m t Ht. destruct (FormulaProofs.int_width t Ht) as [W Z0].
  assert (EZ : mixed_zero (int_zero t) = Ok 0) by (cbn [mixed_zero int_zero]; rewrite wrap_id; auto).
  split; [|split].
  - intros a b. apply (two_sum_exact m t); auto; reflexivity.
  - intros xs HF. apply (comp_sum_exact m t); auto; reflexivity.
  - intros xs r -> H. unfold plain_sum in H. rewrite EZ in H. cbn [bind] in H. apply (plain_debug t) in H; [|reflexivity]. exact H.
Qed.
