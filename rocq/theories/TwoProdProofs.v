(** * Proofs about products without rounding error and compensated dot products (C176). *)

From Coq Require Import ZArith Reals Lia Lra List Bool Psatz.
From Flocq Require Import Core.Core IEEE754.BinarySingleNaN Relative Plus_error Pff2Flocq.
From Verif Require Import Base FloatBase Traits IntImpl FixedPrim FixedImpl FloatImpl Spec SpecCompens SpecTwoProd Lemmas ScalarProofs ScalarProofs2 FloatLemmas FloatArith CompensProofs MagProofs.
Import ListNotations.
Open Scope Z_scope.

Section Flt.
Context {prec emax : Z} {Hp : Prec_gt_0 prec} {He : Prec_lt_emax prec emax}.
Hypothesis Pp : 4 <= prec.
Hypothesis Pe : prec + 8 <= emax.
Notation float := (binary_float prec emax).
Notation rnd := (round radix2 (SpecFloat.fexp prec emax) ZnearestE).
Notation u := (bpow radix2 (- prec)).
Notation format := (generic_format radix2 (SpecFloat.fexp prec emax)).
Notation hs := (prec - Z.div2 prec).
Notation emin := (3 - emax - prec).

Lemma half_bounds : 0 < hs < prec /\ 2 * hs <= prec + 1.
Proof using Pp. clear Pe He. pose proof (Zdiv2_odd_eqn prec). destruct (Z.odd prec); lia. Qed.
Lemma split_value : is_finite (float_of_Z prec emax (splitter prec)) = true /\ B2R (float_of_Z prec emax (splitter prec)) = (bpow radix2 hs + 1)%R.
Proof using All.
  destruct half_bounds as [[H0 H1] _]. unfold splitter. set (k := hs) in *.
  assert (V : IZR (2 ^ k + 1) = (bpow radix2 k + 1)%R). { rewrite plus_IZR. f_equal. change 2 with (radix_val radix2). apply IZR_Zpower. lia. }
  assert (P1 : 2 ^ k < 2 ^ prec) by (apply Z.pow_lt_mono_r; lia). assert (P2 : 0 < 2 ^ k) by (apply Z.pow_pos_nonneg; lia).
  assert (P3 : 2 ^ k + 1 <> 2 ^ prec).
  { intros E. assert (O : Z.odd (2 ^ k + 1) = true). { rewrite Z.odd_add. replace k with (Z.succ (k - 1)) by lia. rewrite Z.pow_succ_r by lia. rewrite Z.odd_mul. reflexivity. }
    rewrite E in O. replace prec with (Z.succ (prec - 1)) in O by lia. rewrite Z.pow_succ_r in O by lia. rewrite Z.odd_mul in O. discriminate O. }
  assert (F : format (IZR (2 ^ k + 1))).
  { apply generic_format_FLT. exists (Float radix2 (2 ^ k + 1) 0); [unfold F2R; cbn; ring|cbn [Fnum]; change (radix_val radix2) with 2; lia|cbn [Fexp]; unfold SpecFloat.emin; lia]. }
  assert (L : (Rabs (IZR (2 ^ k + 1)) < bpow radix2 emax)%R).
  { rewrite Rabs_pos_eq by (apply IZR_le; lia). apply Rlt_le_trans with (bpow radix2 prec); [|apply bpow_le; lia].
    rewrite <- IZR_Zpower by lia. apply IZR_lt. change (radix_val radix2) with 2. lia. }
  destruct (float_of_Z_correct (2 ^ k + 1)) as (A & B & _); [rewrite round_generic by (try typeclasses eauto; exact F); exact L|].
  rewrite round_generic in A by (try typeclasses eauto; exact F). rewrite A, V. auto.
Qed.
Lemma mul_pow : forall (a b : float) k, 3 - emax <= k < emax -> is_finite a = true -> is_finite b = true -> (Rabs (B2R a * B2R b) <= bpow radix2 k)%R ->
  is_finite (Bmult mode_NE a b) = true /\ B2R (Bmult mode_NE a b) = rnd (B2R a * B2R b) /\ (Rabs (B2R (Bmult mode_NE a b)) <= bpow radix2 k)%R.
Proof using All.
  intros a b k [K1 K2] Fa Fb H. pose proof (rnd_pow Pp Pe _ _ K1 H) as P. destruct (mult_ok a b Fa Fb (pow_lt k K2 _ P)) as [F V]. rewrite V. auto.
Qed.
Lemma mul_tri : forall a b i j, (Rabs a <= bpow radix2 i -> Rabs b <= bpow radix2 j -> Rabs (a * b) <= bpow radix2 (i + j))%R.
Proof using. intros. rewrite Rabs_mult, bpow_plus. apply Rmult_le_compat; auto using Rabs_pos. Qed.
Lemma pow_up : forall a i j, i <= j -> (Rabs a <= bpow radix2 i -> Rabs a <= bpow radix2 j)%R.
Proof using. intros a i j L H. eapply Rle_trans; [exact H|]. apply bpow_le. exact L. Qed.
Lemma add_up : forall a b k, (Rabs a <= bpow radix2 k -> Rabs b <= bpow radix2 k -> Rabs (a + b) <= bpow radix2 (k + 1))%R.
Proof using. intros a b k A B. apply (add_tri _ _ _ _ _ A B). rewrite bpow_plus. change (bpow radix2 1) with 2%R. lra. Qed.
Lemma sub_up : forall a b k, (Rabs a <= bpow radix2 k -> Rabs b <= bpow radix2 k -> Rabs (a - b) <= bpow radix2 (k + 1))%R.
Proof using. intros a b k A B. apply (sub_tri _ _ _ _ _ A B). rewrite bpow_plus. change (bpow radix2 1) with 2%R. lra. Qed.

Lemma split_ok : forall (x : float) k, 0 <= k -> k + hs + 4 < emax -> is_finite x = true -> (Rabs (B2R x) <= bpow radix2 k)%R ->
  let px := rnd (B2R x * (bpow radix2 hs + 1)) in let hx := rnd (rnd (B2R x - px) + px) in
  exists h t, split_half float_ops (splitter prec) x = Ok (h, t) /\ is_finite h = true /\ is_finite t = true /\
    B2R h = hx /\ B2R t = rnd (B2R x - hx) /\ (Rabs (B2R h) <= bpow radix2 (k + hs + 3))%R /\ (Rabs (B2R t) <= bpow radix2 (k + hs + 4))%R.
Proof using All.
  intros x k K0 K Fx Bx. destruct half_bounds as [[H0 H1] _]. cbv zeta. destruct split_value as [Fc Vc]. set (c := float_of_Z prec emax (splitter prec)) in *.
  assert (Bc : (Rabs (B2R c) <= bpow radix2 (hs + 1))%R).
  { rewrite Vc. apply add_up; [rewrite Rabs_pos_eq by apply bpow_ge_0; lra|]. rewrite Rabs_R1. change 1%R with (bpow radix2 0). apply bpow_le. lia. }
  destruct (mul_pow x c (k + (hs + 1))) as (F1 & V1 & B1); [lia|auto|auto|apply mul_tri; auto|]. set (p := Bmult mode_NE x c) in *.
  destruct (sub_pow Pp Pe x p (k + (hs + 1) + 1)) as (F2 & V2 & B2); [lia|auto|auto|apply sub_up; [apply (pow_up _ k); [lia|auto]|auto]|]. set (q := Bminus mode_NE x p) in *.
  destruct (add_pow Pp Pe q p (k + (hs + 1) + 1 + 1)) as (F3 & V3 & B3); [lia|auto|auto|apply add_up; [auto|refine (pow_up _ _ _ _ B1); lia]|]. set (h := Bplus mode_NE q p) in *.
  destruct (sub_pow Pp Pe x h (k + (hs + 1) + 1 + 1 + 1)) as (F4 & V4 & B4); [lia|auto|auto|apply sub_up; [apply (pow_up _ k); [lia|auto]|auto]|].
  exists h, (Bminus mode_NE x h). split; [reflexivity|]. split; [exact F3|]. split; [exact F4|]. rewrite V1, Vc in V2. rewrite V2, V1, Vc in V3. rewrite V3 in V4.
  split; [exact V3|]. split; [exact V4|]. split; [refine (pow_up _ _ _ _ B3); lia|refine (pow_up _ _ _ _ B4); lia].
Qed.

Theorem two_prod_float : forall (a b : float) k, 0 <= k -> 2 * k + 2 * hs + 16 <= emax -> is_finite a = true -> is_finite b = true ->
  (Rabs (B2R a) <= bpow radix2 k)%R -> (Rabs (B2R b) <= bpow radix2 k)%R ->
  exists r e, two_prod float_ops (splitter prec) a b = Ok (r, e) /\ is_finite r = true /\ is_finite e = true /\ r = Bmult mode_NE a b /\ B2R r = rnd (B2R a * B2R b) /\
  ((B2R a * B2R b = 0 \/ bpow radix2 (emin + 2 * prec - 1) <= Rabs (B2R a * B2R b)) -> B2R r + B2R e = B2R a * B2R b)%R /\
  (Rabs (B2R a * B2R b - (B2R r + B2R e)) <= 7 / 2 * bpow radix2 emin)%R.
Proof using All.
  intros a b k K0 K Fa Fb Ba Bb. destruct half_bounds as [[H0 H1] _].
  destruct (split_ok a k) as (ha & ta & Ea & Fha & Fta & Vha & Vta & Bha & Bta); auto; [lia|].
  destruct (split_ok b k) as (hb & tb & Eb & Fhb & Ftb & Vhb & Vtb & Bhb & Btb); auto; [lia|].
  set (w := k + hs + 4) in *.
  assert (Cha : (Rabs (B2R ha) <= bpow radix2 w)%R) by (apply (pow_up _ (k + hs + 3)); [lia|auto]).
  assert (Chb : (Rabs (B2R hb) <= bpow radix2 w)%R) by (apply (pow_up _ (k + hs + 3)); [lia|auto]).
  set (z := w + w).
  destruct (mul_pow a b z) as (Fr & Vr & Br); [lia|auto|auto|apply (pow_up _ (k + k)); [lia|apply mul_tri; auto]|]. set (r := Bmult mode_NE a b) in *.
  destruct (mul_pow ha hb z) as (F1 & V1 & B1); [lia|auto|auto|apply mul_tri; auto|]. set (p1 := Bmult mode_NE ha hb) in *.
  destruct (sub_pow Pp Pe p1 r (z + 1)) as (G1 & W1 & C1); [lia|auto|auto|apply sub_up; auto|]. set (t1 := Bminus mode_NE p1 r) in *.
  destruct (mul_pow ha tb z) as (F2 & V2 & B2); [lia|auto|auto|apply mul_tri; auto|]. set (p2 := Bmult mode_NE ha tb) in *.
  destruct (add_pow Pp Pe t1 p2 (z + 1 + 1)) as (G2 & W2 & C2); [lia|auto|auto|apply add_up; [auto|apply (pow_up _ z); [lia|auto]]|]. set (t2 := Bplus mode_NE t1 p2) in *.
  destruct (mul_pow ta hb z) as (F3 & V3 & B3); [lia|auto|auto|apply mul_tri; auto|]. set (p3 := Bmult mode_NE ta hb) in *.
  destruct (add_pow Pp Pe t2 p3 (z + 1 + 1 + 1)) as (G3 & W3 & C3); [lia|auto|auto|apply add_up; [auto|apply (pow_up _ z); [lia|auto]]|]. set (t3 := Bplus mode_NE t2 p3) in *.
  destruct (mul_pow ta tb z) as (F4 & V4 & B4); [lia|auto|auto|apply mul_tri; auto|]. set (p4 := Bmult mode_NE ta tb) in *.
  destruct (add_pow Pp Pe t3 p4 (z + 1 + 1 + 1 + 1)) as (G4 & W4 & C4); [lia|auto|auto|apply add_up; [auto|apply (pow_up _ z); [lia|auto]]|]. set (e := Bplus mode_NE t3 p4) in *.
  exists r, e. split.
  { unfold two_prod. rewrite Ea. cbn [bind fst snd]. rewrite Eb. reflexivity. }
  split; [exact Fr|]. split; [exact G4|]. split; [reflexivity|]. split; [exact Vr|].
  assert (Em : emin < 0) by lia.
  destruct (Dekker radix2 emin prec (fun x => negb (Z.even x)) Pp Em (B2R a) (B2R b) (generic_format_B2R _ _ a) (generic_format_B2R _ _ b) (or_introl eq_refl)) as [D1 D2].
  assert (EV : B2R e = rnd (rnd (rnd (rnd (- rnd (B2R a * B2R b) + rnd (B2R ha * B2R hb)) + rnd (B2R ha * B2R tb)) + rnd (B2R ta * B2R hb)) + rnd (B2R ta * B2R tb))).
  { rewrite W4, W3, W2, W1, V1, V2, V3, V4, Vr. do 3 f_equal. do 3 f_equal. f_equal. ring. }
  rewrite Vha, Vta, Vhb, Vtb in EV. rewrite EV, Vr. split; [intros H; symmetry; exact (D1 H)|exact D2].
Qed.

Notation val p := (B2R (fst p), B2R (snd p)).
Notation eta := (bpow radix2 emin).
Definition small (k : Z) (p : float * float) : Prop := is_finite (fst p) = true /\ is_finite (snd p) = true /\
  (Rabs (B2R (fst p)) <= bpow radix2 k)%R /\ (Rabs (B2R (snd p)) <= bpow radix2 k)%R.

Lemma products_near : forall k, 0 <= k -> 2 * k + 2 * hs + 16 <= emax -> forall xs, Forall (small k) xs ->
  exists l, products float_ops (splitter prec) xs = Ok l /\ length l = (2 * length xs)%nat /\ Forall (fun x : float => is_finite x = true) l /\ (Rabs (total (map B2R l) - sum_prod (map (fun p => val p) xs)) <= INR (length xs) * (7 / 2 * eta))%R /\ (total (map (fun x : float => Rabs (B2R x)) l) <= (1 + 2 * u) * sum_abs (map (fun p => val p) xs) + INR (length xs) * (9 / 2 * eta))%R.
Proof using All.
  intros k K0 K. induction 1 as [|[a b] xs (Fa & Fb & Ba & Bb) HF (l & E & L & Fl & N & M)].
  - exists []. unfold sum_prod, sum_abs, total. cbn. split; [reflexivity|]. split; [reflexivity|]. split; [constructor|]. rewrite Rminus_0_r, Rabs_R0. split; lra.
  - cbn [fst snd] in *. destruct (two_prod_float a b k K0 K Fa Fb Ba Bb) as (r & e & E2 & Fr & Fe & _ & Vr & _ & D).
    exists (r :: e :: l). cbn [products]. rewrite E2. cbn [bind]. rewrite E. cbn [bind fst snd length map]. split; [reflexivity|]. split; [lia|].
    split; [constructor; [exact Fr|constructor; [exact Fe|exact Fl]]|]. rewrite S_INR.
    unfold sum_prod, sum_abs, total in *. cbn [map fold_right fst snd]. set (x := B2R a) in *. set (y := B2R b) in *.
    set (P := fold_right Rplus 0%R (map (fun p : R * R => (fst p * snd p)%R) (map (fun p : float * float => val p) xs))) in *.
    set (A := fold_right Rplus 0%R (map (fun p : R * R => Rabs (fst p * snd p)%R) (map (fun p : float * float => val p) xs))) in *.
    set (S := fold_right Rplus 0%R (map B2R l)) in *. set (T := fold_right Rplus 0%R (map (fun x : float => Rabs (B2R x)) l)) in *.
    assert (RR := rnd_rel (prec:=prec) (emax:=emax) (x * y)). rewrite <- Vr in RR. change (bpow radix2 (3 - emax - prec)) with eta in *.
    set (n := INR (length xs)) in *. pose proof (bpow_gt_0 radix2 emin) as T0. set (h := eta) in *. set (v := u) in *.
    split.
    + replace (B2R r + (B2R e + S) - (x * y + P))%R with ((S - P) + - (x * y - (B2R r + B2R e)))%R by ring.
      eapply Rle_trans; [apply Rabs_triang|]. rewrite Rabs_Ropp. lra.
    + assert (R1 : (Rabs (B2R r) <= Rabs (x * y) + Rabs (B2R r - x * y))%R). { replace (B2R r) with (x * y + (B2R r - x * y))%R at 1 by ring. apply Rabs_triang. }
      assert (R2 : (Rabs (B2R e) <= Rabs (B2R r - x * y) + Rabs (x * y - (B2R r + B2R e)))%R).
      { replace (B2R e) with (- (B2R r - x * y) + - (x * y - (B2R r + B2R e)))%R at 1 by ring. eapply Rle_trans; [apply Rabs_triang|]. rewrite !Rabs_Ropp. lra. }
      lra.
Qed.

Theorem comp_dot_float : forall k, 0 <= k -> 2 * k + 2 * hs + 16 <= emax -> forall xs, Forall (small k) xs -> (INR (length xs) * u <= / 4)%R ->
  (sum_abs (map (fun p => val p) xs) <= bpow radix2 (emax - 9))%R ->
  exists r, comp_dot float_ops float_zero (splitter prec) xs = Ok r /\ is_finite r = true /\ (Rabs (B2R r - sum_prod (map (fun p => val p) xs)) <=
    u * Rabs (sum_prod (map (fun p => val p) xs)) + 23 * (INR (length xs) * u) ^ 2 * sum_abs (map (fun p => val p) xs) + 10 * INR (length xs) * eta)%R.
Proof using All.
  intros k K0 K xs HF NU HA. destruct (products_near k K0 K xs HF) as (l & E & L & Fl & N & M).
  set (P := sum_prod _) in *. set (A := sum_abs _) in *. set (n := INR (length xs)) in *.
  assert (A0 : (0 <= A)%R). { unfold A, sum_abs, total. clear. induction xs as [|y xs IH]; cbn [map fold_right]; [lra|]. pose proof (Rabs_pos (fst (val y) * snd (val y))). lra. }
  assert (LN : INR (length l) = (2 * n)%R) by (rewrite L, mult_INR; reflexivity).
  pose proof (bpow_gt_0 radix2 (- prec)) as U0. pose proof (bpow_gt_0 radix2 emin) as T0. assert (N0 : (0 <= n)%R) by apply pos_INR.
  assert (U16 : (u <= / 16)%R) by (change (/ 16)%R with (bpow radix2 (-4)); apply bpow_le; lia).
  assert (NE : (n * eta <= / 4 * bpow radix2 (3 - emax))%R).
  { replace emin with (- prec + (3 - emax)) by lia. rewrite bpow_plus, <- Rmult_assoc. apply Rmult_le_compat_r; [apply bpow_ge_0|exact NU]. }
  assert (SM : (bpow radix2 (3 - emax) <= bpow radix2 (emax - 9))%R) by (apply bpow_le; lia).
  assert (P7 : bpow radix2 (emax - 7) = (4 * bpow radix2 (emax - 9))%R) by (replace (emax - 7) with (2 + (emax - 9)) by lia; rewrite bpow_plus; reflexivity).
  pose proof (bpow_gt_0 radix2 (emax - 9)) as B0. set (v := u) in *. set (h := eta) in *. set (big := bpow radix2 (emax - 9)) in *.
  assert (UA : (v * A <= / 16 * A)%R) by (apply Rmult_le_compat_r; lra).
  set (T := total (map (fun x : float => Rabs (B2R x)) l)) in *. set (S := total (map B2R l)) in *.
  assert (MT : (T <= 9 / 8 * A + 9 / 2 * (n * h))%R) by lra.
  destruct (comp_sum_float Pp Pe l Fl) as (r & Er & Fr & B); [rewrite LN; change (bpow radix2 (- prec)) with v; lra| |].
  { change (T <= bpow radix2 (emax - 7))%R. rewrite P7. lra. }
  exists r. split; [unfold comp_dot; rewrite E; exact Er|]. split; [exact Fr|]. rewrite LN in B. change (bpow radix2 (- prec)) with v in B.
  change (total (map B2R l)) with S in B. change (total (map (fun x : float => Rabs (B2R x)) l)) with T in B.
  set (q := (n * v)%R) in *. replace ((2 * n * v) ^ 2)%R with (4 * (q * q))%R in B by (unfold q; ring).
  assert (Q0 : (0 <= q)%R) by (apply Rmult_le_pos; lra). assert (QQ : (0 <= q * q <= / 16)%R) by nra.
  assert (SP : (Rabs S <= Rabs P + n * (7 / 2 * h))%R). { replace S with (P + (S - P))%R by ring. eapply Rle_trans; [apply Rabs_triang|]. lra. }
  assert (NH : (0 <= n * h)%R) by (apply Rmult_le_pos; lra).
  assert (V1 : (v * Rabs S <= v * Rabs P + v * (n * (7 / 2 * h)))%R) by (rewrite <- Rmult_plus_distr_l; apply Rmult_le_compat_l; lra).
  assert (V2 : (v * (n * (7 / 2 * h)) <= / 16 * (n * (7 / 2 * h)))%R) by (apply Rmult_le_compat_r; lra).
  assert (V3 : (q * q * T <= q * q * (9 / 8 * A + 9 / 2 * (n * h)))%R) by (apply Rmult_le_compat_l; lra).
  assert (V4 : (q * q * (n * h) <= / 16 * (n * h))%R) by (apply Rmult_le_compat_r; lra).
  assert (V5 : (0 <= q * q * A)%R) by (apply Rmult_le_pos; lra).
  replace (B2R r - P)%R with ((B2R r - S) + (S - P))%R by ring. eapply Rle_trans; [apply Rabs_triang|]. replace (q ^ 2)%R with (q * q)%R by ring. nra.
Qed.
End Flt.

(** ** fixed-point types and integers: the split leaves nothing over, so the correction is always zero *)
Section Exact.
Variables (m : mode) (t : ity) (O : MixedOps Z).
Hypothesis W : 1 <= iwidth t.
Hypothesis HA : forall a b, o_add O a b = fin m t (a + b).
Hypothesis HS : forall a b, o_sub O a b = fin m t (a - b).
Hypothesis ML : forall a, o_mul O 0 a = Ok 0.
Hypothesis MR : forall a, o_mul O a 0 = Ok 0.
Lemma back_again : forall x p q, in_range t x -> fin m t (x - p) = Ok q -> fin m t (q + p) = Ok x.
Proof using W.
  clear HA HS. intros x p q Hx H. destruct m.
  - apply fin_debug_inv in H as [-> _]. replace (x - p + p) with x by ring. apply fin_ok. exact Hx.
  - rewrite fin_release in H by exact W. injection H as <-. rewrite fin_release by exact W. rewrite wrap_add_l by exact W. replace (x - p + p) with x by ring. rewrite wrap_id; auto.
Qed.
Lemma split_exact : forall k x y, in_range t x -> split_half O k x = Ok y -> y = (x, 0).
Proof using W HA HS.
  intros k x y Hx H. unfold split_half in H. destruct (o_of_i32 O k) as [c| |]; cbn [bind] in H; try discriminate.
  destruct (o_mul O x c) as [p| |]; cbn [bind] in H; try discriminate. rewrite HS in H. destruct (fin m t (x - p)) as [q| |] eqn:E; cbn [bind] in H; try discriminate.
  rewrite HA, (back_again x p q Hx E) in H. cbn [bind] in H. rewrite HS, Z.sub_diag, (fin_ok m t 0) in H by (apply zero_in_range; exact W). cbn [bind] in H. congruence.
Qed.
Lemma two_prod_exact : forall k a b r e, in_range t a -> in_range t b -> two_prod O k a b = Ok (r, e) -> o_mul O a b = Ok r /\ e = 0.
Proof using All.
  assert (Z0 : in_range t 0) by (apply zero_in_range; exact W).
  intros k a b r e Ha Hb H. unfold two_prod in H. destruct (split_half O k a) as [x| |] eqn:Ea; cbn [bind] in H; try discriminate. destruct (split_half O k b) as [y| |] eqn:Eb; cbn [bind] in H; try discriminate.
  apply (split_exact k a x Ha) in Ea. apply (split_exact k b y Hb) in Eb. subst x y. cbn [fst snd] in H.
  destruct (o_mul O a b) as [p| |] eqn:M; cbn [bind] in H; try discriminate. rewrite HS, Z.sub_diag, (fin_ok m t 0 Z0) in H. cbn [bind] in H.
  rewrite MR in H. cbn [bind] in H. rewrite HA, (fin_ok m t (0 + 0) Z0) in H. cbn [bind Z.add] in H. rewrite ML in H. cbn [bind] in H. rewrite HA, (fin_ok m t (0 + 0) Z0) in H. cbn [bind Z.add] in H.
  rewrite ML in H. cbn [bind] in H. rewrite HA, (fin_ok m t (0 + 0) Z0) in H. cbn [bind Z.add] in H. injection H as -> <-. auto.
Qed.
End Exact.
Theorem two_prod_fixed : forall m f, supported f = true -> forall k a b r e, fvalid f a -> fvalid f b -> two_prod (fixed_ops m f) k a b = Ok (r, e) -> o_mul (fixed_ops m f) a b = Ok r /\ e = 0.
Proof.
  intros m f Hf k a b r e. assert (W : 1 <= iwidth (fity f)) by (apply fwf_width, supported_fwf; exact Hf). assert (Z0 : in_range (fity f) 0) by (apply zero_in_range; exact W).
  apply (two_prod_exact m (fity f)); auto; try reflexivity.
  - intros x. cbn [o_mul fixed_ops]. unfold fx_mul. rewrite Z.mul_0_l, Z.div_0_l by (unfold fone; pose proof (Z.pow_nonneg 2 (ffrac f)); apply Z.pow_nonzero; [lia|apply supported_fwf in Hf; destruct Hf; lia]). apply fin_ok. exact Z0.
  - intros x. cbn [o_mul fixed_ops]. unfold fx_mul. rewrite Z.mul_0_r, Z.div_0_l by (unfold fone; apply Z.pow_nonzero; [lia|apply supported_fwf in Hf; destruct Hf; lia]). apply fin_ok. exact Z0.
Qed.
Theorem two_prod_int : forall m t, In t int_types -> forall k a b r e, in_range t a -> in_range t b -> two_prod (int_ops m t) k a b = Ok (r, e) -> o_mul (int_ops m t) a b = Ok r /\ e = 0.
Proof.
  intros m t Ht k a b r e. destruct (FormulaProofs.int_width t Ht) as [W Z0]. apply (two_prod_exact m t); auto; try reflexivity.
  - intros x. cbn [o_mul int_ops]. rewrite Z.mul_0_l. apply fin_ok. exact Z0.
  - intros x. cbn [o_mul int_ops]. rewrite Z.mul_0_r. apply fin_ok. exact Z0.
Qed.
