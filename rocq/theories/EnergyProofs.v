(** * Proofs: correlation, energy, Cauchy-Schwarz and Parseval. *)

From Coq Require Import ZArith Reals Lia Lra Psatz Bool List Arith.
From Flocq Require Import Core.Core IEEE754.BinarySingleNaN.
From Verif Require Import Base FloatBase Literals Traits Trig IntImpl FixedPrim FixedImpl FloatImpl Complex Spec SpecFilter SpecRotor SpecFourier SpecPhase SpecFft SpecEnergy
  Lemmas WrapProofs WrapProofs2 FloatLemmas FloatKit ScalarProofs ScalarProofs2 ComplexProofs ComplexProofs3 ProdProofs FilterProofs FloatArith PowFloat FloatSum FloatFilter PolarProofs PhaseAcc RotorProofs FourierProofs FftProofs AngleProofs MagOrder SqrtInv.
Import ListNotations.

Section Real.
Open Scope R_scope.
Ltac cring := apply ceq; unfold cadd, csub, cmul, cconj; cbn [fst snd]; ring.
Lemma cabs2 : forall z, cabs z * cabs z = fst z * fst z + snd z * snd z.
Proof. intros z. unfold cabs. apply sqrt_sqrt. nra. Qed.
Lemma power_pos : forall l, 0 <= power l.
Proof. induction l as [|z l IH]; cbn [power fold_right]; [lra|]. fold (power l). nra. Qed.
Lemma power_in : forall l z, In z l -> cabs z * cabs z <= power l.
Proof.
  induction l as [|y l IH]; intros z []; cbn [power fold_right]; fold (power l); pose proof (power_pos l); rewrite cabs2.
  - subst. nra.
  - pose proof (IH z H) as Q. rewrite cabs2 in Q. nra.
Qed.
Notation norm l := (sqrt (power l)).
Lemma norm_cons : forall z l, norm (z :: l) = cabs (norm l, cabs z).
Proof. intros z l. unfold cabs at 1. cbn [fst snd]. rewrite sqrt_sqrt, cabs2 by apply power_pos. f_equal. cbn [power fold_right]. fold (power l). ring. Qed.
(** A B + a b <= |(A, a)| |(B, b)| *)
Lemma two_cauchy : forall A a B b, A * B + a * b <= cabs (A, a) * cabs (B, b).
Proof.
  intros. pose proof (cabs_fst (cmul (A, a) (cconj (B, b)))) as H. rewrite cabs_cmul, cconj_abs in H. unfold cmul, cconj in H. cbn [fst snd] in H.
  pose proof (Rle_abs (A * B - a * - b)). lra.
Qed.
Fixpoint tot (xs ys : list (R * R)) : R := match xs, ys with x :: xs, y :: ys => cabs x * cabs y + tot xs ys | _, _ => 0 end.
Lemma tot_pos : forall xs ys, 0 <= tot xs ys.
Proof. induction xs as [|x xs IH]; intros [|y ys]; cbn [tot]; try lra. pose proof (IH ys). pose proof (cabs_pos x). pose proof (cabs_pos y). nra. Qed.
Lemma tot_norm : forall xs ys, tot xs ys <= norm xs * norm ys.
Proof.
  induction xs as [|x xs IH]; intros [|y ys]; cbn [tot]; try (apply Rmult_le_pos; apply sqrt_pos).
  rewrite !norm_cons. eapply Rle_trans; [|apply two_cauchy]. pose proof (IH ys). lra.
Qed.
Lemma inner_tot : forall xs ys, cabs (inner xs ys) <= tot xs ys.
Proof.
  induction xs as [|x xs IH]; intros [|y ys]; cbn [inner tot]; try (rewrite cabs0; lra).
  eapply Rle_trans; [apply cabs_cadd|]. rewrite cabs_cmul, cconj_abs. pose proof (IH ys). lra.
Qed.
Lemma inner_self : forall xs, inner xs xs = (power xs, 0).
Proof. induction xs as [|x xs IH]; [reflexivity|]. cbn [inner power fold_right]. rewrite IH. apply ceq; unfold cadd, cmul, cconj; cbn [fst snd]; fold (power xs); ring. Qed.
Lemma tot_self : forall xs, tot xs xs = power xs.
Proof. induction xs as [|x xs IH]; [reflexivity|]. cbn [tot power fold_right]. rewrite IH, cabs2. reflexivity. Qed.
(** reverse triangle inequality *)
Lemma norm_diff : forall n xs ys e, 0 <= e -> length xs = n -> length ys = n -> (forall i, (i < n)%nat -> cabs (csub (nth i xs (0, 0)) (nth i ys (0, 0))) <= e) ->
  Rabs (norm xs - norm ys) <= sqrt (INR n) * e.
Proof.
  induction n; intros xs ys e E0 L1 L2 H.
  - destruct xs; [|discriminate]. destruct ys; [|discriminate]. rewrite Rminus_diag_eq, Rabs_R0 by reflexivity. cbn [INR]. rewrite sqrt_0. lra.
  - destruct xs as [|x xs]; [discriminate|]. destruct ys as [|y ys]; [discriminate|]. cbn [length] in *. rewrite !norm_cons.
    eapply Rle_trans; [apply cabs_diff|]. unfold csub. cbn [fst snd].
    pose proof (IHn xs ys e E0 ltac:(lia) ltac:(lia) (fun i Hi => H (Datatypes.S i) ltac:(lia))) as IH. pose proof (H O ltac:(lia)) as H0. cbn [nth] in H0.
    pose proof (cabs_diff x y) as D. pose proof (sqrt_pos (INR n)) as P. pose proof (sqrt_pos (INR (Datatypes.S n))) as P'. pose proof (sqrt_sqrt _ (pos_INR n)) as SS. pose proof (sqrt_sqrt _ (pos_INR (Datatypes.S n))) as SS'.
    rewrite S_INR in *. apply cabs_le; [apply Rmult_le_pos; auto|]. cbn [fst snd].
    set (p := norm xs - norm ys) in *. set (q := cabs x - cabs y) in *. set (r := sqrt (INR n)) in *. set (r' := sqrt (INR n + 1)) in *.
    assert (A : p * p <= (r * e) * (r * e)). { replace (p * p) with (Rabs p * Rabs p) by (rewrite <- Rabs_mult; apply Rabs_pos_eq; nra). apply Rmult_le_compat; auto using Rabs_pos. }
    assert (B : q * q <= e * e). { replace (q * q) with (Rabs q * Rabs q) by (rewrite <- Rabs_mult; apply Rabs_pos_eq; nra). apply Rmult_le_compat; try apply Rabs_pos; lra. }
    replace (r' * e * (r' * e)) with ((r' * r') * (e * e)) by ring. rewrite SS'. replace (r * e * (r * e)) with ((r * r) * (e * e)) in A by ring. rewrite SS in A. lra.
Qed.

Lemma csumf_shift : forall n f, csumf (S n) f = cadd (f O) (csumf n (fun i => f (S i))).
Proof.
  induction n; intros f; [cbn [csumf]; cring|]. change (csumf (S (S n)) f) with (cadd (csumf (S n) f) (f (S n))). rewrite IHn. cbn [csumf]. cring.
Qed.
Lemma power_csumf : forall l, csumf (length l) (fun i => cmul (nth i l (0, 0)) (cconj (nth i l (0, 0)))) = (power l, 0).
Proof.
  induction l as [|z l IH]; [reflexivity|]. cbn [length]. rewrite csumf_shift. cbn [nth]. rewrite IH. cbn [power fold_right]. fold (power l).
  apply ceq; unfold cadd, cmul, cconj; cbn [fst snd]; ring.
Qed.
Lemma cconj_cadd : forall z w, cconj (cadd z w) = cadd (cconj z) (cconj w).
Proof. intros. apply ceq; unfold cconj, cadd; cbn [fst snd]; ring. Qed.
Lemma cconj_cmul : forall z w, cconj (cmul z w) = cmul (cconj z) (cconj w).
Proof. intros. apply ceq; unfold cconj, cmul; cbn [fst snd]; ring. Qed.
Lemma cconj_csumf : forall n f, cconj (csumf n f) = csumf n (fun i => cconj (f i)).
Proof. induction n; intros f; cbn [csumf]; [apply ceq; cbn; ring|]. rewrite cconj_cadd, IHn. reflexivity. Qed.
Lemma cconj_cis : forall a, cconj (cis a) = cis (- a).
Proof. intros. unfold cconj, cis. cbn [fst snd]. rewrite cos_neg, sin_neg. reflexivity. Qed.
Lemma parseval : forall s n xs, s = 1 \/ s = -1 -> length xs = n -> power (map (dft s n xs) (seq 0 n)) = INR n * power xs.
Proof.
  intros s n xs S L.
  assert (Q : (power (map (dft s n xs) (seq 0 n)), 0) = cmul (INR n, 0) (power xs, 0)).
  { rewrite <- (power_csumf xs), L, <- csumf_mul. rewrite <- power_csumf, map_length, seq_length.
    rewrite (csumf_ext n _ (fun j => csumf n (fun i => cmul (cconj (nth i xs (0, 0))) (cmul (nth j (map (dft s n xs) (seq 0 n)) (0, 0)) (cis (- s * (2 * PI) * INR j * INR i / INR n)))))).
    - rewrite csumf_swap. apply csumf_ext. intros i Hi. rewrite csumf_mul. fold (dft (- s) n (map (dft s n xs) (seq 0 n)) i). rewrite dft_back by auto. cring.
    - intros j Hj. rewrite !nth_map_seq by auto. set (X := dft s n xs j). unfold X at 2. unfold dft. rewrite cconj_csumf, <- csumf_mul. apply csumf_ext. intros i Hi.
      rewrite cconj_cmul, cconj_cis. replace (- (s * (2 * PI) * INR i * INR j / INR n)) with (- s * (2 * PI) * INR j * INR i / INR n) by (unfold Rdiv; ring). cring. }
  apply (f_equal fst) in Q. unfold cmul in Q. cbn [fst snd] in Q. lra.
Qed.
Lemma parseval_near : forall A (val : A -> R * R) e s n xs ys, 0 <= e -> s = 1 \/ s = -1 -> length xs = n -> near val e n ys (dft s n (map val xs)) ->
  Rabs (sqrt (power (map val ys)) - sqrt (INR n * power (map val xs))) <= sqrt (INR n) * e.
Proof.
  intros A val e s n xs ys E0 S L [LY N]. rewrite <- (parseval s n (map val xs)) by (auto; rewrite map_length; auto).
  apply norm_diff; auto; [rewrite map_length; auto|rewrite map_length, seq_length; auto|]. intros i Hi. rewrite nth_map_seq by auto.
  destruct (nth_error ys i) as [y|] eqn:J; [|apply nth_error_None in J; lia]. rewrite (nth_indep _ _ (val y)) by (rewrite map_length; lia). rewrite map_nth.
  rewrite (nth_error_nth _ _ y J). auto.
Qed.
End Real.

(** ** lists of pairs *)
Section Pairs.
Context {A : Type} (val : A -> R * R).
Notation pr := (fun xy : A * A => cmul (val (fst xy)) (cconj (val (snd xy)))).
Notation pb := (fun xy : A * A => (cabs (val (fst xy)) * cabs (val (snd xy)))%R).
Lemma csum_inner : forall xs ys, csum pr (combine xs ys) = inner (map val xs) (map val ys).
Proof. induction xs as [|x xs IH]; intros [|y ys]; try reflexivity. cbn [combine csum fold_right map inner fst snd]. f_equal. apply IH. Qed.
Lemma rsum_tot : forall xs ys, rsum pb (combine xs ys) = tot (map val xs) (map val ys).
Proof. induction xs as [|x xs IH]; intros [|y ys]; try reflexivity. cbn [combine rsum fold_right map tot fst snd]. f_equal. apply IH. Qed.
Lemma pb_in : forall xs ys x y, In (x, y) (combine xs ys) -> (cabs (val x) * cabs (val y) <= tot (map val xs) (map val ys))%R.
Proof.
  induction xs as [|a xs IH]; intros [|b ys] x y I; try destruct I; cbn [map tot].
  - injection H as -> ->. pose proof (tot_pos (map val xs) (map val ys)). lra.
  - pose proof (IH ys x y H). pose proof (cabs_pos (val a)). pose proof (cabs_pos (val b)). nra.
Qed.
End Pairs.
Lemma rsum_const : forall A c (ws : list A), rsum (fun _ => c) ws = (INR (length ws) * c)%R.
Proof. intros. induction ws as [|w ws IH]; [cbn; ring|]. cbn [rsum fold_right length]. fold (rsum (fun _ : A => c) ws). rewrite IH, S_INR. ring. Qed.
Lemma returns_const : forall A (x : res A) y, returns (fun _ => x) y -> x = Ok y.
Proof. intros A x y [n H]. exact (H n (le_n n)). Qed.

(** ** fixed point *)
Section Fixed.
Variables (m : mode) (f : fty).
Hypothesis (Hf : supported f = true) (S : fsigned f = true).
Notation V := (cval f). Notation FM := (fval f (fmax f)). Notation g := (224 / 100 * ulp f)%R.
Notation prod := (fun xy => c <- cartesian_conj (fixed_signed m f) (snd xy) ;; cartesian_mul (fixed_ops m f) (fst xy) c).

Lemma prod_fixed : forall x y, (cabs (V y) <= FM)%R -> (cabs (V x) * cabs (V y) + g <= FM)%R ->
  exists p, prod (x, y) = Ok p /\ (cabs (csub (V p) (cmul (V x) (cconj (V y)))) <= g)%R /\ (cabs (V p) <= cabs (V x) * cabs (V y) * 1 + g)%R.
Proof using Hf S.
  intros x y Y B. destruct (conj_fixed m f y Hf S Y) as (c & Ec & Vc). destruct (fixed_mul_near m f Hf S x c) as (p & Ep & Np); [rewrite Vc, cconj_abs; exact B|].
  exists p. cbn [fst snd]. rewrite Ec. cbn [bind]. split; auto. rewrite Vc in Np. split; auto.
  pose proof (cabs_via (V p) (cmul (V x) (cconj (V y)))) as Q. rewrite cabs_cmul, cconj_abs in Q. lra.
Qed.
Lemma rsum_one : forall A (t : A -> R) c ws, rsum (fun w => t w * 1 + c)%R ws = (rsum t ws + INR (length ws) * c)%R.
Proof using. intros. rewrite rsum_lin. ring. Qed.

Lemma correlate_fixed : forall xs ys, (forall y, In y ys -> (cabs (V y) <= FM)%R) -> let n := INR (length (combine xs ys)) in
  (sqrt (power (map V xs) * power (map V ys)) + n * g <= FM)%R ->
  exists r, correlate (fixed_ops m f) (fixed_signed m f) 0%Z xs ys = Ok r /\ (cabs (csub (V r) (inner (map V xs) (map V ys))) <= n * g)%R /\
  (cabs (V r) <= sqrt (power (map V xs) * power (map V ys)) + n * g)%R.
Proof using Hf S.
  intros xs ys HY n B. assert (U : (0 < ulp f)%R) by apply bpow_gt_0. rewrite sqrt_mult in * by apply power_pos. pose proof (tot_norm (map V xs) (map V ys)) as TN.
  assert (G1 : forall x y, In (x, y) (combine xs ys) -> (g <= n * g)%R).
  { intros x y I. assert (1 <= n)%R; [|nra]. unfold n. replace 1%R with (INR 1) by reflexivity. apply le_INR. destruct (combine xs ys); [destruct I|cbn; lia]. }
  destruct (acc_fixed m f Hf S _ (fun _ => prod) (fun xy => cmul (V (fst xy)) (cconj (V (snd xy)))) (fun _ => g) (fun xy => cabs (V (fst xy)) * cabs (V (snd xy)) * 1 + g)%R (combine xs ys)) with (acc := mkC 0%Z 0%Z) as (r & R & N).
  - intros [x y] I. pose proof (pb_in V xs ys x y I). pose proof (G1 x y I). destruct (prod_fixed x y (HY y (in_combine_r _ _ _ _ I))) as (p & Ep & Np & Bp); [lra|]. exists p. split; [exists O; intros; exact Ep|]. auto.
  - rewrite (rsum_one _ (fun xy => cabs (V (fst xy)) * cabs (V (snd xy)))%R), rsum_tot. fold n. replace (V (mkC 0%Z 0%Z)) with (0, 0)%R by (unfold cval, fval; cbn [re im]; f_equal; ring). rewrite cabs0. lra.
  - exists r. split; [apply returns_const in R; exact R|]. rewrite rsum_const in N. fold n in N. replace (V (mkC 0%Z 0%Z)) with (0, 0)%R in N by (unfold cval, fval; cbn [re im]; f_equal; ring).
    replace (cadd (0, 0)%R (csum _ (combine xs ys))) with (inner (map V xs) (map V ys)) in N by (rewrite <- csum_inner; apply ceq; unfold cadd; cbn [fst snd]; ring).
    split; auto. pose proof (cabs_via (V r) (inner (map V xs) (map V ys))). pose proof (inner_tot (map V xs) (map V ys)). lra.
Qed.

(** energy: sums of bits *)
Lemma square_fixed : forall x, (cabs (V x) <= FM)%R -> (cabs (V x) * cabs (V x) + g <= FM)%R ->
  exists p, prod (x, x) = Ok p /\ (cabs (V p) <= cabs (V x) * cabs (V x) * 1 + g)%R /\ (0 <= re p)%Z /\ (-1 <= im p <= 0)%Z /\ (Rabs (fval f (re p) - cabs (V x) * cabs (V x)) <= ulp f)%R /\
  (re p = 0%Z <-> im x = 0%Z /\ (fval f (re x) * fval f (re x) < ulp f)%R).
Proof using Hf S.
  intros x X B. destruct (prod_fixed x x X B) as (p & Ep & _ & Bp). exists p. split; auto. split; auto. pose proof (supported_fwf f Hf) as W. pose proof (fone_pos f (proj1 W)) as FP.
  cbn [fst snd] in Ep. assert (Ec : cartesian_conj (fixed_signed m f) x = Ok (mkC (re x) (- im x)%Z)).
  { destruct (conj_fixed m f x Hf S X) as (c & Ec & Vc). rewrite Ec. f_equal. destruct c as [c1 c2]. unfold cval, cconj in Vc. cbn [re im fst snd] in Vc. rewrite <- fval_neg in Vc. injection Vc as V1 V2. unfold fval in V1, V2.
    assert (P : (0 < bpow radix2 (- ffrac f))%R) by apply bpow_gt_0. apply Rmult_eq_reg_r in V1, V2; try (unfold ulp in *; lra). apply eq_IZR in V1, V2. subst. reflexivity. }
  destruct (fixed_mul_near Debug f Hf S x (mkC (re x) (- im x)%Z)) as (q & Eq & _).
  { replace (V (mkC (re x) (- im x)%Z)) with (cconj (V x)) by (unfold cval, cconj; cbn [re im fst snd]; rewrite fval_neg; reflexivity). rewrite cconj_abs. exact B. }
  assert (q = p) as ->. { rewrite Ec in Ep. cbn [bind] in Ep. destruct m; [|apply mul_release_of_debug in Eq]; rewrite Ep in Eq; injection Eq as ->; reflexivity. }
  rewrite mul_fixed_debug in Eq. cbv zeta in Eq. destruct (forallb _ _) in Eq; [|discriminate]. injection Eq as <-. cbn [re im].
  pose proof (fval_mul f (re x) (re x) (proj1 W)) as M1. pose proof (fval_mul f (im x) (- im x)%Z (proj1 W)) as M2. rewrite fval_neg in M2.
  set (a := re x) in *. set (b := im x) in *. set (F := fone f) in *.
  assert (Z1 : (0 <= a * a / F)%Z) by (apply Z.div_pos; nia). assert (Z2 : (b * - b / F <= 0)%Z) by (apply Z.div_le_upper_bound; nia).
  split; [lia|]. split; [|split].
  - replace (a * - b)%Z with (- (b * a))%Z by ring. pose proof (Z.div_mod (b * a) F ltac:(lia)). pose proof (Z.mod_pos_bound (b * a) F ltac:(lia)). pose proof (Z.div_mod (- (b * a)) F ltac:(lia)). pose proof (Z.mod_pos_bound (- (b * a)) F ltac:(lia)). nia.
  - rewrite cabs2. unfold cval. cbn [fst snd]. fold a b. unfold Z.sub. rewrite fval_add, fval_neg. apply Rabs_le. lra.
  - split.
    + intros E0. assert (A0 : (a * a / F = 0)%Z) by lia. assert (B0 : (b * - b / F = 0)%Z) by lia. rewrite A0 in M1. assert (b = 0)%Z. { pose proof (Z.div_mod (b * - b) F ltac:(lia)). pose proof (Z.mod_pos_bound (b * - b) F ltac:(lia)). nia. }
      split; auto. replace (fval f 0) with 0%R in M1 by (unfold fval; ring). lra.
    + intros [-> A]. rewrite Z.mul_0_l, Z.div_0_l by lia. assert (K : (fval f (a * a / F) < ulp f)%R) by lra. unfold fval in K. assert (P : (0 < ulp f)%R) by apply bpow_gt_0. unfold ulp in *.
      assert (a * a / F < 1)%Z; [|lia]. apply lt_IZR. apply Rmult_lt_reg_r with (bpow radix2 (- ffrac f)); lra.
Qed.

Notation step := (fun acc xy => p <- prod xy ;; cartesian_add (fixed_ops m f) acc p).
Notation tiny := (fun x => im x = 0%Z /\ (fval f (re x) * fval f (re x) < ulp f)%R).
Lemma energy_run : forall xs acc, (forall x, In x xs -> (cabs (V x) <= FM)%R /\ (cabs (V x) * cabs (V x) + g <= FM)%R) ->
  (cabs (V acc) + power (map V xs) + INR (length xs) * g <= FM)%R ->
  exists r, run step acc (combine xs xs) = Ok r /\ (re acc <= re r)%Z /\ (im acc - Z.of_nat (length xs) <= im r <= im acc)%Z /\
  (Rabs (fval f (re r) - fval f (re acc) - power (map V xs)) <= INR (length xs) * ulp f)%R /\ (re r = re acc <-> forall x, In x xs -> tiny x).
Proof using Hf S.
  induction xs as [|x xs IH]; intros acc H B.
  - exists acc. split; [reflexivity|]. split; [lia|]. cbn [length Z.of_nat]. split; [lia|]. split; [|split; [intros _ y []|auto]]. cbn [map power fold_right INR]. rewrite Rmult_0_l. replace (fval f (re acc) - fval f (re acc) - 0)%R with 0%R by ring. rewrite Rabs_R0. lra.
  - cbn [map power fold_right] in B. fold (power (map V xs)) in B. rewrite <- (cabs2 (V x)) in B. cbn [length] in B. rewrite S_INR in B. assert (U : (0 < ulp f)%R) by apply bpow_gt_0.
    pose proof (power_pos (map V xs)) as P0. pose proof (pos_INR (length xs)) as N0.
    destruct (H x (or_introl eq_refl)) as [H1 H2]. destruct (square_fixed x H1 H2) as (p & Ep & Bp & Zr & Zi & Np & Iff). cbn [fst snd] in Ep.
    destruct (add_fixed_near m f Hf S acc p) as (a & Ea & Va). { pose proof (cabs_cadd (V acc) (V p)). assert (0 <= INR (length xs) * g)%R by (apply Rmult_le_pos; lra). lra. }
    assert (Ra : re a = (re acc + re p)%Z /\ im a = (im acc + im p)%Z).
    { unfold cval, cadd in Va. cbn [fst snd] in Va. rewrite <- !fval_add in Va. injection Va as V1 V2. unfold fval in V1, V2. unfold ulp in *. apply Rmult_eq_reg_r in V1, V2; try lra. apply eq_IZR in V1, V2. auto. }
    destruct Ra as [Ra1 Ra2]. destruct (IH a) as (r & Er & R1 & R2 & R3 & R4). { intros y Iy. apply H. right. auto. } { rewrite Va. pose proof (cabs_cadd (V acc) (V p)). lra. }
    exists r. split; [|split; [lia|split; [cbn [length]; lia|split]]].
    + unfold run in *. cbn [combine fold_left bind fst snd]. rewrite Ep. cbn [bind]. rewrite Ea. exact Er.
    + cbn [map power fold_right length]. fold (power (map V xs)). rewrite <- (cabs2 (V x)), S_INR. rewrite Ra1, fval_add in R3. apply Rabs_le_inv in R3, Np. apply Rabs_le. lra.
    + split.
      * intros E y [<-|Iy]; [apply Iff; lia|]. apply R4; auto. lia.
      * intros T. assert (re p = 0%Z) by (apply Iff, T; left; auto). assert (re r = re a) by (apply R4; intros; apply T; right; auto). lia.
Qed.
Lemma energy_fixed : forall xs, let n := length xs in (power (map V xs) + INR n * g <= FM)%R ->
  exists r, correlate (fixed_ops m f) (fixed_signed m f) 0%Z xs xs = Ok r /\ (0 <= re r)%Z /\ (- Z.of_nat n <= im r <= 0)%Z /\
  (Rabs (fval f (re r) - power (map V xs)) <= INR n * ulp f)%R /\ (re r = 0%Z <-> forall x, In x xs -> tiny x).
Proof using Hf S.
  intros xs n B. assert (U : (0 < ulp f)%R) by apply bpow_gt_0. pose proof (fmax_two f Hf S) as F2. unfold correlate.
  assert (Z0 : V (mkC 0%Z 0%Z) = (0, 0)%R) by (unfold cval, fval; cbn [re im]; f_equal; ring).
  destruct (energy_run xs (mkC 0%Z 0%Z)) as (r & Er & R1 & R2 & R3 & R4).
  - intros x I. pose proof (power_in (map V xs) (V x) (in_map V xs x I)) as P. pose proof (cabs_pos (V x)).
    assert (1 <= INR n)%R by (replace 1%R with (INR 1) by reflexivity; apply le_INR; unfold n; destruct xs; [destruct I|cbn; lia]). assert (g <= INR n * g)%R by nra. split; nra.
  - rewrite Z0, cabs0. fold n. lra.
  - exists r. cbn [re im] in *. fold n in R2, R3. split; auto. split; auto. split; [lia|]. split; auto. replace (fval f 0) with 0%R in R3 by (unfold fval; ring). rewrite Rminus_0_r in R3. auto.
Qed.
End Fixed.

(** ** integers *)
From Verif Require Import FirProofs.
Section Int.
Variables (m : mode) (t : ity).
Hypothesis (S : isigned t = true).
Notation IM := (IZR (imax t)).
Notation prod := (fun xy => c <- cartesian_conj (int_signed m t) (snd xy) ;; cartesian_mul (int_ops m t) (fst xy) c).
Lemma prod_int : forall x y, (cabs (cvz y) <= IM)%R -> (cabs (cvz x) * cabs (cvz y) <= IM)%R -> exists p, prod (x, y) = Ok p /\ cvz p = cmul (cvz x) (cconj (cvz y)).
Proof using S.
  intros w o O B. cbn [fst snd].
  pose proof (cabs_fst (cvz w) : (Rabs (IZR (re w)) <= _)%R) as w1. pose proof (cabs_snd (cvz w) : (Rabs (IZR (im w)) <= _)%R) as w2.
  pose proof (cabs_fst (cvz o) : (Rabs (IZR (re o)) <= _)%R) as o1. pose proof (cabs_snd (cvz o) : (Rabs (IZR (im o)) <= _)%R) as o2.
  assert (Ec : cartesian_conj (int_signed m t) o = Ok (mkC (re o) (- im o)%Z)). { unfold cartesian_conj. change (o_neg (int_signed m t) (im o)) with (fin m t (- im o)%Z). rewrite fin_in; [reflexivity|]. apply in_signed; auto. rewrite opp_IZR, Rabs_Ropp. lra. }
  rewrite Ec. cbn [bind]. set (q := mkC (re o) (- im o)%Z). assert (Vq : cvz q = cconj (cvz o)) by (unfold cvz, cconj, q; cbn [re im fst snd]; rewrite opp_IZR; reflexivity).
  assert (o3 : (Rabs (IZR (im q)) <= cabs (cvz o))%R) by (unfold q; cbn [im]; rewrite opp_IZR, Rabs_Ropp; auto).
  set (p := mkC (re w * re q - im w * im q)%Z (re w * im q + im w * re q)%Z). exists p.
  assert (Vp : cvz p = cmul (cvz w) (cvz q)) by (unfold cvz, cmul, p; cbn [re im fst snd]; rewrite minus_IZR, plus_IZR, !mult_IZR; reflexivity).
  rewrite Vq in Vp. split; auto. assert (Ap : (cabs (cvz p) <= IM)%R) by (rewrite Vp, cabs_cmul, cconj_abs; lra).
  pose proof (cabs_fst (cvz p) : (Rabs (IZR (re p)) <= _)%R) as p1. pose proof (cabs_snd (cvz p) : (Rabs (IZR (im p)) <= _)%R) as p2.
  assert (PR : forall a b, (Rabs (IZR a) <= cabs (cvz w) -> Rabs (IZR b) <= cabs (cvz o) -> in_range t (a * b))%R).
  { intros a b Ha Hb. apply in_signed; auto. rewrite mult_IZR, Rabs_mult. eapply Rle_trans; [apply Rmult_le_compat; try apply Rabs_pos; eauto|]. auto. }
  assert (HM : forall a b, o_mul (int_ops m t) a b = fin m t (a * b)%Z) by reflexivity. pose proof (word_int m t) as HO.
  unfold cartesian_mul, ops_mul_cartesian. rewrite !HM. rewrite (fin_in m t _ (PR (re w) (re q) w1 o1)), (fin_in m t _ (PR _ _ w2 o3)), (fin_in m t _ (PR _ _ w1 o3)), (fin_in m t _ (PR (im w) (re q) w2 o1)). cbn [bind].
  rewrite (word_sub _ _ _ HO), (word_add _ _ _ HO).
  rewrite (fin_in m t (re w * re q - im w * im q)%Z) by (apply in_signed; auto; change (Rabs (IZR (re p)) <= IM)%R; lra). cbn [bind].
  rewrite (fin_in m t (re w * im q + im w * re q)%Z) by (apply in_signed; auto; change (Rabs (IZR (im p)) <= IM)%R; lra). reflexivity.
Qed.
Lemma add_int : forall z w, (cabs (cadd (cvz z) (cvz w)) <= IM)%R -> exists r, cartesian_add (int_ops m t) z w = Ok r /\ cvz r = cadd (cvz z) (cvz w).
Proof using S.
  intros z w B. exists (mkC (re z + re w)%Z (im z + im w)%Z). pose proof (word_int m t) as HO. pose proof (cabs_fst (cadd (cvz z) (cvz w))) as A1. pose proof (cabs_snd (cadd (cvz z) (cvz w))) as A2. unfold cadd, cvz in A1, A2. cbn [fst snd] in A1, A2. rewrite <- plus_IZR in A1, A2.
  fold (cvz z) in A1, A2. fold (cvz w) in A1, A2. unfold cadd, cvz in B. cbn [fst snd] in B. rewrite <- !plus_IZR in B.
  split; [|unfold cvz, cadd; cbn [re im fst snd]; rewrite !plus_IZR; reflexivity].
  unfold cartesian_add. rewrite !(word_add _ _ _ HO). rewrite !fin_in; auto; apply in_signed; auto; eapply Rle_trans; try exact B; [exact (cabs_snd (IZR (re z + re w), IZR (im z + im w)))|exact (cabs_fst (IZR (re z + re w), IZR (im z + im w)))].
Qed.
Lemma run_int : forall xs ys acc, (forall y, In y ys -> (cabs (cvz y) <= IM)%R) -> (cabs (cvz acc) + tot (map cvz xs) (map cvz ys) <= IM)%R ->
  exists r, run (fun acc xy => p <- prod xy ;; cartesian_add (int_ops m t) acc p) acc (combine xs ys) = Ok r /\ cvz r = cadd (cvz acc) (inner (map cvz xs) (map cvz ys)).
Proof using S.
  induction xs as [|x xs IH]; intros [|y ys] acc HY B; try (exists acc; split; [reflexivity|]; cbn [map inner]; apply ceq; unfold cadd; cbn [fst snd]; ring).
  cbn [map tot] in B. pose proof (tot_pos (map cvz xs) (map cvz ys)) as T0. pose proof (cabs_pos (cvz acc)) as A0. pose proof (cabs_pos (cvz x)). pose proof (cabs_pos (cvz y)).
  destruct (prod_int x y (HY y (or_introl eq_refl)) ltac:(lra)) as (p & Ep & Vp). cbn [fst snd] in Ep.
  assert (Bp : cabs (cvz p) = (cabs (cvz x) * cabs (cvz y))%R) by (rewrite Vp, cabs_cmul, cconj_abs; reflexivity). pose proof (cabs_cadd (cvz acc) (cvz p)) as C.
  destruct (add_int acc p ltac:(lra)) as (a & Ea & Va). destruct (IH ys a) as (r & Er & Vr). { intros; apply HY; right; auto. } { rewrite Va. lra. }
  exists r. split; [unfold run in *; cbn [combine fold_left bind fst snd]; rewrite Ep; cbn [bind]; rewrite Ea; exact Er|]. rewrite Vr, Va, Vp. cbn [map inner]. apply ceq; unfold cadd; cbn [fst snd]; ring.
Qed.
Lemma cvz0 : cvz (mkC 0%Z 0%Z) = (0, 0)%R. Proof using. reflexivity. Qed.
Lemma correlate_int : forall xs ys, (forall y, In y ys -> (cabs (cvz y) <= IM)%R) -> (sqrt (power (map cvz xs) * power (map cvz ys)) <= IM)%R ->
  exists r, correlate (int_ops m t) (int_signed m t) 0%Z xs ys = Ok r /\ cvz r = inner (map cvz xs) (map cvz ys) /\ (cabs (cvz r) <= sqrt (power (map cvz xs) * power (map cvz ys)))%R.
Proof using S.
  intros xs ys HY B. rewrite sqrt_mult in * by apply power_pos. pose proof (tot_norm (map cvz xs) (map cvz ys)) as TN.
  destruct (run_int xs ys (mkC 0%Z 0%Z) HY) as (r & Er & Vr). { rewrite cvz0, cabs0. lra. }
  exists r. split; [exact Er|]. assert (E : cvz r = inner (map cvz xs) (map cvz ys)) by (rewrite Vr, cvz0; apply ceq; unfold cadd; cbn [fst snd]; ring).
  split; auto. rewrite E. eapply Rle_trans; [apply inner_tot|auto].
Qed.
Lemma energy_int : forall xs, (power (map cvz xs) <= IM)%R ->
  exists r, correlate (int_ops m t) (int_signed m t) 0%Z xs xs = Ok (mkC r 0%Z) /\ IZR r = power (map cvz xs).
Proof using S.
  intros xs B. assert (HY : forall y, In y xs -> (cabs (cvz y) <= IM)%R).
  { intros y I. pose proof (power_in (map cvz xs) (cvz y) (in_map cvz xs y I)) as P. rewrite cabs2 in P. unfold cvz in P. cbn [fst snd] in P. rewrite <- !mult_IZR, <- plus_IZR in P.
    pose proof (cabs_pos (cvz y)) as C. destruct (Rle_or_lt (cabs (cvz y)) 1) as [L|L].
    - destruct (Z_lt_le_dec 0 (imax t)) as [I0|I0]; [apply Rle_trans with 1%R; auto; apply IZR_le; lia|]. pose proof (power_in (map cvz xs) (cvz y) (in_map cvz xs y I)) as P'. assert (IM <= 0)%R by (apply IZR_le; auto).
      assert (0 <= IM)%R by (pose proof (power_pos (map cvz xs)); lra). nra.
    - pose proof (power_in (map cvz xs) (cvz y) (in_map cvz xs y I)) as P'. nra. }
  destruct (run_int xs xs (mkC 0%Z 0%Z) HY) as (r & Er & Vr). { rewrite cvz0, cabs0, tot_self. lra. }
  rewrite inner_self, cvz0 in Vr. unfold cvz, cadd in Vr. cbn [fst snd] in Vr. injection Vr as V1 V2. rewrite Rplus_0_l in V1, V2. apply eq_IZR in V2. destruct r as [a b]. cbn [re im] in *. subst b. exists a. split; [exact Er|exact V1].
Qed.
End Int.

(** ** floats *)
Section Float.
Context {prec emax : Z} {Hp : Prec_gt_0 prec} {He : Prec_lt_emax prec emax}.
Notation float := (binary_float prec emax).
Notation u := (bpow radix2 (- prec)).
Notation eta := (bpow radix2 (3 - emax - prec)).
Notation fv := (@cvalf prec emax).
Hypothesis (P24 : (24 <= prec)%Z) (E100 : (100 <= emax)%Z).
Notation prod := (fun xy : Cartesian float * Cartesian float => c <- cartesian_conj float_signed (snd xy) ;; cartesian_mul float_ops (fst xy) c).
Notation k := (emax / 2 - 2)%Z.
Notation big z := (cabs (fv z) <= bpow radix2 k)%R.
Lemma prod_float : forall x y : Cartesian float, cfin x -> cfin y -> big x -> big y ->
  exists p, prod (x, y) = Ok p /\ cfin p /\ (cabs (csub (fv p) (cmul (fv x) (cconj (fv y)))) <= cabs (fv x) * cabs (fv y) * (3 * u) + 3 * eta)%R /\ (cabs (fv p) <= cabs (fv x) * cabs (fv y) * (1 + 3 * u) + 3 * eta)%R.
Proof using P24 E100.
  intros x y Fx Fy Bx By. destruct (conj_float y Fy) as (c & Ec & Fc & Vc). pose proof (Z.div_mod emax 2 ltac:(lia)). pose proof (Z.mod_pos_bound emax 2 ltac:(lia)).
  destruct (float_mul_near (prec := prec) (emax := emax) ltac:(lia) k ltac:(lia) ltac:(lia) x c Fx Fc Bx) as (p & Ep & Fp & Np); [rewrite Vc, cconj_abs; auto|].
  rewrite Vc, cconj_abs in Np. exists p. cbn [fst snd]. rewrite Ec. cbn [bind]. split; auto. split; auto. split; [lra|].
  pose proof (cabs_via (fv p) (cmul (fv x) (cconj (fv y)))) as Q. rewrite cabs_cmul, cconj_abs in Q. lra.
Qed.
Lemma correlate_float : forall xs ys : list (Cartesian float), (forall z, In z xs \/ In z ys -> cfin z /\ big z) -> let n := INR (length (combine xs ys)) in let N := sqrt (power (map fv xs) * power (map fv ys)) in
  (n * u <= / 2)%R -> (N <= bpow radix2 (emax - 4))%R ->
  exists r, correlate float_ops float_signed (B754_zero false) xs ys = Ok r /\ cfin r /\ (cabs (csub (fv r) (inner (map fv xs) (map fv ys))) <= (2 * n + 6) * u * N + 6 * n * eta)%R.
Proof using P24 E100.
  intros xs ys H n N NU B. assert (U : (0 < u)%R) by apply bpow_gt_0. assert (ET : (0 < eta)%R) by apply bpow_gt_0. assert (N0 : (0 <= n)%R) by apply pos_INR.
  assert (TN : (tot (map fv xs) (map fv ys) <= N)%R) by (unfold N; rewrite sqrt_mult by apply power_pos; apply tot_norm). set (T := tot (map fv xs) (map fv ys)) in *. assert (T0 : (0 <= T)%R) by apply tot_pos.
  assert (UB : (u <= / 16777216)%R). { change (/ 16777216)%R with (bpow radix2 (-24)). apply bpow_le. lia. }
  assert (NE : (n * eta <= 1)%R). { replace (n * eta)%R with ((n * u) * bpow radix2 (3 - emax))%R by (rewrite Rmult_assoc, <- bpow_plus; do 2 f_equal; lia).
    assert (bpow radix2 (3 - emax) <= 1)%R by (change 1%R with (bpow radix2 0); apply bpow_le; lia). pose proof (bpow_gt_0 radix2 (3 - emax)). nra. }
  assert (BB : (16 <= bpow radix2 (emax - 4))%R) by (change 16%R with (bpow radix2 4); apply bpow_le; lia).
  assert (BE : (bpow radix2 (emax - 1) = 8 * bpow radix2 (emax - 4))%R) by (replace (emax - 1)%Z with (3 + (emax - 4))%Z by lia; rewrite bpow_plus; reflexivity).
  pose proof (bern_high u (length (combine xs ys)) ltac:(lra) NU) as BH. fold n in BH. assert (Q1 : (1 <= (1 + u) ^ length (combine xs ys))%R) by (apply pow_R1_Rle; lra).
  assert (Z0 : fv (mkC (B754_zero false) (B754_zero false)) = (0, 0)%R) by reflexivity.
  destruct (acc_float (prec := prec) (emax := emax) ltac:(lia) _ (fun _ => prod) (fun xy => cmul (fv (fst xy)) (cconj (fv (snd xy)))) (fun xy => cabs (fv (fst xy)) * cabs (fv (snd xy)) * (3 * u) + 3 * eta)%R
    (fun xy => cabs (fv (fst xy)) * cabs (fv (snd xy)) * (1 + 3 * u) + 3 * eta)%R (combine xs ys)) with (acc := mkC (B754_zero false : float) (B754_zero false)) as (r & R & Fr & Nr).
  - intros [x y] I. destruct (H x (or_introl (in_combine_l _ _ _ _ I))) as [Fx Bx]. destruct (H y (or_intror (in_combine_r _ _ _ _ I))) as [Fy By]. destruct (prod_float x y Fx Fy Bx By) as (p & Ep & Fp & Np & Bp). exists p. split; [exists O; intros; exact Ep|]. auto.
  - split; reflexivity.
  - rewrite (rsum_lin _ (fun xy => cabs (fv (fst xy)) * cabs (fv (snd xy)))%R), rsum_tot. fold n T. rewrite Z0, cabs0. apply Rle_trans with (2 * (0 + (T * (1 + 3 * u) + n * (3 * eta))))%R; [apply Rmult_le_compat_r; nra|nra].
  - exists r. split; [apply returns_const in R; exact R|]. split; auto. rewrite !(rsum_lin _ (fun xy => cabs (fv (fst xy)) * cabs (fv (snd xy)))%R), rsum_tot in Nr. fold n T in Nr. rewrite Z0, cabs0 in Nr.
    replace (cadd (0, 0)%R (csum _ (combine xs ys))) with (inner (map fv xs) (map fv ys)) in Nr by (rewrite <- csum_inner; apply ceq; unfold cadd; cbn [fst snd]; ring).
    eapply Rle_trans; [exact Nr|]. set (Y := (0 + (T * (1 + 3 * u) + n * (3 * eta)))%R). assert (Y0 : (0 <= Y)%R) by (unfold Y; nra).
    assert (A : (((1 + u) ^ length (combine xs ys) - 1) * Y <= 2 * (n * u) * Y)%R) by (apply Rmult_le_compat_r; lra).
    assert (A1 : (2 * (n * u) * (n * (3 * eta)) <= 1 * (n * (3 * eta)))%R) by (apply Rmult_le_compat_r; [nra|lra]).
    assert (A2 : (2 * (n * u) * (T * (3 * u)) <= 1 * (T * (3 * u)))%R) by (apply Rmult_le_compat_r; [nra|lra]).
    assert (A3 : ((2 * n + 6) * u * T <= (2 * n + 6) * u * N)%R) by (apply Rmult_le_compat_l; nra).
    apply Rle_trans with (T * (3 * u) + n * (3 * eta) + 2 * (n * u) * Y)%R; [lra|]. unfold Y. lra.
Qed.
(** the energy of a finite result: no imaginary part, never negative *)
Lemma square_float : forall x p : Cartesian float, prod (x, x) = Ok p -> (is_finite (re p) = true -> 0 <= B2R (re p))%R /\ (is_finite (im p) = true -> B2R (im p) = 0)%R.
Proof using P24 E100.
  intros x p E. cbn [fst snd] in E. unfold cartesian_conj in E. cbn [float_signed o_neg bind] in E. unfold cartesian_mul, ops_mul_cartesian in E. cbn [float_ops o_mul o_sub o_add bind re im] in E. injection E as <-. cbn [re im].
  set (a := re x). set (b := im x). split; intros F.
  - rewrite Bmult_opp_r, Bminus_plus in *. rewrite Bopp_involutive in *. destruct (plus_fin _ _ F) as [F1 F2]. rewrite (plus_val _ _ F), (mult_fin _ _ F1), (mult_fin _ _ F2).
    apply round_ge_generic; [apply fexp_correct; auto|apply valid_rnd_N|apply generic_format_0|]. apply Rplus_le_le_0_compat; (apply round_ge_generic; [apply fexp_correct; auto|apply valid_rnd_N|apply generic_format_0|nra]).
  - destruct (plus_fin _ _ F) as [F1 F2]. rewrite (plus_val _ _ F). rewrite Bmult_opp_r, B2R_Bopp in *. rewrite is_finite_Bopp in F1. rewrite (mult_fin _ _ F1), (mult_fin _ _ F2), (Rmult_comm (B2R b)).
    match goal with |- round _ _ _ ?v = _ => replace v with 0%R by ring end. apply round_0. apply valid_rnd_N.
Qed.
Lemma energy_sign : forall (xs : list (Cartesian float)) acc r, (is_finite (re acc) = true -> 0 <= B2R (re acc))%R -> (is_finite (im acc) = true -> B2R (im acc) = 0)%R ->
  run (fun acc xy => p <- prod xy ;; cartesian_add float_ops acc p) acc (combine xs xs) = Ok r -> (is_finite (re r) = true -> 0 <= B2R (re r))%R /\ (is_finite (im r) = true -> B2R (im r) = 0)%R.
Proof using P24 E100.
  induction xs as [|x xs IH]; intros acc r A1 A2 E; [injection E as <-; auto|].
  assert (EP : exists p, prod (x, x) = Ok p) by (eexists; reflexivity). destruct EP as (p & Ep). destruct (square_float x p Ep) as [P1 P2].
  assert (E' : run (fun acc xy => p <- prod xy ;; cartesian_add float_ops acc p) (mkC (Bplus mode_NE (re acc) (re p)) (Bplus mode_NE (im acc) (im p))) (combine xs xs) = Ok r).
  { rewrite <- E. unfold run. cbn [combine fold_left]. f_equal. cbn [fst snd] in *. cbn [bind]. rewrite Ep. reflexivity. }
  eapply IH; [| |exact E']; cbn [re im]; intros F; destruct (plus_fin _ _ F) as [F1 F2]; rewrite (plus_val _ _ F).
  - apply round_ge_generic; [apply fexp_correct; auto|apply valid_rnd_N|apply generic_format_0|]. pose proof (A1 F1). pose proof (P1 F2). lra.
  - rewrite (A2 F1), (P2 F2), Rplus_0_l. apply round_0. apply valid_rnd_N.
Qed.
Lemma energy_float : forall xs : list (Cartesian float), (forall z, In z xs -> cfin z) -> let n := INR (length xs) in (n * u <= / 2)%R -> (power (map fv xs) <= bpow radix2 (emax - 5))%R ->
  exists r, correlate float_ops float_signed (B754_zero false) xs xs = Ok r /\ cfin r /\ (0 <= B2R (re r))%R /\ B2R (im r) = 0%R /\ (Rabs (B2R (re r) - power (map fv xs)) <= (2 * n + 6) * u * power (map fv xs) + 6 * n * eta)%R.
Proof using P24 E100.
  intros xs H n NU B. assert (L : length (combine xs xs) = length xs) by (rewrite combine_length; lia). pose proof (power_pos (map fv xs)) as P0.
  assert (SQ : sqrt (power (map fv xs) * power (map fv xs)) = power (map fv xs)) by (apply sqrt_square; auto).
  destruct (correlate_float xs xs) as (r & Er & Fr & Nr).
  - intros z I. assert (In z xs) as J by (destruct I; auto). split; auto. pose proof (power_in (map fv xs) (fv z) (in_map fv xs z J)) as P. pose proof (Z.div_mod emax 2 ltac:(lia)). pose proof (Z.mod_pos_bound emax 2 ltac:(lia)).
    apply Rnot_lt_le. intros C. assert (bpow radix2 k * bpow radix2 k < cabs (fv z) * cabs (fv z))%R by (apply Rmult_le_0_lt_compat; auto; apply bpow_ge_0).
    rewrite <- bpow_plus in H2. assert (bpow radix2 (emax - 5) <= bpow radix2 (k + k))%R by (apply bpow_le; lia). lra.
  - rewrite L. exact NU.
  - rewrite SQ. eapply Rle_trans; [exact B|]. apply bpow_le. lia.
  - exists r. rewrite L, SQ, inner_self in Nr. fold n in Nr. split; auto. split; auto.
    destruct (energy_sign xs (mkC (B754_zero false) (B754_zero false)) r) as [S1 S2]; [intros _; cbn; lra|intros _; reflexivity|exact Er|]. destruct Fr as [Fr1 Fr2].
    split; auto. split; auto. eapply Rle_trans; [|exact Nr]. exact (cabs_fst (csub (fv r) (power (map fv xs), 0)%R)).
Qed.
End Float.

Notation finite z := (is_finite (re z) = true /\ is_finite (im z) = true).
Lemma correlate_f32 : forall xs ys : list (Cartesian f32), (forall z, In z xs \/ In z ys -> finite z /\ (cabs (cvalf z) <= bpow radix2 62)%R) ->
  let n := INR (length (combine xs ys)) in let N := sqrt (power (map cvalf xs) * power (map cvalf ys)) in (n * bpow radix2 (-24) <= / 2)%R -> (N <= bpow radix2 124)%R ->
  exists r, correlate float_ops float_signed (B754_zero false) xs ys = Ok r /\ finite r /\ (cabs (csub (cvalf r) (inner (map cvalf xs) (map cvalf ys))) <= (2 * n + 6) * bpow radix2 (-24) * N + 6 * n * bpow radix2 (-149))%R.
Proof. exact (correlate_float (prec := 24) (emax := 128) ltac:(lia) ltac:(lia)). Qed.
Lemma correlate_f64 : forall xs ys : list (Cartesian f64), (forall z, In z xs \/ In z ys -> finite z /\ (cabs (cvalf z) <= bpow radix2 510)%R) ->
  let n := INR (length (combine xs ys)) in let N := sqrt (power (map cvalf xs) * power (map cvalf ys)) in (n * bpow radix2 (-53) <= / 2)%R -> (N <= bpow radix2 1020)%R ->
  exists r, correlate float_ops float_signed (B754_zero false) xs ys = Ok r /\ finite r /\ (cabs (csub (cvalf r) (inner (map cvalf xs) (map cvalf ys))) <= (2 * n + 6) * bpow radix2 (-53) * N + 6 * n * bpow radix2 (-1074))%R.
Proof. exact (correlate_float (prec := 53) (emax := 1024) ltac:(lia) ltac:(lia)). Qed.
Lemma energy_f32 : forall xs : list (Cartesian f32), (forall z, In z xs -> finite z) -> let n := INR (length xs) in let E := power (map cvalf xs) in (n * bpow radix2 (-24) <= / 2)%R -> (E <= bpow radix2 123)%R ->
  exists r, correlate float_ops float_signed (B754_zero false) xs xs = Ok r /\ finite r /\ (0 <= B2R (re r))%R /\ B2R (im r) = 0%R /\ (Rabs (B2R (re r) - E) <= (2 * n + 6) * bpow radix2 (-24) * E + 6 * n * bpow radix2 (-149))%R.
Proof. exact (energy_float (prec := 24) (emax := 128) ltac:(lia) ltac:(lia)). Qed.
Lemma energy_f64 : forall xs : list (Cartesian f64), (forall z, In z xs -> finite z) -> let n := INR (length xs) in let E := power (map cvalf xs) in (n * bpow radix2 (-53) <= / 2)%R -> (E <= bpow radix2 1019)%R ->
  exists r, correlate float_ops float_signed (B754_zero false) xs xs = Ok r /\ finite r /\ (0 <= B2R (re r))%R /\ B2R (im r) = 0%R /\ (Rabs (B2R (re r) - E) <= (2 * n + 6) * bpow radix2 (-53) * E + 6 * n * bpow radix2 (-1074))%R.
Proof. exact (energy_float (prec := 53) (emax := 1024) ltac:(lia) ltac:(lia)). Qed.

Lemma near_pos : forall A (val : A -> R * R) e n ys F, (0 < n)%nat -> near val e n ys F -> (0 <= e)%R.
Proof. intros A val e n ys F N [L H]. destruct ys as [|y ys]; [cbn in L; lia|]. pose proof (H O y eq_refl). pose proof (cabs_pos (csub (val y) (F O))). lra. Qed.
Lemma parseval_pow : forall A (val : A -> R * R) e s k xs ys, s = 1%R \/ s = (-1)%R -> length xs = (2 ^ k)%nat -> near val e (2 ^ k) ys (dft s (2 ^ k) (map val xs)) ->
  (Rabs (sqrt (power (map val ys)) - sqrt (2 ^ k * power (map val xs))) <= sqrt (2 ^ k) * e)%R.
Proof.
  intros A val e s k xs ys S L N. assert (K : (0 < 2 ^ k)%nat) by (pose proof (Nat.pow_nonzero 2 k ltac:(lia)); lia).
  pose proof (parseval_near A val e s (2 ^ k) xs ys (near_pos _ _ _ _ _ _ K N) S L N) as P. rewrite INR_pow2 in P. exact P.
Qed.
Lemma parseval_fixed : forall m f, supported f = true -> fsigned f = true -> forall s d M k tw, (s = 1 \/ s = -1 -> 0 <= d <= 1 -> 0 <= M ->
  let g := 224 / 100 * ulp f in let q := 1 + d / 2 in 2 ^ k * (M + g) * q ^ k <= fval f (fmax f) ->
  tables (cval f) (fun _ => True) s d k tw -> forall xs, length xs = (2 ^ k)%nat -> (forall x, In x xs -> cabs (cval f x) <= M) ->
  exists ys, fft (fixed_ops m f) tw k xs = Ok ys /\
  Rabs (sqrt (power (map (cval f) ys)) - sqrt (2 ^ k * power (map (cval f) xs))) <= sqrt (2 ^ k) * (2 ^ k * ((M + g) * q ^ k - M)))%R.
Proof. intros m f F Sg s d M k tw S D M0 g q B TW xs L HX. destruct (fft_fixed m f F Sg s d M k tw S D M0 B TW xs L HX) as (ys & E & N). exists ys. split; auto. eapply parseval_pow; eauto. Qed.
Lemma parseval_f32 : forall s d M k (tw : nat -> list (Cartesian f32)), (s = 1 \/ s = -1 -> 0 <= d <= / 8 -> 0 <= M ->
  let g := 4 * bpow radix2 (-149) in let q := 1 + (d + 6 * bpow radix2 (-24)) / 2 in 2 ^ k * (M + g) * q ^ k <= bpow radix2 64 ->
  tables cvalf (fun w => finite w) s d k tw -> forall xs, length xs = (2 ^ k)%nat -> (forall x, In x xs -> finite x /\ cabs (cvalf x) <= M) ->
  exists ys, fft float_ops tw k xs = Ok ys /\ Rabs (sqrt (power (map cvalf ys)) - sqrt (2 ^ k * power (map cvalf xs))) <= sqrt (2 ^ k) * (2 ^ k * ((M + g) * q ^ k - M)))%R.
Proof. intros s d M k tw S D M0 g q B TW xs L HX. destruct (fft_f32 s d M k tw S D M0 B TW xs L HX) as (ys & E & _ & N). exists ys. split; auto. eapply parseval_pow; eauto. Qed.
Lemma parseval_f64 : forall s d M k (tw : nat -> list (Cartesian f64)), (s = 1 \/ s = -1 -> 0 <= d <= / 8 -> 0 <= M ->
  let g := 4 * bpow radix2 (-1074) in let q := 1 + (d + 6 * bpow radix2 (-53)) / 2 in 2 ^ k * (M + g) * q ^ k <= bpow radix2 512 ->
  tables cvalf (fun w => finite w) s d k tw -> forall xs, length xs = (2 ^ k)%nat -> (forall x, In x xs -> finite x /\ cabs (cvalf x) <= M) ->
  exists ys, fft float_ops tw k xs = Ok ys /\ Rabs (sqrt (power (map cvalf ys)) - sqrt (2 ^ k * power (map cvalf xs))) <= sqrt (2 ^ k) * (2 ^ k * ((M + g) * q ^ k - M)))%R.
Proof. intros s d M k tw S D M0 g q B TW xs L HX. destruct (fft_f64 s d M k tw S D M0 B TW xs L HX) as (ys & E & _ & N). exists ys. split; auto. eapply parseval_pow; eauto. Qed.
Lemma parseval_int : forall m t, isigned t = true -> forall s, s = 1%Z \/ s = (-1)%Z -> forall (xs : list (Cartesian Z)) M, length xs = 4%nat ->
  (forall x, In x xs -> (cabs (cvz x) <= M)%R) -> (4 * M <= IZR (imax t))%R ->
  exists ys, fft (int_ops m t) (fun j => match j with O => [mkC 1%Z 0%Z] | _ => [mkC 1%Z 0%Z; mkC 0%Z s] end) 2 xs = Ok ys /\ power (map cvz ys) = (4 * power (map cvz xs))%R.
Proof.
  intros m t T s S xs M L HX B. destruct (fft_int m t T s S xs M L HX B) as (ys & E & LY & N). exists ys. split; [exact E|].
  assert (SR : IZR s = 1%R \/ IZR s = (-1)%R) by (destruct S as [-> | ->]; [left|right]; reflexivity).
  pose proof (parseval (IZR s) 4 (map cvz xs) SR ltac:(rewrite map_length; auto)) as P. replace (INR 4) with 4%R in P by (cbn; lra). rewrite <- P. f_equal.
  destruct ys as [|y0 [|y1 [|y2 [|y3 [|y4 ys]]]]]; try discriminate LY. cbn [map seq]. rewrite (N 0%nat y0), (N 1%nat y1), (N 2%nat y2), (N 3%nat y3) by reflexivity. reflexivity.
Qed.
