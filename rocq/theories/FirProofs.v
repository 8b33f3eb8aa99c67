(** * Proofs for filters with finitely many taps. *)

From Coq Require Import ZArith Lia List Arith.
From Verif Require Import Base FloatBase Traits IntImpl FixedPrim FixedImpl Complex Spec SpecMoving SpecFir Lemmas ScalarProofs ComplexProofs ComplexProofs3 ProdProofs.
Import ListNotations.
Open Scope Z_scope.

Notation c0 := (mkC 0 0).
Lemma c_ext : forall z w : Cartesian Z, re z = re w -> im z = im w -> z = w.
Proof. intros [a b] [c d] H K. cbn in *. congruence. Qed.
Ltac cring := apply c_ext; unfold gauss_mul, gauss_add; cbn [re im]; ring.

(** ** Signals: functions of time, filtered tap by tap *)
Definition shift (x : nat -> Cartesian Z) (i : nat) : Cartesian Z := match i with O => c0 | S i => x i end.
Fixpoint filt (hs : list (Cartesian Z)) (x : nat -> Cartesian Z) (i : nat) : Cartesian Z :=
  match hs with [] => c0 | h :: hs => gauss_add (gauss_mul h (x i)) (filt hs (shift x) i) end.
Notation sg l := (fun i => nth i l c0).

Lemma filt_ext : forall hs x y, (forall i, x i = y i) -> forall i, filt hs x i = filt hs y i.
Proof. induction hs as [|h hs IH]; intros x y H i; cbn; [reflexivity|]. rewrite H. f_equal. apply IH. intros [|j]; cbn; auto. Qed.
Lemma filt_add : forall hs x y i, filt hs (fun i => gauss_add (x i) (y i)) i = gauss_add (filt hs x i) (filt hs y i).
Proof.
  induction hs as [|h hs IH]; intros x y i; cbn; [cring|].
  rewrite (filt_ext hs _ (fun i => gauss_add (shift x i) (shift y i))) by (intros [|j]; cbn; reflexivity). rewrite IH. cring.
Qed.
Lemma filt_scale : forall c hs x i, filt hs (fun i => gauss_mul c (x i)) i = gauss_mul c (filt hs x i).
Proof.
  intros c. induction hs as [|h hs IH]; intros x i; cbn; [cring|].
  rewrite (filt_ext hs _ (fun i => gauss_mul c (shift x i))) by (intros [|j]; cbn; [cring|reflexivity]). rewrite IH. cring.
Qed.
Lemma filt_0 : forall hs i, filt hs (fun _ => c0) i = c0.
Proof. induction hs as [|h hs IH]; intros i; cbn; [reflexivity|]. rewrite (filt_ext hs _ (fun _ => c0)) by (intros [|j]; reflexivity). rewrite IH. cring. Qed.
Lemma filt_shift : forall hs x i, filt hs (shift x) i = shift (filt hs x) i.
Proof.
  induction hs as [|h hs IH]; intros x i; [destruct i; reflexivity|]. cbn [filt].
  rewrite (IH (shift x)).
  destruct i as [|i]; cbn [shift]; [cring|reflexivity].
Qed.
Lemma filt_comm : forall g h x i, filt g (filt h x) i = filt h (filt g x) i.
Proof.
  induction g as [|a g IH]; intros h x i; cbn [filt]; [symmetry; apply filt_0|].
  rewrite filt_add, filt_scale. f_equal. rewrite <- IH. apply filt_ext. intros j. symmetry. apply filt_shift.
Qed.

(** ** The sum of the specification *)
Lemma csum_cons : forall z l, csum (z :: l) = gauss_add z (csum l).
Proof. reflexivity. Qed.
Lemma convolved_filt : forall hs xs i, convolved hs xs i = filt hs (sg xs) i.
Proof.
  induction hs as [|h hs IH]; intros xs i; [reflexivity|]. unfold convolved. cbn [length]. rewrite <- Nat.succ_min_distr. cbn [seq map]. rewrite csum_cons.
  cbn [filt nth]. rewrite Nat.sub_0_r. f_equal. rewrite filt_shift. destruct i as [|i].
  - rewrite Nat.min_0_r. reflexivity.
  - cbn [shift]. rewrite <- IH. unfold convolved. rewrite <- seq_shift, map_map. reflexivity.
Qed.
Lemma conv_length : forall hs xs, length (convolution hs xs) = length xs.
Proof. intros. unfold convolution. rewrite map_length, seq_length. reflexivity. Qed.
Lemma conv_nth : forall hs xs i, (i < length xs)%nat -> nth i (convolution hs xs) c0 = filt hs (sg xs) i.
Proof.
  intros hs xs i H. unfold convolution. rewrite nth_indep with (d' := convolved hs xs 0) by (rewrite map_length, seq_length; exact H).
  rewrite map_nth, seq_nth by exact H. apply convolved_filt.
Qed.
(** only the past matters *)
Lemma filt_past : forall hs x y n, (forall i, (i < n)%nat -> x i = y i) -> forall i, (i < n)%nat -> filt hs x i = filt hs y i.
Proof.
  induction hs as [|h hs IH]; intros x y n H i Hi; cbn; [reflexivity|]. rewrite H by exact Hi. f_equal.
  apply (IH _ _ n); [|exact Hi]. intros [|j] Hj; cbn; [reflexivity|]. apply H. lia.
Qed.

(** ** The program on integers *)
Definition cdot (hs xs : list (Cartesian Z)) : Cartesian Z := csum (map (fun s => gauss_mul (fst s) (snd s)) (combine hs xs)).
Lemma cdot_nil_r : forall hs, cdot hs [] = c0. Proof. intros [|h hs]; reflexivity. Qed.
Lemma cdot_cons : forall h hs x xs, cdot (h :: hs) (x :: xs) = gauss_add (gauss_mul h x) (cdot hs xs).
Proof. intros. unfold cdot. cbn [combine map]. apply csum_cons. Qed.
Lemma rev_firstn_S : forall (xs : list (Cartesian Z)) i, (i < length xs)%nat -> rev (firstn (S i) xs) = nth i xs c0 :: rev (firstn i xs).
Proof.
  induction xs as [|x xs IH]; intros i H; [cbn in H; lia|]. destruct i as [|i]; [reflexivity|]. cbn [length] in H.
  change (firstn (S (S i)) (x :: xs)) with (x :: firstn (S i) xs). cbn [rev]. rewrite IH by lia. reflexivity.
Qed.
Lemma cdot_filt : forall hs xs i, (i < length xs)%nat -> cdot hs (rev (firstn (S i) xs)) = filt hs (sg xs) i.
Proof.
  induction hs as [|h hs IH]; intros xs i H; [reflexivity|]. rewrite rev_firstn_S by exact H. rewrite cdot_cons. cbn [filt]. f_equal.
  rewrite filt_shift. destruct i as [|i]; cbn [shift]; [apply cdot_nil_r|]. apply IH. lia.
Qed.

(** any program whose dot product is [D] *)
Lemma fir_map : forall T (P : MixedOps T) z hs (D : list (Cartesian T) -> Cartesian T), (forall l, dot P z hs l = Ok (D l)) -> forall xs past,
  fir P z hs past xs = Ok (map (fun i => D (rev (firstn (S i) xs) ++ past)) (seq 0 (length xs))).
Proof.
  intros T P z hs D H. induction xs as [|x xs IH]; intros past; [reflexivity|].
  cbn [fir]. rewrite H. cbn [bind]. rewrite IH. cbn [bind length seq map]. do 2 f_equal.
  rewrite <- seq_shift, map_map. apply map_ext. intros i. cbn [firstn rev]. rewrite <- app_assoc. reflexivity.
Qed.

Lemma cwrap_add_l : forall t, 1 <= iwidth t -> forall x y, cwrap t (gauss_add (cwrap t x) y) = cwrap t (gauss_add x y).
Proof. intros t W x y. unfold cwrap, gauss_add. cbn [re im]. rewrite !wrap_add_l by auto. reflexivity. Qed.
Lemma cwrap_add_r : forall t, 1 <= iwidth t -> forall x y, cwrap t (gauss_add x (cwrap t y)) = cwrap t (gauss_add x y).
Proof. intros t W x y. unfold cwrap, gauss_add. cbn [re im]. rewrite !wrap_add_r by auto. reflexivity. Qed.
Lemma cwrap_0 : forall t, 8 <= iwidth t -> cwrap t c0 = c0.
Proof.
  intros t W. unfold cwrap. cbn [re im]. rewrite wrap_id; [reflexivity|lia|]. unfold in_range, imin, imax.
  pose proof (Z.pow_pos_nonneg 2 (iwidth t - 1)). pose proof (Z.pow_pos_nonneg 2 (iwidth t)). destruct (isigned t); lia.
Qed.

Section Release.
Variable t : ity.
Hypothesis W : 8 <= iwidth t.
Notation P := (int_ops Release t).
Local Lemma W1 : 1 <= iwidth t. Proof using W. lia. Qed.

Lemma dot_release_acc : forall hs xs a, run (fun acc s => p <- cartesian_mul P (fst s) (snd s) ;; cartesian_add P acc p) (cwrap t a) (combine hs xs) =
  Ok (cwrap t (gauss_add a (cdot hs xs))).
Proof using W.
  pose proof W1 as V.
  induction hs as [|h hs IH]; intros xs a; [cbn [combine]; change (cdot [] xs) with c0; change (run _ ?z []) with (Ok z); do 2 f_equal; cring|].
  destruct xs as [|x xs]; [cbn [combine]; rewrite cdot_nil_r; change (run _ ?z []) with (Ok z); do 2 f_equal; cring|].
  cbn [combine]. rewrite run_cons. cbn [fst snd]. rewrite (cmul_release Release t V eq_refl). cbn [bind].
  rewrite (cadd_release Release t _ (word_int _ _)) by auto. cbn [bind].
  match goal with |- run _ ?b _ = _ => replace b with (cwrap t (gauss_add a (gauss_mul h x))) end.
  - rewrite IH, cdot_cons. do 2 f_equal. cring.
  - rewrite <- cwrap_add_l, <- cwrap_add_r by exact V. reflexivity.
Qed.
Lemma dot_release : forall hs xs, dot P c0 hs xs = Ok (cwrap t (cdot hs xs)).
Proof using W. intros hs xs. unfold dot. rewrite <- (cwrap_0 t W) at 1. rewrite dot_release_acc. reflexivity. Qed.
Lemma fir_release : forall hs xs, fir P c0 hs [] xs = Ok (map (cwrap t) (convolution hs xs)).
Proof using W.
  intros hs xs. rewrite (fir_map _ P c0 hs _ (dot_release hs)). f_equal. unfold convolution. rewrite map_map. apply map_ext_in. intros i Hi.
  apply in_seq in Hi. rewrite app_nil_r, cdot_filt, convolved_filt by lia. reflexivity.
Qed.

Lemma filt_wrap_x : forall hs x i, cwrap t (filt hs (fun i => cwrap t (x i)) i) = cwrap t (filt hs x i).
Proof using W.
  pose proof W1 as V. induction hs as [|h hs IH]; intros x i; [reflexivity|]. cbn [filt].
  rewrite (filt_ext hs _ (fun i => cwrap t (shift x i))) by (intros [|j]; cbn; [symmetry; apply cwrap_0; exact W|reflexivity]).
  rewrite <- cwrap_add_l, cwrap_mul_r, cwrap_add_l, <- cwrap_add_r, IH, cwrap_add_r by exact V. reflexivity.
Qed.
Lemma filt_wrap_h : forall hs x i, cwrap t (filt (map (cwrap t) hs) x i) = cwrap t (filt hs x i).
Proof using W.
  pose proof W1 as V. induction hs as [|h hs IH]; intros x i; [reflexivity|]. cbn [filt map].
  rewrite <- cwrap_add_l, cwrap_mul_l, cwrap_add_l, <- cwrap_add_r, IH, cwrap_add_r by exact V. reflexivity.
Qed.
Lemma nth_wrap : forall l i, nth i (map (cwrap t) l) c0 = cwrap t (nth i l c0).
Proof using W. intros. rewrite <- (cwrap_0 t W) at 1. apply map_nth. Qed.

Lemma list_eq : forall a b : list (Cartesian Z), length a = length b -> (forall i, (i < length a)%nat -> nth i a c0 = nth i b c0) -> a = b.
Proof using. clear. intros a b L H. apply (nth_ext a b c0 c0); assumption. Qed.

Lemma fir_fir : forall g h xs, (ys <- fir P c0 g [] xs ;; fir P c0 h [] ys) = Ok (map (fun i => cwrap t (filt h (filt g (sg xs)) i)) (seq 0 (length xs))).
Proof using W.
  intros g h xs. rewrite fir_release. cbn [bind]. rewrite fir_release. f_equal. apply list_eq.
  - rewrite !map_length, conv_length, map_length, conv_length, seq_length. reflexivity.
  - intros i Hi. rewrite map_length, conv_length, map_length, conv_length in Hi. rewrite nth_wrap, conv_nth by (rewrite map_length, conv_length; exact Hi).
    rewrite nth_indep with (d' := (fun i => cwrap t (filt h (filt g (sg xs)) i)) 0%nat) by (rewrite map_length, seq_length; exact Hi).
    rewrite map_nth with (f := fun i => cwrap t (filt h (filt g (sg xs)) i)), seq_nth by exact Hi. cbn [Nat.add].
    rewrite (filt_past h _ (fun i => cwrap t (filt g (sg xs) i)) (length xs)); [apply filt_wrap_x| |exact Hi].
    intros j Hj. rewrite nth_wrap, conv_nth by exact Hj. reflexivity.
Qed.
Lemma fir_order : forall g h xs, (ys <- fir P c0 g [] xs ;; fir P c0 h [] ys) = (ys <- fir P c0 h [] xs ;; fir P c0 g [] ys).
Proof using W. intros. rewrite !fir_fir. f_equal. apply map_ext. intros i. rewrite filt_comm. reflexivity. Qed.

Lemma filt_tail : forall g hs k, (length g - 1 + length hs <= k)%nat -> filt g (sg hs) k = c0.
Proof using.
  clear. induction g as [|a g IH]; intros hs k H; [reflexivity|]. cbn [length] in H. cbn [filt]. rewrite nth_overflow by lia. rewrite filt_shift.
  destruct k as [|k]; cbn [shift]; [cring|]. destruct g as [|b g]; [cbn; cring|]. rewrite IH by (cbn [length] in *; lia). cring.
Qed.
(** taps as a polynomial *)
Fixpoint padd (a b : list (Cartesian Z)) : list (Cartesian Z) := match a, b with [], b => b | a, [] => a | x :: a, y :: b => gauss_add x y :: padd a b end.
Fixpoint pmul (g h : list (Cartesian Z)) : list (Cartesian Z) := match g with [] => [] | a :: g => padd (map (gauss_mul a) h) (c0 :: pmul g h) end.
Lemma padd_nth : forall a b i, nth i (padd a b) c0 = gauss_add (nth i a c0) (nth i b c0).
Proof using.
  clear. induction a as [|x a IH]; intros b i.
  - cbn [padd]. replace (nth i [] c0) with c0 by (destruct i; reflexivity). cring.
  - destruct b as [|y b]; cbn [padd].
    + replace (nth i [] c0) with c0 by (destruct i; reflexivity). cring.
    + destruct i as [|i]; cbn [nth]; [reflexivity|apply IH].
Qed.
Lemma filt_padd : forall a b x i, filt (padd a b) x i = gauss_add (filt a x i) (filt b x i).
Proof using.
  clear. induction a as [|u a IH]; intros b x i; [cbn [padd filt]; cring|]. destruct b as [|v b]; cbn [padd filt]; [cring|]. rewrite IH. cring.
Qed.
Lemma filt_map : forall c h x i, filt (map (gauss_mul c) h) x i = gauss_mul c (filt h x i).
Proof using. clear. intros c. induction h as [|a h IH]; intros x i; cbn [map filt]; [cring|]. rewrite IH. cring. Qed.
Lemma filt_pmul : forall g h x i, filt (pmul g h) x i = filt g (filt h x) i.
Proof using.
  clear. induction g as [|a g IH]; intros h x i; [reflexivity|]. cbn [pmul]. rewrite filt_padd, filt_map. cbn [filt]. rewrite IH.
  rewrite (filt_ext g _ _ (fun j => filt_shift h x j)). cring.
Qed.
Lemma pmul_nth : forall g h k, nth k (pmul g h) c0 = filt g (sg h) k.
Proof using.
  clear. induction g as [|a g IH]; intros h k; [destruct k; reflexivity|]. cbn [pmul]. rewrite padd_nth. cbn [filt]. f_equal.
  - replace c0 with (gauss_mul a c0) at 1 by cring. apply map_nth.
  - rewrite filt_shift. destruct k as [|k]; [reflexivity|]. cbn [nth shift]. apply IH.
Qed.
Lemma filt_taps : forall a b, (forall k, nth k a c0 = nth k b c0) -> forall x i, filt a x i = filt b x i.
Proof using.
  clear. induction a as [|u a IH]; intros b H x i.
  - symmetry. revert H x i. induction b as [|v b IHb]; intros H x i; [reflexivity|]. cbn [filt]. rewrite <- (H 0%nat : c0 = v), IHb; [cbn [filt]; cring|].
    intros k. rewrite <- (H (S k) : c0 = nth k b c0). destruct k; reflexivity.
  - destruct b as [|v b].
    + cbn [filt]. rewrite (H 0%nat : u = c0), (IH []); [cbn [filt]; cring|]. intros k. rewrite (H (S k) : nth k a c0 = c0). destruct k; reflexivity.
    + cbn [filt]. rewrite (H 0%nat : u = v), (IH b); [reflexivity|]. intros k. exact (H (S k)).
Qed.
Lemma fir_one : forall g h xs, (ys <- fir P c0 g [] xs ;; fir P c0 h [] ys) = (gh <- fir P c0 g [] (h ++ repeat c0 (length g - 1)) ;; fir P c0 gh [] xs).
Proof using W.
  intros g h xs. rewrite fir_fir, fir_release. cbn [bind]. rewrite fir_release. f_equal. unfold convolution at 1. rewrite map_map. apply map_ext. intros i.
  rewrite convolved_filt, filt_wrap_h. f_equal. rewrite filt_comm, <- filt_pmul. apply filt_taps. intros k. rewrite pmul_nth.
  assert (L : length (h ++ repeat c0 (length g - 1)) = (length g - 1 + length h)%nat) by (rewrite app_length, repeat_length; lia).
  assert (N : forall j, nth j (h ++ repeat c0 (length g - 1)) c0 = nth j h c0).
  { intros j. destruct (Nat.lt_ge_cases j (length h)) as [Hj|Hj]; [apply app_nth1; exact Hj|]. rewrite app_nth2 by exact Hj. rewrite (nth_overflow h) by exact Hj.
    generalize (j - length h)%nat. generalize (length g - 1)%nat. induction n as [|n IH]; intros [|q]; cbn; auto. }
  destruct (Nat.lt_ge_cases k (length g - 1 + length h)) as [Hk|Hk].
  - rewrite conv_nth by (rewrite L; exact Hk). apply filt_ext. intros j. symmetry. apply N.
  - rewrite (nth_overflow (convolution _ _)) by (rewrite conv_length, L; exact Hk). apply filt_tail. exact Hk.
Qed.

Lemma add_all_release : forall xs ys, length xs = length ys -> add_all P xs ys = Ok (map (fun i => cwrap t (gauss_add (nth i xs c0) (nth i ys c0))) (seq 0 (length xs))).
Proof using W.
  pose proof W1 as V. induction xs as [|x xs IH]; intros [|y ys] L; try discriminate L; [reflexivity|]. cbn [add_all].
  rewrite (cadd_release Release t _ (word_int _ _)) by auto. cbn [bind]. rewrite IH by (cbn in L; lia). cbn [bind length seq map]. do 2 f_equal.
  rewrite <- seq_shift, map_map. reflexivity.
Qed.
Lemma fir_superposition : forall hs xs ys, length xs = length ys ->
  (s <- add_all P xs ys ;; fir P c0 hs [] s) = (a <- fir P c0 hs [] xs ;; b <- fir P c0 hs [] ys ;; add_all P a b).
Proof using W.
  pose proof W1 as V. intros hs xs ys L. rewrite add_all_release by exact L. cbn [bind]. rewrite !fir_release. cbn [bind].
  rewrite add_all_release by (rewrite !map_length, !conv_length; exact L). f_equal. unfold convolution at 1. rewrite !map_map, map_length, seq_length, map_length, conv_length.
  apply map_ext_in. intros i Hi. apply in_seq in Hi. rewrite convolved_filt, !nth_wrap, !conv_nth by lia.
  rewrite cwrap_add_l, cwrap_add_r by exact V. rewrite <- filt_add, <- (filt_wrap_x hs (fun i => gauss_add _ _)). f_equal.
  apply (filt_past hs _ _ (length xs)); [|lia]. intros j Hj.
  rewrite nth_indep with (d' := (fun i => cwrap t (gauss_add (nth i xs c0) (nth i ys c0))) 0%nat) by (rewrite map_length, seq_length; exact Hj).
  rewrite map_nth with (f := fun i => cwrap t (gauss_add (nth i xs c0) (nth i ys c0))), seq_nth by exact Hj. reflexivity.
Qed.
End Release.

(** ** Debug builds on integers: what returns is exact *)
Lemma dot_debug_acc : forall t, 8 <= iwidth t -> forall hs xs a r,
  run (fun acc s => p <- cartesian_mul (int_ops Debug t) (fst s) (snd s) ;; cartesian_add (int_ops Debug t) acc p) a (combine hs xs) = Ok r -> r = gauss_add a (cdot hs xs).
Proof.
  intros t W. induction hs as [|h hs IH]; intros xs a r H.
  - cbn [combine] in H. change (Ok a = Ok r) in H. injection H as <-. change (cdot [] xs) with c0. cring.
  - destruct xs as [|x xs]; [cbn [combine] in H; change (Ok a = Ok r) in H; injection H as <-; rewrite cdot_nil_r; cring|].
    cbn [combine] in H. rewrite run_cons in H. cbn [fst snd] in H.
    destruct (cartesian_mul (int_ops Debug t) h x) as [p| |] eqn:EM; cbn [bind] in H; try discriminate.
    destruct (cartesian_add (int_ops Debug t) a p) as [b| |] eqn:EA; cbn [bind] in H; try discriminate.
    apply IH in H. subst r. apply cmul_returns in EM; [|lia]. destruct EM as [_ EM]. specialize (EM eq_refl). subst p.
    rewrite (cadd_debug Debug t _ (word_int _ _) eq_refl) in EA. destruct (andb _ _) in EA; [|discriminate]. injection EA as <-.
    rewrite cdot_cons. cring.
Qed.
Lemma fir_length : forall T (P : MixedOps T) z hs xs past ys, fir P z hs past xs = Ok ys -> length ys = length xs.
Proof.
  intros T P z hs. induction xs as [|x xs IH]; intros past ys H; cbn [fir] in H; [injection H as <-; reflexivity|].
  destruct (dot P z hs (x :: past)); cbn [bind] in H; try discriminate. destruct (fir P z hs (x :: past) xs) eqn:E; cbn [bind] in H; try discriminate.
  injection H as <-. cbn [length]. f_equal. eapply IH; eauto.
Qed.
Lemma fir_nth : forall (P : MixedOps Z) z hs xs past ys, fir P z hs past xs = Ok ys -> forall i, (i < length xs)%nat ->
  dot P z hs (rev (firstn (S i) xs) ++ past) = Ok (nth i ys c0).
Proof.
  intros P z hs. induction xs as [|x xs IH]; intros past ys H i Hi; [cbn in Hi; lia|]. cbn [fir] in H.
  destruct (dot P z hs (x :: past)) eqn:D; cbn [bind] in H; try discriminate. destruct (fir P z hs (x :: past) xs) eqn:E; cbn [bind] in H; try discriminate.
  injection H as <-. destruct i as [|i]; [exact D|]. cbn [nth length] in *. rewrite <- (IH _ _ E i) by lia. f_equal.
  change (firstn (S (S i)) (x :: xs)) with (x :: firstn (S i) xs). cbn [rev]. rewrite <- app_assoc. reflexivity.
Qed.
Lemma fir_debug : forall t, 8 <= iwidth t -> forall hs xs ys, fir (int_ops Debug t) c0 hs [] xs = Ok ys -> ys = convolution hs xs.
Proof.
  intros t W hs xs ys H. pose proof (fir_length _ _ _ _ _ _ _ H) as L. apply list_eq; [rewrite conv_length; exact L|]. intros i Hi. rewrite L in Hi.
  pose proof (fir_nth _ _ _ _ _ _ H i Hi) as D. rewrite app_nil_r in D. apply dot_debug_acc in D; [|exact W]. rewrite D, conv_nth, cdot_filt by exact Hi. cring.
Qed.

(** ** Impulse response *)
Section Impulse.
Variables (T : Type) (P : MixedOps T) (zero one : Cartesian T) (V : Cartesian T -> Prop).
Hypothesis M1 : forall h, V h -> cartesian_mul P h one = Ok h.
Hypothesis M0 : forall h, V h -> cartesian_mul P h zero = Ok zero.
Hypothesis A0 : forall h, V h -> cartesian_add P zero h = Ok h.
Hypothesis V0 : V zero.
Lemma dot_impulse : forall hs j, (forall h, In h hs -> V h) -> dot P zero hs (repeat zero j ++ [one]) = Ok (nth j hs zero).
Proof using M1 M0 A0 V0.
  intros hs. unfold dot. induction hs as [|h hs IH]; intros j H; [destruct j; reflexivity|]. destruct j as [|j].
  - cbn [repeat app combine]. rewrite run_cons. cbn [fst snd nth]. rewrite M1 by (apply H; left; reflexivity). cbn [bind]. rewrite A0 by (apply H; left; reflexivity). cbn [bind].
    destruct hs; reflexivity.
  - cbn [repeat app combine]. rewrite run_cons. cbn [fst snd nth]. rewrite M0 by (apply H; left; reflexivity). cbn [bind]. rewrite A0 by exact V0. cbn [bind].
    apply IH. intros u Hu. apply H. right. exact Hu.
Qed.
Lemma fir_impulse_tail : forall hs n j, (forall h, In h hs -> V h) ->
  fir P zero hs (repeat zero j ++ [one]) (repeat zero n) = Ok (map (fun i => nth (S j + i) hs zero) (seq 0 n)).
Proof using M1 M0 A0 V0.
  intros hs. induction n as [|n IH]; intros j H; [reflexivity|]. cbn [repeat fir].
  change (zero :: repeat zero j ++ [one]) with (repeat zero (S j) ++ [one]). rewrite dot_impulse by exact H. cbn [bind]. rewrite IH by exact H. cbn [bind seq map].
  rewrite Nat.add_0_r. do 2 f_equal. rewrite <- seq_shift, map_map. apply map_ext. intros i. f_equal. lia.
Qed.
Lemma fir_impulse : forall hs n, (forall h, In h hs -> V h) -> fir P zero hs [] (one :: repeat zero n) = Ok (map (fun i => nth i hs zero) (seq 0 (S n))).
Proof using M1 M0 A0 V0.
  intros hs n H. cbn [fir]. change [one] with (repeat zero 0 ++ [one]). rewrite dot_impulse by exact H. cbn [bind]. rewrite fir_impulse_tail by exact H. cbn [bind seq map].
  do 2 f_equal. rewrite <- seq_shift, map_map. reflexivity.
Qed.
End Impulse.
Lemma fin_in : forall m t z, in_range t z -> fin m t z = Ok z.
Proof. intros m t z H. unfold fin. apply in_rangeb_spec in H. rewrite H. reflexivity. Qed.
Lemma zero_in : forall t, 8 <= iwidth t -> in_range t 0.
Proof.
  intros t W. unfold in_range, imin, imax. pose proof (Z.pow_pos_nonneg 2 (iwidth t - 1)). pose proof (Z.pow_pos_nonneg 2 (iwidth t)). destruct (isigned t); lia.
Qed.
Lemma impulse_word : forall m t O g u, word_arith m t O -> 8 <= iwidth t -> (forall a b, o_mul O a b = fin m t (g (a * b))) -> g 0 = 0 -> (forall a, g (a * u) = a) ->
  forall hs n, (forall h, In h hs -> cvalid t h) -> fir O c0 hs [] (mkC u 0 :: repeat c0 n) = Ok (map (fun i => nth i hs c0) (seq 0 (S n))).
Proof.
  intros m t O g u HO W HM G0 G1. pose proof (zero_in t W) as Z0. apply (fir_impulse _ O c0 (mkC u 0) (cvalid t)).
  - intros h [H1 H2]. unfold cartesian_mul, ops_mul_cartesian. cbn [re im]. rewrite !HM, !Z.mul_0_r, !G0, !G1, (fin_in _ _ _ H1), (fin_in _ _ _ H2), (fin_in _ _ _ Z0). cbn [bind].
    rewrite (word_sub _ _ _ HO), (word_add _ _ _ HO), Z.sub_0_r, Z.add_0_l, (fin_in _ _ _ H1). cbn [bind]. rewrite (fin_in _ _ _ H2). cbn [bind]. rewrite C_eta. reflexivity.
  - intros h [H1 H2]. unfold cartesian_mul, ops_mul_cartesian. cbn [re im]. rewrite !HM, !Z.mul_0_r, !G0, (fin_in _ _ _ Z0). cbn [bind].
    rewrite (word_sub _ _ _ HO), (word_add _ _ _ HO). cbn [Z.sub Z.add Z.opp]. rewrite (fin_in _ _ _ Z0). reflexivity.
  - intros h [H1 H2]. unfold cartesian_add. cbn [re im]. rewrite !(word_add _ _ _ HO), !Z.add_0_l, (fin_in _ _ _ H1), (fin_in _ _ _ H2). cbn [bind]. rewrite C_eta. reflexivity.
  - split; exact Z0.
Qed.
Lemma impulse_int : forall m t, In t int_types -> forall hs n, (forall h, In h hs -> cvalid t h) ->
  fir (int_ops m t) c0 hs [] (mkC 1 0 :: repeat c0 n) = Ok (map (fun i => nth i hs c0) (seq 0 (S n))).
Proof.
  intros m t Ht. apply (impulse_word m t _ (fun x => x) 1 (word_int _ _)); [|reflexivity|reflexivity|intros; lia].
  unfold int_types in Ht. cbn [In] in Ht. decompose [or] Ht; subst; cbn; lia.
Qed.
Lemma impulse_fixed : forall m f, supported f = true -> forall hs n, (forall h, In h hs -> cvalid (fity f) h) ->
  fir (fixed_ops m f) c0 hs [] (mkC (2 ^ ffrac f) 0 :: repeat c0 n) = Ok (map (fun i => nth i hs c0) (seq 0 (S n))).
Proof.
  intros m f S. destruct (supported_inv f S) as (B1 & B2). apply (impulse_word m (fity f) _ (fun x => x / fone f) (2 ^ ffrac f) (word_fixed _ _ f eq_refl)); [|reflexivity|reflexivity|].
  - cbn. lia.
  - intros a. unfold fone. apply Z.div_mul. pose proof (Z.pow_pos_nonneg 2 (ffrac f)). lia.
Qed.

(** ** Fixed point: one filter, two filters *)
Lemma pre_cdot : forall hs xs, sumZ (map pre (combine hs xs)) = re (cdot hs xs).
Proof. intros. unfold cdot, csum. cbn [re]. rewrite map_map. reflexivity. Qed.
Lemma pim_cdot : forall hs xs, sumZ (map pim (combine hs xs)) = im (cdot hs xs).
Proof. intros. unfold cdot, csum. cbn [im]. rewrite map_map. reflexivity. Qed.
Lemma fone_pos : forall f, supported f = true -> 0 < fone f.
Proof. intros f S. destruct (supported_inv f S). unfold fone. apply Z.pow_pos_nonneg; lia. Qed.
Lemma fir_fixed : forall f, supported f = true -> forall hs xs ys, fir (fixed_ops Debug f) c0 hs [] xs = Ok ys ->
  let q := 2 ^ ffrac f in let n := Z.of_nat (length hs) in length ys = length xs /\ forall i, (i < length xs)%nat ->
  let y := nth i ys c0 in let s := convolved hs xs i in Z.abs (re y * q - re s) <= n * q /\ - 2 * n * q <= im y * q - im s <= 0.
Proof.
  intros f S hs xs ys H q n. pose proof (fone_pos f S) as Q. split; [eapply fir_length; eauto|]. intros i Hi y s.
  pose proof (fir_nth _ _ _ _ _ _ H i Hi) as D. rewrite app_nil_r in D. unfold dot in D. apply (mac_returns f Q) in D. cbv zeta in D. cbn [re im] in D.
  rewrite pre_cdot, pim_cdot, cdot_filt, <- convolved_filt in D by exact Hi. fold s y in D. change (fone f) with q in *.
  assert (L : Z.of_nat (length (combine hs (rev (firstn (Datatypes.S i) xs)))) <= n) by (rewrite combine_length; unfold n; lia).
  set (k := Z.of_nat (length (combine _ _))) in *. clearbody k. destruct D as (D1 & D2 & _). nia.
Qed.
Lemma fir_fixed_release : forall f, supported f = true -> forall hs xs past ys, fir (fixed_ops Debug f) c0 hs past xs = Ok ys -> fir (fixed_ops Release f) c0 hs past xs = Ok ys.
Proof.
  intros f S hs. induction xs as [|x xs IH]; intros past ys H; [exact H|]. cbn [fir] in H |- *.
  destruct (dot (fixed_ops Debug f) c0 hs (x :: past)) as [y| |] eqn:D; cbn [bind] in H; try discriminate.
  destruct (fir (fixed_ops Debug f) c0 hs (x :: past) xs) as [l| |] eqn:E; cbn [bind] in H; try discriminate.
  unfold dot in D. apply (mac_returns f (fone_pos f S)) in D. cbv zeta in D. destruct D as (_ & _ & D). unfold dot. rewrite D. cbn [bind]. rewrite (IH _ _ E). exact H.
Qed.
Lemma tap_sum_nonneg : forall hs, 0 <= tap_sum hs.
Proof. intros hs. unfold tap_sum. induction hs; cbn [map sumZ]; lia. Qed.
Lemma are_tap : forall B, 0 <= B -> forall hs xs, (forall x, In x xs -> Z.abs (re x) <= B /\ Z.abs (im x) <= B) ->
  sumZ (map are (combine hs xs)) <= tap_sum hs * B /\ sumZ (map aim (combine hs xs)) <= tap_sum hs * B.
Proof.
  intros B B0. induction hs as [|h hs IH]; intros xs H; [cbn; lia|]. pose proof (tap_sum_nonneg hs) as T. unfold tap_sum in *. cbn [map sumZ].
  destruct xs as [|x xs]; [cbn [combine map sumZ]; nia|]. cbn [combine map sumZ]. destruct (IH xs) as [I1 I2]; [intros; apply H; right; assumption|].
  destruct (H x (or_introl eq_refl)) as [X1 X2]. unfold are at 1, aim at 1. cbn [fst snd]. rewrite !Z.abs_mul.
  set (r := Z.abs (re h)) in *. set (j := Z.abs (im h)) in *. assert (0 <= r /\ 0 <= j) by (unfold r, j; lia).
  set (u := Z.abs (re x)) in *. set (v := Z.abs (im x)) in *. set (ta := sumZ (map _ hs)) in *. set (s1 := sumZ (map are _)) in *. set (s2 := sumZ (map aim _)) in *.
  clearbody r j u v ta s1 s2. nia.
Qed.
Lemma fir_headroom : forall f, supported f = true -> fsigned f = true -> forall B hs, 0 <= B ->
  let q := 2 ^ ffrac f in tap_sum hs * B + 2 * Z.of_nat (length hs) * q <= (2 ^ (fwidth f - 1) - 1) * q ->
  forall xs, (forall x, In x xs -> Z.abs (re x) <= B /\ Z.abs (im x) <= B) -> exists ys, fir (fixed_ops Debug f) c0 hs [] xs = Ok ys.
Proof.
  intros f S SG B hs B0 q HH.
  assert (G : forall l, (forall x, In x l -> Z.abs (re x) <= B /\ Z.abs (im x) <= B) -> exists y, dot (fixed_ops Debug f) c0 hs l = Ok y).
  { intros l Hl. destruct (are_tap B B0 hs l Hl) as [A1 A2]. destruct (supported_inv f S) as [W _]. pose proof (fone_pos f S) as Q. change (fone f) with q in Q.
    assert (L : Z.of_nat (length (combine hs l)) <= Z.of_nat (length hs)) by (rewrite combine_length; lia).
    apply (mac_total f (fone_pos f S) SG ltac:(lia) (combine hs l) c0 0 0 0); cbn [re im]; change (fone f) with q; try lia; nia. }
  enough (K : forall xs past, (forall x, In x xs -> Z.abs (re x) <= B /\ Z.abs (im x) <= B) -> (forall x, In x past -> Z.abs (re x) <= B /\ Z.abs (im x) <= B) ->
    exists ys, fir (fixed_ops Debug f) c0 hs past xs = Ok ys) by (intros xs Hx; apply K; [exact Hx|intros x []]).
  induction xs as [|x xs IH]; intros past Hx Hp; [exists []; reflexivity|]. cbn [fir].
  assert (Hp' : forall z, In z (x :: past) -> Z.abs (re z) <= B /\ Z.abs (im z) <= B) by (intros z [<-|Hz]; [apply Hx; left; reflexivity|apply Hp; exact Hz]).
  destruct (G _ Hp') as [y ->]. cbn [bind]. destruct (IH (x :: past)) as [l ->]; [intros; apply Hx; right; assumption|exact Hp'|]. exists (y :: l). reflexivity.
Qed.

Definition cscale (k : Z) (z : Cartesian Z) : Cartesian Z := mkC (k * re z) (k * im z).
Lemma cscale_mul : forall k z, cscale k z = gauss_mul (mkC k 0) z. Proof. intros. unfold cscale. cring. Qed.
(** a filter enlarges a disturbance by at most the sum of its taps *)
Lemma filt_bound : forall D, 0 <= D -> forall hs d n, (forall i, (i < n)%nat -> Z.abs (re (d i)) <= D /\ Z.abs (im (d i)) <= D) ->
  forall i, (i < n)%nat -> Z.abs (re (filt hs d i)) <= tap_sum hs * D /\ Z.abs (im (filt hs d i)) <= tap_sum hs * D.
Proof.
  intros D D0. induction hs as [|h hs IH]; intros d n H i Hi; [cbn; lia|]. cbn [filt]. unfold tap_sum in *. cbn [map sumZ].
  destruct (IH (shift d) n) with (i := i) as [I1 I2]; [intros [|j] Hj; cbn; [lia|apply H; lia]|exact Hi|].
  destruct (H i Hi) as [X1 X2]. unfold gauss_add, gauss_mul. cbn [re im].
  assert (K : forall a b x y D', Z.abs x <= D' -> Z.abs y <= D' -> Z.abs (a * x) <= Z.abs a * D' /\ Z.abs (b * y) <= Z.abs b * D').
  { intros a b x y D' Hx Hy. rewrite !Z.abs_mul. split; apply Z.mul_le_mono_nonneg_l; lia. }
  destruct (K (re h) (im h) _ _ D X1 X2) as [K1 K2]. destruct (K (re h) (im h) _ _ D X2 X1) as [K3 K4].
  set (ta := sumZ (map _ hs)) in *. rewrite !Z.mul_add_distr_r. clearbody ta. clear - I1 I2 K1 K2 K3 K4.
  set (f1 := re (filt hs (shift d) i)) in *. set (f2 := im (filt hs (shift d) i)) in *. 
  generalize dependent (re h * re (d i)). generalize dependent (im h * im (d i)). generalize dependent (re h * im (d i)). generalize dependent (im h * re (d i)).
  generalize dependent (Z.abs (re h) * D). generalize dependent (Z.abs (im h) * D). generalize dependent (ta * D). intros. lia.
Qed.
Lemma two_fixed : forall f, supported f = true -> forall g h xs ys zs, fir (fixed_ops Debug f) c0 g [] xs = Ok ys -> fir (fixed_ops Debug f) c0 h [] ys = Ok zs ->
  let q := 2 ^ ffrac f in let n l := Z.of_nat (length l) in length zs = length xs /\ forall i, (i < length xs)%nat ->
  let z := nth i zs c0 in let s := convolved h (convolution g xs) i in let E := (2 * n h * q + 2 * n g * tap_sum h) * q in
  Z.abs (re z * (q * q) - re s) <= E /\ Z.abs (im z * (q * q) - im s) <= E.
Proof.
  intros f S g h xs ys zs H1 H2 q n. destruct (fir_fixed f S _ _ _ H1) as [L1 B1]. destruct (fir_fixed f S _ _ _ H2) as [L2 B2]. cbv zeta in B1, B2. fold q in B1, B2.
  pose proof (fone_pos f S) as Q. change (fone f) with q in Q. split; [congruence|]. intros i Hi z s E.
  specialize (B2 i ltac:(lia)). fold z in B2. fold (n h) in B2.
  set (d := fun j => mkC (q * re (nth j ys c0) - re (filt g (sg xs) j)) (q * im (nth j ys c0) - im (filt g (sg xs) j))).
  assert (N : 0 <= n g /\ 0 <= n h) by (unfold n; lia).
  destruct (filt_bound (2 * n g * q) ltac:(nia) h d (length xs)) with (i := i) as [F1 F2]; [|exact Hi|].
  { intros j Hj. specialize (B1 j Hj). rewrite convolved_filt in B1. fold (n g) in B1. unfold d. cbn [re im]. nia. }
  assert (EQ : cscale q (filt h (sg ys) i) = gauss_add (filt h (filt g (sg xs)) i) (filt h d i)).
  { rewrite cscale_mul, <- filt_scale, <- filt_add. apply filt_ext. intros j. unfold d. cring. }
  assert (SE : s = filt h (filt g (sg xs)) i).
  { unfold s. rewrite convolved_filt. apply (filt_past h _ _ (length xs)); [|exact Hi]. intros j Hj. apply conv_nth. exact Hj. }
  rewrite convolved_filt in B2. rewrite SE.
  pose proof (f_equal re EQ) as ER. pose proof (f_equal im EQ) as EI. unfold cscale, gauss_add in ER, EI. cbn [re im] in ER, EI.
  pose proof (tap_sum_nonneg h) as T0. unfold E.
  set (u := filt h (sg ys) i) in *. set (w := filt h (filt g (sg xs)) i) in *. set (e := filt h d i) in *. set (A := tap_sum h) in *.
  destruct B2 as [B2 B3].
  assert (Z.abs (q * (re z * q - re u)) <= q * (n h * q)) by nia. assert (Z.abs (q * (im z * q - im u)) <= q * (2 * n h * q)) by nia.
  clearbody u w e A. split; lia.
Qed.
Lemma two_orders : forall f, supported f = true -> forall g h xs ys zs ys' zs', fir (fixed_ops Debug f) c0 g [] xs = Ok ys -> fir (fixed_ops Debug f) c0 h [] ys = Ok zs ->
  fir (fixed_ops Debug f) c0 h [] xs = Ok ys' -> fir (fixed_ops Debug f) c0 g [] ys' = Ok zs' ->
  let q := 2 ^ ffrac f in let n l := Z.of_nat (length l) in forall i, (i < length xs)%nat ->
  let z := nth i zs c0 in let z' := nth i zs' c0 in let E := 2 * (n g + n h) * q + 2 * n g * tap_sum h + 2 * n h * tap_sum g in
  Z.abs (re z - re z') * q <= E /\ Z.abs (im z - im z') * q <= E.
Proof.
  intros f S g h xs ys zs ys' zs' H1 H2 H3 H4 q n i Hi z z' E. destruct (two_fixed f S _ _ _ _ _ H1 H2) as [_ B]. destruct (two_fixed f S _ _ _ _ _ H3 H4) as [_ B'].
  specialize (B i Hi). specialize (B' i Hi). cbv zeta in B, B'. fold q z z' in B, B'. fold (n g) (n h) in B, B'.
  pose proof (fone_pos f S) as Q. change (fone f) with q in Q.
  assert (SE : forall a b, convolved a (convolution b xs) i = filt a (filt b (sg xs)) i).
  { intros a b. rewrite convolved_filt. apply (filt_past a _ _ (length xs)); [|exact Hi]. intros j Hj. apply conv_nth. exact Hj. }
  rewrite !SE in *. rewrite (filt_comm g h) in B'. set (s := filt h (filt g (sg xs)) i) in *.
  assert (K : forall a b c e1 e2, Z.abs (a * (q * q) - c) <= e1 * q -> Z.abs (b * (q * q) - c) <= e2 * q -> Z.abs (a - b) * q <= e1 + e2).
  { intros a b c e1 e2 X Y. assert (Z.abs ((a - b) * q * q) <= (e1 + e2) * q) by lia. rewrite Z.abs_mul, (Z.abs_eq q) in H by lia.
    rewrite Z.abs_mul, (Z.abs_eq q) in H by lia. nia. }
  destruct B as [C1 C2], B' as [C1' C2']. split; unfold E.
  - pose proof (K _ _ _ _ _ C1 C1'). lia.
  - pose proof (K _ _ _ _ _ C2 C2'). lia.
Qed.

(** ** Statements over the listed types *)
Lemma int_w : forall t, In t int_types -> 8 <= iwidth t.
Proof. intros t Ht. unfold int_types in Ht. cbn [In] in Ht. decompose [or] Ht; subst; cbn; lia. Qed.
Lemma fir_release_all : forall t, In t int_types -> forall hs xs, fir (int_ops Release t) c0 hs [] xs = Ok (map (cwrap t) (convolution hs xs)).
Proof. intros t Ht. apply fir_release, int_w, Ht. Qed.
Lemma fir_exact_all : forall t, In t int_types -> forall hs xs, (forall z, In z (convolution hs xs) -> cvalid t z) -> fir (int_ops Release t) c0 hs [] xs = Ok (convolution hs xs).
Proof.
  intros t Ht hs xs H. rewrite fir_release_all by exact Ht. f_equal. rewrite <- (map_id (convolution hs xs)) at 2. apply map_ext_in. intros z Hz. destruct (H z Hz).
  unfold cwrap. rewrite !wrap_id by (try assumption; pose proof (int_w t Ht); lia). apply C_eta.
Qed.
Lemma fir_debug_all : forall t, In t int_types -> forall hs xs ys, fir (int_ops Debug t) c0 hs [] xs = Ok ys -> ys = convolution hs xs.
Proof. intros t Ht. apply fir_debug, int_w, Ht. Qed.
Lemma fir_order_all : forall t, In t int_types -> let F := fir (int_ops Release t) (mkC 0 0) in forall g h xs,
  (ys <- F g [] xs ;; F h [] ys) = (ys <- F h [] xs ;; F g [] ys) /\
  (ys <- F g [] xs ;; F h [] ys) = (gh <- F g [] (h ++ repeat (mkC 0 0) (length g - 1)) ;; F gh [] xs).
Proof. intros t Ht F g h xs. split; [apply fir_order|apply fir_one]; apply int_w, Ht. Qed.
Lemma fir_super_all : forall t, In t int_types -> let F := fir (int_ops Release t) (mkC 0 0) in let add := add_all (int_ops Release t) in forall hs xs ys, length xs = length ys ->
  (s <- add xs ys ;; F hs [] s) = (a <- F hs [] xs ;; b <- F hs [] ys ;; add a b).
Proof. intros t Ht. apply fir_superposition, int_w, Ht. Qed.
Lemma fir_fixed_all : forall f, supported f = true -> forall hs xs ys, fir (fixed_ops Debug f) (mkC 0 0) hs [] xs = Ok ys ->
  let q := 2 ^ ffrac f in let n := Z.of_nat (length hs) in length ys = length xs /\
  (forall i, (i < length xs)%nat -> let y := nth i ys (mkC 0 0) in let s := convolved hs xs i in
     Z.abs (re y * q - re s) <= n * q /\ - 2 * n * q <= im y * q - im s <= 0) /\
  fir (fixed_ops Release f) (mkC 0 0) hs [] xs = Ok ys.
Proof. intros f S hs xs ys H q n. destruct (fir_fixed f S _ _ _ H) as [A B]. split; [exact A|]. split; [exact B|]. exact (fir_fixed_release f S _ _ _ _ H). Qed.
