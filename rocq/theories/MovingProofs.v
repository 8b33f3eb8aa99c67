(** * Proofs for moving sums and integrator-comb filters. *)

From Coq Require Import ZArith Reals Lra Lia List Arith.
From Flocq Require Import Core.Core IEEE754.BinarySingleNaN.
From Verif Require Import Base FloatBase Traits IntImpl FixedPrim FixedImpl FloatImpl Complex Spec SpecMoving Lemmas ComplexProofs ProdProofs.
Import ListNotations.
Open Scope Z_scope.

(** ** Integers: the boxcar is the difference of running sums *)
Fixpoint psumf (x : nat -> Z) (n : nat) : Z := match n with O => 0 | S n => psumf x n + x n end.
Definition integ (x : nat -> Z) (i : nat) : Z := psumf x (S i).
Definition back (r : nat) (x : nat -> Z) (i : nat) : Z := if (r <=? i)%nat then x (i - r)%nat else 0.
Definition diff (r : nat) (x : nat -> Z) (i : nat) : Z := x i - back r x i.

Lemma iter_S : forall A n (f : A -> A) x, Nat.iter (S n) f x = f (Nat.iter n f x).
Proof. reflexivity. Qed.
Lemma iter_S_r : forall A n (f : A -> A) x, Nat.iter (S n) f x = Nat.iter n f (f x).
Proof. intros A n f x. induction n as [|n IH]; [reflexivity|]. rewrite iter_S, IH. reflexivity. Qed.
Lemma sumZ_app : forall a b, sumZ (a ++ b) = sumZ a + sumZ b.
Proof. induction a; intros; cbn; [reflexivity|]. rewrite IHa. lia. Qed.
Lemma psumf_ext : forall x y n, (forall i, x i = y i) -> psumf x n = psumf y n.
Proof. intros x y n H. induction n; cbn; congruence. Qed.
Lemma boxcar_ext : forall r x y, (forall i, x i = y i) -> forall i, boxcar r x i = boxcar r y i.
Proof. intros r x y H i. unfold boxcar. f_equal. apply map_ext. intros j. destruct (j <=? i)%nat; auto. Qed.
Lemma boxcar_psum : forall r x i, boxcar r x i = psumf x (S i) - psumf x (S i - r).
Proof.
  intros r x i. unfold boxcar. induction r as [|r IH].
  - cbn [seq map sumZ]. rewrite Nat.sub_0_r. lia.
  - rewrite seq_S, map_app, sumZ_app, IH. cbn [map sumZ]. rewrite Nat.add_0_l. destruct (r <=? i)%nat eqn:E.
    + apply Nat.leb_le in E. replace (S i - r)%nat with (S (i - r)) by lia. replace (S i - S r)%nat with (i - r)%nat by lia. cbn [psumf]. lia.
    + apply Nat.leb_gt in E. replace (S i - r)%nat with O by lia. replace (S i - S r)%nat with O by lia. lia.
Qed.
Lemma diff_integ : forall r x i, (1 <= r)%nat -> diff r (integ x) i = boxcar r x i.
Proof.
  intros r x i Hr. rewrite boxcar_psum. unfold diff, back, integ. destruct (r <=? i)%nat eqn:E.
  - apply Nat.leb_le in E. replace (S i - r)%nat with (S (i - r)) by lia. reflexivity.
  - apply Nat.leb_gt in E. replace (S i - r)%nat with O by lia. cbn [psumf]. lia.
Qed.
Lemma psum_diff : forall r x n, (1 <= r)%nat -> psumf (diff r x) n = psumf x n - psumf x (n - r).
Proof.
  intros r x n Hr. induction n as [|n IH]; [reflexivity|]. cbn [psumf]. rewrite IH. unfold diff, back. destruct (r <=? n)%nat eqn:E.
  - apply Nat.leb_le in E. replace (S n - r)%nat with (S (n - r)) by lia. cbn [psumf]. lia.
  - apply Nat.leb_gt in E. replace (S n - r)%nat with O by lia. replace (n - r)%nat with O by lia. cbn [psumf]. lia.
Qed.
Lemma integ_diff : forall r x i, (1 <= r)%nat -> integ (diff r x) i = diff r (integ x) i.
Proof. intros r x i Hr. rewrite diff_integ, boxcar_psum by auto. unfold integ. apply psum_diff; auto. Qed.
Lemma diff_ext : forall r x y, (forall i, x i = y i) -> forall i, diff r x i = diff r y i.
Proof. intros r x y H i. unfold diff, back. rewrite H. destruct (r <=? i)%nat; rewrite ?H; reflexivity. Qed.
Lemma integ_diffs : forall r x n i, (1 <= r)%nat -> Nat.iter n (diff r) (integ x) i = integ (Nat.iter n (diff r) x) i.
Proof.
  intros r x n i Hr. revert i. induction n as [|n IH]; intros i; [reflexivity|]. rewrite ?iter_S.
  rewrite (diff_ext r _ _ IH). rewrite <- integ_diff by auto. reflexivity.
Qed.
Lemma diffs_ext : forall r n x y, (forall i, x i = y i) -> forall i, Nat.iter n (diff r) x i = Nat.iter n (diff r) y i.
Proof. intros r n x y H. induction n; rewrite ?iter_S; auto. apply diff_ext; auto. Qed.
Lemma cic_boxcars : forall r n x i, (1 <= r)%nat -> Nat.iter n (diff r) (Nat.iter n integ x) i = boxcars n r x i.
Proof.
  intros r n x i Hr. revert i. induction n as [|n IH]; intros i; [reflexivity|].
  unfold boxcars. rewrite ?iter_S. fold (boxcars n r x).
  rewrite (diff_ext r _ _ (fun j => integ_diffs r _ n j Hr)). rewrite diff_integ by auto. apply boxcar_ext. exact IH.
Qed.

(** decimation *)
Lemma every_seq : forall A (h : nat -> A) r n s c, (1 <= r)%nat -> (c <= r - 1)%nat ->
  every r c (map h (seq s n)) = map (fun k => h (s + c + r * k)%nat) (seq 0 ((n + (r - 1) - c) / r)).
Proof.
  intros A h r n. induction n as [|n IH]; intros s c Hr Hc.
  - cbn [seq map every]. rewrite Nat.div_small by lia. reflexivity.
  - cbn [seq map every]. destruct c as [|c].
    + rewrite IH by lia. replace (S n + (r - 1) - 0)%nat with (n + 1 * r)%nat by lia. replace ((n + 1 * r) / r)%nat with (S (n / r)) by (rewrite Nat.div_add by lia; lia).
      cbn [seq map]. f_equal; [f_equal; lia|]. replace (n + (r - 1) - (r - 1))%nat with n by lia.
      rewrite <- seq_shift, map_map. apply map_ext. intros k. f_equal. lia.
    + rewrite IH by lia. replace (S n + (r - 1) - S c)%nat with (n + (r - 1) - c)%nat by lia. apply map_ext. intros k. f_equal. lia.
Qed.
Lemma diff_every : forall r x k, (1 <= r)%nat ->
  diff 1 (fun k => x (r - 1 + r * k)%nat) k = diff r x (r - 1 + r * k)%nat.
Proof.
  intros r x k Hr. unfold diff, back. destruct k as [|k].
  - rewrite Nat.mul_0_r, Nat.add_0_r. cbn [Nat.leb]. replace (r <=? r - 1)%nat with false by (symmetry; apply Nat.leb_gt; lia). reflexivity.
  - cbn [Nat.leb]. rewrite (proj2 (Nat.leb_le r (r - 1 + r * S k)%nat)) by nia. f_equal. f_equal. replace (S k - 1)%nat with k by lia. nia.
Qed.
Lemma diffs_every : forall r n x k, (1 <= r)%nat ->
  Nat.iter n (diff 1) (fun k => x (r - 1 + r * k)%nat) k = Nat.iter n (diff r) x (r - 1 + r * k)%nat.
Proof.
  intros r n x k Hr. revert k. induction n as [|n IH]; intros k; [reflexivity|]. rewrite ?iter_S.
  rewrite (diff_ext 1 _ _ IH). apply diff_every; auto.
Qed.
Lemma sumZ_bound : forall B l, 0 <= B -> (forall v, In v l -> Z.abs v <= B) -> Z.abs (sumZ l) <= Z.of_nat (length l) * B.
Proof.
  intros B l HB. induction l as [|v l IH]; intros H; cbn [sumZ length]; [lia|].
  pose proof (H v (or_introl eq_refl)). specialize (IH (fun w I => H w (or_intror I))). lia.
Qed.
Lemma boxcars_bound : forall r x B, 0 <= B -> (forall i, Z.abs (x i) <= B) -> forall n i, Z.abs (boxcars n r x i) <= Z.of_nat r ^ Z.of_nat n * B.
Proof.
  intros r x B HB H n. induction n as [|n IH]; intros i.
  - specialize (H i). change (boxcars 0 r x i) with (x i). change (Z.of_nat 0) with 0. rewrite Z.pow_0_r. lia.
  - unfold boxcars in *. rewrite ?iter_S. rewrite Nat2Z.inj_succ, Z.pow_succ_r by lia. unfold boxcar at 1.
    eapply Z.le_trans; [apply (sumZ_bound (Z.of_nat r ^ Z.of_nat n * B))|].
    + apply Z.mul_nonneg_nonneg; auto. apply Z.pow_nonneg. lia.
    + intros v I. apply in_map_iff in I as [j [<- _]]. destruct (j <=? i)%nat; [apply IH|]. change (Z.abs 0) with 0.
      apply Z.mul_nonneg_nonneg; auto. apply Z.pow_nonneg. lia.
    + rewrite map_length, seq_length. lia.
Qed.

(** ** Words that wrap *)
Section Word.
Context (t : ity) (O : MixedOps Z) (HO : word_arith Release t O) (W : 8 <= iwidth t).

Definition wrapped (F G : nat -> Z) (s n : nat) : list (Cartesian Z) := map (fun i => cwrap t (mkC (F i) (G i))) (seq s n).
Definition W' : 0 < iwidth t. Proof. lia. Qed.

Lemma add_w : forall a b c d, cartesian_add O (cwrap t (mkC a b)) (cwrap t (mkC c d)) = Ok (cwrap t (mkC (a + c) (b + d))).
Proof using HO W.
  intros. rewrite (cadd_release Release t O HO ltac:(lia) eq_refl). unfold cwrap. cbn [re im].
  rewrite !wrap_add_l, !wrap_add_r by lia. reflexivity.
Qed.
Lemma sub_w : forall a b c d, cartesian_sub O (cwrap t (mkC a b)) (cwrap t (mkC c d)) = Ok (cwrap t (mkC (a - c) (b - d))).
Proof using HO W.
  intros. rewrite (csub_release Release t O HO ltac:(lia) eq_refl). unfold cwrap. cbn [re im].
  rewrite !wrap_sub_l, !wrap_sub_r by lia. reflexivity.
Qed.
Lemma integrate_w : forall F G n s, integrate O (cwrap t (mkC (psumf F s) (psumf G s))) (wrapped F G s n) = Ok (wrapped (integ F) (integ G) s n).
Proof using HO W.
  intros F G n. induction n as [|n IH]; intros s; [reflexivity|]. unfold wrapped. cbn [seq map integrate]. rewrite add_w. cbn [bind].
  change (psumf F s + F s) with (psumf F (S s)). change (psumf G s + G s) with (psumf G (S s)).
  fold (wrapped F G (S s) n). rewrite IH. reflexivity.
Qed.
Lemma comb_w : forall F G n s, comb O (cwrap t (mkC (back 1 F s) (back 1 G s))) (wrapped F G s n) = Ok (wrapped (diff 1 F) (diff 1 G) s n).
Proof using HO W.
  intros F G n. induction n as [|n IH]; intros s; [reflexivity|]. unfold wrapped. cbn [seq map comb]. rewrite sub_w. cbn [bind].
  fold (wrapped F G (S s) n). specialize (IH (S s)). unfold back in IH at 1 2. cbn [Nat.leb] in IH. replace (S s - 1)%nat with s in IH by lia.
  rewrite IH. reflexivity.
Qed.
Lemma zero_w : mkC 0 0 = cwrap t (mkC 0 0).
Proof using W. unfold cwrap. cbn [re im]. rewrite wrap_id; auto; [lia|]. unfold in_range, imin, imax. pose proof (Z.pow_pos_nonneg 2 (iwidth t - 1)). pose proof (Z.pow_pos_nonneg 2 (iwidth t)). destruct (isigned t); lia. Qed.
Lemma integrates_w : forall k F G n, times k (integrate O (mkC 0 0)) (wrapped F G 0 n) = Ok (wrapped (Nat.iter k integ F) (Nat.iter k integ G) 0 n).
Proof using HO W.
  induction k as [|k IH]; intros F G n; [reflexivity|]. cbn [times]. pose proof (integrate_w F G n 0) as I. cbn [psumf] in I. rewrite <- zero_w in I. rewrite I. cbn [bind].
  rewrite IH. rewrite !iter_S_r. reflexivity.
Qed.
Lemma combs_w : forall k F G n, times k (comb O (mkC 0 0)) (wrapped F G 0 n) = Ok (wrapped (Nat.iter k (diff 1) F) (Nat.iter k (diff 1) G) 0 n).
Proof using HO W.
  induction k as [|k IH]; intros F G n; [reflexivity|]. cbn [times]. pose proof (comb_w F G n 0) as I. unfold back in I. cbn [Nat.leb] in I. rewrite <- zero_w in I. rewrite I. cbn [bind].
  rewrite IH. rewrite !iter_S_r. reflexivity.
Qed.
Lemma cic_release : forall n r xs, (1 <= r)%nat -> (forall z, In z xs -> cvalid t z) ->
  cic O (mkC 0 0) n r xs = Ok (map (fun k => cwrap t (mkC (boxcars n r (fun i => nth i (map re xs) 0) (r - 1 + r * k)) (boxcars n r (fun i => nth i (map im xs) 0) (r - 1 + r * k))))
    (seq 0 (length xs / r))).
Proof using HO W.
  intros n r xs Hr V. set (F := fun i => nth i (map re xs) 0). set (G := fun i => nth i (map im xs) 0).
  assert (E : xs = wrapped F G 0 (length xs)).
  { unfold wrapped, F, G. clear F G. induction xs as [|z xs IH]; [reflexivity|].
    cbn [length seq map nth]. f_equal.
    - unfold cwrap. cbn [re im]. destruct (V z (or_introl eq_refl)). rewrite !wrap_id by (auto; lia). destruct z; reflexivity.
    - rewrite <- seq_shift, map_map. rewrite IH at 1 by (intros; apply V; right; auto). reflexivity. }
  unfold cic. rewrite E at 1. rewrite integrates_w. cbn [bind]. unfold wrapped at 1. rewrite every_seq by lia.
  replace (length xs + (r - 1) - (r - 1))%nat with (length xs) by lia. rewrite Nat.add_0_l.
  pose proof (combs_w n (fun k => Nat.iter n integ F (r - 1 + r * k)%nat) (fun k => Nat.iter n integ G (r - 1 + r * k)%nat) (length xs / r)) as C.
  unfold wrapped at 1 in C. rewrite C. f_equal. unfold wrapped. apply map_ext. intros k. rewrite !diffs_every, !cic_boxcars by auto. reflexivity.
Qed.
End Word.

Lemma cic_exact : forall t O, word_arith Release t O -> 8 <= iwidth t -> forall n r xs B, (1 <= r)%nat -> 0 <= B ->
  (forall z, In z xs -> Z.abs (re z) <= B /\ Z.abs (im z) <= B /\ cvalid t z) ->
  in_range t (- (Z.of_nat r ^ Z.of_nat n * B)) -> in_range t (Z.of_nat r ^ Z.of_nat n * B) ->
  cic O (mkC 0 0) n r xs = Ok (map (fun k => mkC (boxcars n r (fun i => nth i (map re xs) 0) (r - 1 + r * k)) (boxcars n r (fun i => nth i (map im xs) 0) (r - 1 + r * k)))
    (seq 0 (length xs / r))).
Proof.
  intros t O HO W n r xs B Hr HB V L U. rewrite (cic_release t O HO W) by (auto; intros z I; apply V; auto). f_equal. apply map_ext. intros k.
  assert (N : forall g : Cartesian Z -> Z, (forall z, In z xs -> Z.abs (g z) <= B) -> forall i, Z.abs (nth i (map g xs) 0) <= B).
  { intros g Hg i. destruct (nth_in_or_default i (map g xs) 0) as [I| ->]; [|cbn; lia]. apply in_map_iff in I as [z [<- I]]. auto. }
  pose proof (boxcars_bound r _ B HB (N re (fun z I => proj1 (V z I))) n (r - 1 + r * k)) as X.
  pose proof (boxcars_bound r _ B HB (N im (fun z I => proj1 (proj2 (V z I)))) n (r - 1 + r * k)) as Y.
  unfold cwrap. cbn [re im]. unfold in_range in *. rewrite !wrap_id by (try lia; unfold in_range; lia). reflexivity.
Qed.

(** ** Moving sums *)
Lemma shift_one : forall A (q : list A) x, exists o q', q ++ [x] = o :: q' /\ length q' = length q.
Proof.
  intros A q x. destruct q as [|o q]; [exists x, []; auto|]. exists o, (q ++ [x]). cbn [app length]. rewrite app_length. cbn. split; [reflexivity|lia].
Qed.
Lemma moving_cons : forall T (P : MixedOps T) acc x xs q o q', q ++ [x] = o :: q' ->
  moving P acc (combine (x :: xs) (q ++ x :: xs)) = (a <- cartesian_add P acc x ;; b <- cartesian_sub P a o ;; moving P b (combine xs (q' ++ xs))).
Proof.
  intros T P acc x xs q o q' E. replace (q ++ x :: xs) with (o :: (q' ++ xs)) by (change (x :: xs) with ([x] ++ xs); rewrite app_assoc, E; reflexivity).
  cbn [combine]. unfold moving. rewrite run_cons. cbn [fst snd]. destruct (cartesian_add P acc x); reflexivity.
Qed.
Lemma window_S : forall A (q : list A) x xs o q' k n, q ++ [x] = o :: q' -> window (S k) n (q ++ x :: xs) = window k n (q' ++ xs).
Proof. intros A q x xs o q' k n E. unfold window. change (x :: xs) with ([x] ++ xs). rewrite app_assoc, E. reflexivity. Qed.
Lemma csum_app : forall a b, csum (a ++ b) = mkC (re (csum a) + re (csum b)) (im (csum a) + im (csum b)).
Proof. intros. unfold csum. rewrite !map_app, !sumZ_app. reflexivity. Qed.
Lemma csum_shift : forall (q : list (Cartesian Z)) x o q', q ++ [x] = o :: q' ->
  csum q' = mkC (re (csum q) + re x - re o) (im (csum q) + im x - im o) /\ csum (q ++ [x]) = mkC (re (csum q) + re x) (im (csum q) + im x).
Proof.
  intros q x o q' E. split.
  - assert (C : csum (q ++ [x]) = csum (o :: q')) by (rewrite E; reflexivity). rewrite csum_app in C. unfold csum in *. cbn [map sumZ re im] in *. inversion C. f_equal; lia.
  - rewrite csum_app. unfold csum. cbn [map sumZ re im]. f_equal; lia.
Qed.
Lemma window_0 : forall A (q : list A), window 0 (length q) q = q.
Proof. intros. unfold window. cbn [skipn]. apply firstn_all. Qed.

Lemma moving_release : forall t O, word_arith Release t O -> 8 <= iwidth t -> forall xs q, 
  moving O (cwrap t (csum q)) (combine xs (q ++ xs)) = Ok (cwrap t (csum (window (length xs) (length q) (q ++ xs)))).
Proof.
  intros t O HO W xs. induction xs as [|x xs IH]; intros q.
  - rewrite app_nil_r. cbn [length]. rewrite window_0. reflexivity.
  - destruct (shift_one _ q x) as (o & q' & E & L). rewrite (moving_cons _ O _ x xs q o q' E).
    rewrite (cadd_release Release t O HO ltac:(lia) eq_refl). cbn [bind].
    rewrite (csub_release Release t O HO ltac:(lia) eq_refl). cbn [bind re im].
    cbn [length]. rewrite (window_S _ q x xs o q' _ _ E), <- L, <- IH. f_equal. destruct (csum_shift q x o q' E) as [-> _].
    unfold cwrap. cbn [re im]. rewrite !wrap_sub_l by lia.
    assert (X : forall a b c, wrap t (wrap t a + b - c) = wrap t (a + b - c)).
    { intros a b c. replace (wrap t a + b - c) with (wrap t a + (b - c)) by lia. rewrite wrap_add_l by lia. f_equal. lia. }
    rewrite !X. reflexivity.
Qed.

Lemma moving_debug : forall t O, word_arith Debug t O -> 8 <= iwidth t -> forall xs q r,
  moving O (csum q) (combine xs (q ++ xs)) = Ok r <->
  (forall k, (k < length xs)%nat -> cvalid t (csum (window k (S (length q)) (q ++ xs))) /\ cvalid t (csum (window (S k) (length q) (q ++ xs)))) /\
  r = csum (window (length xs) (length q) (q ++ xs)).
Proof.
  intros t O HO W xs. induction xs as [|x xs IH]; intros q r.
  - rewrite app_nil_r. cbn [length]. rewrite window_0. split.
    + intros H. inversion H. split; auto. intros k K. lia.
    + intros [_ ->]. reflexivity.
  - destruct (shift_one _ q x) as (o & q' & E & L). rewrite (moving_cons _ O _ x xs q o q' E).
    destruct (csum_shift q x o q' E) as [S1 S2]. 
    assert (W0 : window 0 (S (length q)) (q ++ x :: xs) = q ++ [x]).
    { unfold window. cbn [skipn]. change (x :: xs) with ([x] ++ xs). rewrite app_assoc. replace (S (length q)) with (length (q ++ [x]) + 0)%nat by (rewrite app_length; cbn; lia).
      rewrite firstn_app_2. cbn [firstn]. apply app_nil_r. }
    assert (W1 : window 1 (length q) (q ++ x :: xs) = q').
    { rewrite (window_S _ q x xs o q' 0 _ E). unfold window. cbn [skipn]. rewrite <- L. replace (length q') with (length q' + 0)%nat by lia.
      rewrite firstn_app_2. cbn [firstn]. apply app_nil_r. }
    assert (V : forall z, in_rangeb t (re z) && in_rangeb t (im z) = true <-> cvalid t z).
    { intros z. unfold cvalid, in_range, in_rangeb. rewrite !andb_true_iff, !Z.leb_le. lia. }
    cbn [length]. rewrite (window_S _ q x xs o q' (length xs) _ E), <- L.
    specialize (IH q' r).
    assert (St : (a <- cartesian_add O (csum q) x ;; b <- cartesian_sub O a o ;; moving O b (combine xs (q' ++ xs))) =
       if in_rangeb t (re (csum (q ++ [x]))) && in_rangeb t (im (csum (q ++ [x]))) then
         if in_rangeb t (re (csum q')) && in_rangeb t (im (csum q')) then moving O (csum q') (combine xs (q' ++ xs)) else Panic POverflow else Panic POverflow).
    { rewrite (cadd_debug Debug t O HO eq_refl). rewrite S2. cbn [re im]. destruct (in_rangeb t (re (csum q) + re x) && _); [|reflexivity]. cbn [bind].
      rewrite (csub_debug Debug t O HO eq_refl). rewrite S1. cbn [re im]. destruct (in_rangeb t (re (csum q) + re x - re o) && _); reflexivity. }
    rewrite St. split.
    + intros H. destruct (in_rangeb t (re (csum (q ++ [x]))) && _) eqn:E1; [|discriminate]. destruct (in_rangeb t (re (csum q')) && _) eqn:E2; [|discriminate].
      apply IH in H as [H ->]. split; auto. intros [|k] K.
      * rewrite L, W0, W1. split; apply V; auto.
      * rewrite !(window_S _ q x xs o q' _ _ E). apply H. lia.
    + intros [H ->]. destruct (H 0%nat ltac:(lia)) as [A B]. rewrite L, W0 in A. rewrite L, W1 in B. apply V in A. apply V in B. rewrite A, B.
      apply IH. split; auto. intros k K. specialize (H (S k) ltac:(lia)). rewrite !(window_S _ q x xs o q' _ _ E) in H. exact H.
Qed.

(** ** Floats *)
From Verif Require Import FloatKit.
Definition sumr (l : list R) : R := fold_right Rplus 0%R l.
Lemma sumr_app : forall a b, sumr (a ++ b) = (sumr a + sumr b)%R.
Proof. unfold sumr. induction a as [|x a IH]; intros b; cbn [app fold_right]; [ring|]. rewrite IH. ring. Qed.
Lemma sumr_bound : forall M l, (forall v, In v l -> (Rabs v <= M)%R) -> (Rabs (sumr l) <= INR (length l) * M)%R.
Proof.
  intros M l. induction l as [|v l IH]; intros H.
  - cbn. rewrite Rabs_R0. lra.
  - change (sumr (v :: l)) with (v + sumr l)%R. change (length (v :: l)) with (S (length l)). rewrite S_INR. pose proof (H v (or_introl eq_refl)). specialize (IH (fun w I => H w (or_intror I))).
    pose proof (Rabs_triang v (sumr l)). lra.
Qed.
Section Float.
Context {p e : Z} {Hp : Prec_gt_0 p} {He : Prec_lt_emax p e}.
Notation float := (binary_float p e).
Notation g K := (bpow radix2 (K - p)).

Lemma mstep : forall (acc x o : float) S E K, 3 - e <= K < e -> is_finite acc = true -> is_finite x = true -> is_finite o = true ->
  (Rabs (B2R acc - S) <= E)%R -> (Rabs (S + B2R x) + E + g K <= bpow radix2 K)%R -> (Rabs (S + B2R x - B2R o) + E + g K <= bpow radix2 K)%R ->
  let a := Bplus mode_NE acc x in let b := Bminus mode_NE a o in
  is_finite b = true /\ (Rabs (B2R b - (S + B2R x - B2R o)) <= E + g K)%R.
Proof using.
  intros acc x o S E K HK Fa Fx Fo HE H1 H2 a b.
  pose proof (bpow_gt_0 radix2 (K - p)) as G. set (h := bpow radix2 (K - p)) in *.
  assert (A1 : (Rabs (B2R acc + B2R x) <= bpow radix2 K)%R).
  { replace (B2R acc + B2R x)%R with ((S + B2R x) + (B2R acc - S))%R by ring. eapply Rle_trans; [apply Rabs_triang|lra]. }
  destruct (plus_r acc x Fa Fx K HK A1) as [F1 R1]. fold a in F1, R1.
  pose proof (rnd_err (B2R acc + B2R x) K A1 (proj1 HK)) as E1. rewrite <- R1 in E1. fold h in E1.
  assert (A2 : (Rabs (B2R a - B2R o) <= bpow radix2 K)%R).
  { replace (B2R a - B2R o)%R with ((S + B2R x - B2R o) + (B2R acc - S) + (B2R a - (B2R acc + B2R x)))%R by ring.
    eapply Rle_trans; [apply Rabs_triang|]. pose proof (Rabs_triang (S + B2R x - B2R o) (B2R acc - S)). lra. }
  destruct (minus_r a o F1 Fo K HK A2) as [F2 R2]. fold b in F2, R2.
  pose proof (rnd_err (B2R a - B2R o) K A2 (proj1 HK)) as E2. rewrite <- R2 in E2. fold h in E2.
  split; auto.
  replace (B2R b - (S + B2R x - B2R o))%R with ((B2R b - (B2R a - B2R o)) + (B2R acc - S) + (B2R a - (B2R acc + B2R x)))%R by ring.
  eapply Rle_trans; [apply Rabs_triang|]. pose proof (Rabs_triang (B2R b - (B2R a - B2R o)) (B2R acc - S)). lra.
Qed.

Definition part (h : Cartesian float -> float) (l : list (Cartesian float)) : R := sumr (map (fun z => B2R (h z)) l).
Lemma part_shift : forall h (q : list (Cartesian float)) x o q', q ++ [x] = o :: q' -> (part h q + B2R (h x) - B2R (h o) = part h q')%R.
Proof using.
  intros h q x o q' E. assert (C : part h (q ++ [x]) = part h (o :: q')) by (rewrite E; reflexivity).
  unfold part in *. rewrite map_app, sumr_app in C. cbn in C. unfold sumr in *. lra.
Qed.
Lemma part_bound : forall h M (l : list (Cartesian float)), (forall z, In z l -> (Rabs (B2R (h z)) <= M)%R) -> (Rabs (part h l) <= INR (length l) * M)%R.
Proof using.
  intros h M l H. unfold part. eapply Rle_trans; [apply (sumr_bound M)|].
  - intros v I. apply in_map_iff in I as [z [<- I]]. auto.
  - rewrite map_length. lra.
Qed.

Lemma moving_float : forall K M, 3 - e <= K < e -> forall xs q (acc : Cartesian float) E,
  (forall z, In z (q ++ xs) -> is_finite (re z) = true /\ is_finite (im z) = true /\ (Rabs (B2R (re z)) <= M)%R /\ (Rabs (B2R (im z)) <= M)%R) ->
  is_finite (re acc) = true -> is_finite (im acc) = true ->
  (Rabs (B2R (re acc) - part re q) <= E)%R -> (Rabs (B2R (im acc) - part im q) <= E)%R ->
  (INR (S (length q)) * M + E + INR (length xs) * bpow radix2 (K - p) <= bpow radix2 K)%R ->
  exists r, moving float_ops acc (combine xs (q ++ xs)) = Ok r /\ is_finite (re r) = true /\ is_finite (im r) = true /\
  let w := window (length xs) (length q) (q ++ xs) in
  (Rabs (B2R (re r) - part re w) <= E + INR (length xs) * bpow radix2 (K - p))%R /\
  (Rabs (B2R (im r) - part im w) <= E + INR (length xs) * bpow radix2 (K - p))%R.
Proof using.
  intros K M HK xs. induction xs as [|x xs IH]; intros q acc E V Fr Fi Er Ei B.
  - exists acc. rewrite app_nil_r. cbn [length]. cbv zeta. rewrite window_0. change (INR 0) with 0%R. repeat split; auto; lra.
  - destruct (shift_one _ q x) as (o & q' & Eq & L). 
    assert (In1 : forall z, In z (q' ++ xs) -> In z (q ++ x :: xs)).
    { intros z I. change (x :: xs) with ([x] ++ xs). rewrite app_assoc, Eq. right. exact I. }
    assert (Io : In o (q ++ x :: xs)). { change (x :: xs) with ([x] ++ xs). rewrite app_assoc, Eq. left. reflexivity. }
    destruct (V o Io) as (For & Foi & Mor & Moi).
    destruct (V x) as (Fxr & Fxi & Mxr & Mxi); [apply in_or_app; right; left; reflexivity|].
    change (length (x :: xs)) with (S (length xs)) in *. rewrite !S_INR in B.
    pose proof (bpow_gt_0 radix2 (K - p)) as G. pose proof (pos_INR (length xs)) as P. pose proof (pos_INR (length q)) as Pq.
    assert (M0 : (0 <= M)%R) by (eapply Rle_trans; [apply Rabs_pos|exact Mxr]).
    assert (Q : forall h : Cartesian float -> float, (forall z, In z (q ++ x :: xs) -> (Rabs (B2R (h z)) <= M)%R) ->
      (Rabs (part h q + B2R (h x)) + E + bpow radix2 (K - p) <= bpow radix2 K)%R /\ (Rabs (part h q + B2R (h x) - B2R (h o)) + E + bpow radix2 (K - p) <= bpow radix2 K)%R).
    { intros h Hh. rewrite (part_shift h q x o q' Eq).
      pose proof (part_bound h M q (fun z I => Hh z (in_or_app _ _ _ (or_introl I)))) as B1.
      pose proof (part_bound h M q' (fun z I => Hh z (In1 z (in_or_app _ _ _ (or_introl I))))) as B2. rewrite L in B2.
      pose proof (Hh x (in_or_app q (x :: xs) x (or_intror (or_introl eq_refl)))) as B3. pose proof (Rabs_triang (part h q) (B2R (h x))) as B4.
      assert (0 <= INR (length xs) * bpow radix2 (K - p))%R by (apply Rmult_le_pos; lra). split; nra. }
    destruct (Q re ltac:(intros z I; apply V; auto)) as [Q1 Q2]. destruct (Q im ltac:(intros z I; apply V; auto)) as [Q3 Q4].
    destruct (mstep (re acc) (re x) (re o) (part re q) E K HK Fr Fxr For Er Q1 Q2) as [F1 R1].
    destruct (mstep (im acc) (im x) (im o) (part im q) E K HK Fi Fxi Foi Ei Q3 Q4) as [F2 R2]. cbv zeta in *.
    rewrite (part_shift re q x o q' Eq) in R1. rewrite (part_shift im q x o q' Eq) in R2.
    rewrite (moving_cons _ float_ops acc x xs q o q' Eq). unfold cartesian_add, cartesian_sub. cbn [o_add o_sub float_ops bind re im].
    destruct (IH q' (mkC (Bminus mode_NE (Bplus mode_NE (re acc) (re x)) (re o)) (Bminus mode_NE (Bplus mode_NE (im acc) (im x)) (im o))) (E + bpow radix2 (K - p))%R)
      as (r & Hr & Fr' & Fi' & Er' & Ei'); cbn [re im]; auto.
    { rewrite L, S_INR. lra. }
    exists r. split; [exact Hr|]. split; [exact Fr'|]. split; [exact Fi'|]. cbv zeta in *. rewrite (window_S _ q x xs o q' _ _ Eq), <- L, S_INR. lra.
Qed.
End Float.

(** the window of f32 ones, once a large sample has passed *)
Lemma moving_drift : let one := float_of_Z 24 128 1 in let big := float_of_Z 24 128 (2 ^ 25) in let z := mkC one one in
  forall n, let xs := mkC big big :: repeat z (S n) in
  moving float_ops z (combine xs ([z] ++ xs)) = Ok (mkC (B754_zero false) (B754_zero false)) /\ window (length xs) 1 ([z] ++ xs) = [z].
Proof.
  intros one big z n. cbv zeta.
  assert (A : Bminus mode_NE (Bplus mode_NE one big) one = big) by (apply B2SF_inj; vm_compute; reflexivity).
  assert (B : Bminus mode_NE (Bplus mode_NE big one) big = B754_zero false) by (apply B2SF_inj; vm_compute; reflexivity).
  assert (C : Bminus mode_NE (Bplus mode_NE (B754_zero false) one) one = B754_zero false) by (apply B2SF_inj; vm_compute; reflexivity).
  clearbody one big. split.
  - rewrite (moving_cons _ float_ops z (mkC big big) _ [z] z [mkC big big] eq_refl). subst z. unfold cartesian_add, cartesian_sub. cbn [o_add o_sub float_ops bind re im].
    rewrite A. cbn [repeat]. rewrite (moving_cons _ float_ops _ (mkC one one) _ [mkC big big] (mkC big big) [mkC one one] eq_refl).
    unfold cartesian_add, cartesian_sub. cbn [o_add o_sub float_ops bind re im]. rewrite B.
    induction n as [|n IH]; [reflexivity|]. cbn [repeat]. rewrite (moving_cons _ float_ops _ (mkC one one) _ [mkC one one] (mkC one one) [mkC one one] eq_refl).
    unfold cartesian_add, cartesian_sub. cbn [o_add o_sub float_ops bind re im]. rewrite C. exact IH.
  - unfold window. cbn [app length]. rewrite repeat_length. replace (S (S n)) with (2 + n)%nat by lia. 
    change (skipn (2 + n) (z :: mkC big big :: repeat z (S n))) with (skipn n (repeat z (S n))).
    replace (S n) with (n + 1)%nat by lia. rewrite repeat_app. rewrite skipn_app, repeat_length, Nat.sub_diag, skipn_all2 by (rewrite repeat_length; lia). reflexivity.
Qed.
