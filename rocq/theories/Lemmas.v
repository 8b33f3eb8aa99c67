(** * Lemmas about outcomes, loops and machine integers. *)

From Coq Require Import ZArith Lia List Bool.
From Verif Require Import Base.
Open Scope Z_scope.

(** ** Ranges, [fin], [wrap] *)

Lemma in_rangeb_spec : forall t z, in_rangeb t z = true <-> in_range t z.
Proof. intros. unfold in_rangeb, in_range. rewrite andb_true_iff, !Z.leb_le. tauto. Qed.

Lemma in_rangeb_false : forall t z, in_rangeb t z = false <-> ~ in_range t z.
Proof. intros. rewrite <- in_rangeb_spec. destruct (in_rangeb t z); intuition congruence. Qed.

Lemma fin_ok : forall m t z, in_range t z -> fin m t z = Ok z.
Proof. intros. unfold fin. apply in_rangeb_spec in H. rewrite H. reflexivity. Qed.

Lemma fin_debug_over : forall t z, ~ in_range t z -> fin Debug t z = Panic POverflow.
Proof. intros. unfold fin. apply in_rangeb_false in H. rewrite H. reflexivity. Qed.

Lemma fin_debug_inv : forall t z r, fin Debug t z = Ok r -> r = z /\ in_range t z.
Proof.
  unfold fin; intros. destruct (in_rangeb t z) eqn:E; inversion H; subst.
  split; auto. now apply in_rangeb_spec.
Qed.

Lemma fin_debug_panic_inv : forall t z p, fin Debug t z = Panic p -> p = POverflow /\ ~ in_range t z.
Proof.
  unfold fin; intros. destruct (in_rangeb t z) eqn:E; inversion H; subst.
  split; auto. now apply in_rangeb_false.
Qed.

Section Wrap.
Variable t : ity.
Hypothesis Hw : 1 <= iwidth t.
Let M := 2 ^ iwidth t.
Let H := 2 ^ (iwidth t - 1).

Lemma pow_split : M = 2 * H.
Proof. unfold M, H. rewrite <- Z.pow_succ_r by lia. f_equal. lia. Qed.
Lemma H_pos : 0 < H.
Proof. unfold H. apply Z.pow_pos_nonneg; lia. Qed.

Lemma in_range_width : imax t - imin t + 1 = M.
Proof. unfold imax, imin. pose proof pow_split. unfold M, H in *. destruct (isigned t); lia. Qed.

Lemma zero_in_range : in_range t 0.
Proof. unfold in_range, imin, imax. pose proof H_pos. pose proof pow_split. unfold M, H in *. destruct (isigned t); lia. Qed.

Lemma wrap_range : forall z, in_range t (wrap t z).
Proof.
  intros. unfold in_range, wrap, imin, imax. fold M H.
  pose proof pow_split. pose proof H_pos.
  destruct (isigned t).
  - pose proof (Z.mod_pos_bound (z + H) M). lia.
  - pose proof (Z.mod_pos_bound z M). lia.
Qed.

(** the defining property of [wrap]: congruent, and in range *)
Lemma wrap_congr : forall z, exists k, wrap t z = z + k * M.
Proof.
  intros. unfold wrap. fold M H. pose proof pow_split. pose proof H_pos.
  destruct (isigned t).
  - exists (- ((z + H) / M)). pose proof (Z.div_mod (z + H) M). lia.
  - exists (- (z / M)). pose proof (Z.div_mod z M). lia.
Qed.

Lemma range_congr_eq : forall a b k, in_range t a -> in_range t b -> a = b + k * M -> a = b.
Proof.
  intros a b k Ha Hb E. pose proof in_range_width. pose proof pow_split. pose proof H_pos.
  unfold in_range in *. assert (k = 0) by nia. lia.
Qed.

Lemma wrap_unique : forall z r k, in_range t r -> r = z + k * M -> wrap t z = r.
Proof.
  intros. destruct (wrap_congr z) as [k' E].
  apply range_congr_eq with (k' - k); auto using wrap_range. lia.
Qed.

Lemma wrap_id : forall z, in_range t z -> wrap t z = z.
Proof. intros. apply wrap_unique with 0; auto. lia. Qed.

Lemma fin_release : forall z, fin Release t z = Ok (wrap t z).
Proof.
  intros. unfold fin. destruct (in_rangeb t z) eqn:E; auto.
  apply in_rangeb_spec in E. rewrite wrap_id; auto.
Qed.

Lemma fin_range : forall m z r, fin m t z = Ok r -> in_range t r.
Proof.
  intros m z r E. destruct m.
  - apply fin_debug_inv in E. destruct E; subst; auto.
  - rewrite fin_release in E. inversion E. apply wrap_range.
Qed.

Lemma fin_congr : forall m z r, fin m t z = Ok r -> exists k, r = z + k * M.
Proof.
  intros m z r E. destruct m.
  - apply fin_debug_inv in E. destruct E; subst. exists 0. lia.
  - rewrite fin_release in E. inversion E. apply wrap_congr.
Qed.

Lemma wrap_eq_iff : forall a b, wrap t a = wrap t b <-> exists k, a = b + k * M.
Proof.
  intros. destruct (wrap_congr a) as [ka Ea], (wrap_congr b) as [kb Eb]. split.
  - intros E. exists (kb - ka). lia.
  - intros [k E]. apply wrap_unique with (kb - k); [apply wrap_range|]. lia.
Qed.

Lemma wrap_wrap : forall z, wrap t (wrap t z) = wrap t z.
Proof. intros. apply wrap_id, wrap_range. Qed.

Ltac wr := apply wrap_eq_iff.

Lemma wrap_add_l : forall a b, wrap t (wrap t a + b) = wrap t (a + b).
Proof. intros. wr. destruct (wrap_congr a) as [k E]. exists k. lia. Qed.
Lemma wrap_add_r : forall a b, wrap t (a + wrap t b) = wrap t (a + b).
Proof. intros. wr. destruct (wrap_congr b) as [k E]. exists k. lia. Qed.
Lemma wrap_sub_l : forall a b, wrap t (wrap t a - b) = wrap t (a - b).
Proof. intros. wr. destruct (wrap_congr a) as [k E]. exists k. lia. Qed.
Lemma wrap_sub_r : forall a b, wrap t (a - wrap t b) = wrap t (a - b).
Proof. intros. wr. destruct (wrap_congr b) as [k E]. exists (-k). lia. Qed.
Lemma wrap_mul_l : forall a b, wrap t (wrap t a * b) = wrap t (a * b).
Proof. intros. wr. destruct (wrap_congr a) as [k E]. exists (k*b). rewrite E. ring. Qed.
Lemma wrap_mul_r : forall a b, wrap t (a * wrap t b) = wrap t (a * b).
Proof. intros. wr. destruct (wrap_congr b) as [k E]. exists (a*k). rewrite E. ring. Qed.
Lemma wrap_opp : forall a, wrap t (- wrap t a) = wrap t (- a).
Proof. intros. wr. destruct (wrap_congr a) as [k E]. exists (-k). lia. Qed.
End Wrap.

(** ** Monad inversion *)
Lemma bind_ok_inv : forall A B (r : res A) (k : A -> res B) b,
  bind r k = Ok b -> exists a, r = Ok a /\ k a = Ok b.
Proof. intros. destruct r; simpl in H; try discriminate. eauto. Qed.

Lemma bind_panic_inv : forall A B (r : res A) (k : A -> res B) p,
  bind r k = Panic p -> r = Panic p \/ exists a, r = Ok a /\ k a = Panic p.
Proof. intros. destruct r; simpl in H; try discriminate; [right; eauto | left; congruence]. Qed.

Lemma bind_ret : forall A (r : res A), bind r Ok = r.
Proof. destruct r; reflexivity. Qed.

Ltac binv H :=
  let a := fresh "v" in let E := fresh "E" in
  apply bind_ok_inv in H; destruct H as [a [E H]].

(** ** Loops *)
Section While.
Context {S : Type}.
Variable cond : S -> res bool.
Variable body : S -> res S.

Lemma while_S : forall n s,
  while (Datatypes.S n) cond body s =
  bind (cond s) (fun c => if c then bind (body s) (while n cond body) else Ok s).
Proof. reflexivity. Qed.

Lemma while_mono : forall n s r, while n cond body s = r -> r <> OutOfFuel ->
  forall k, (n <= k)%nat -> while k cond body s = r.
Proof.
  induction n; intros s r E N k L.
  - simpl in E. congruence.
  - destruct k; [lia|]. rewrite while_S in *. destruct (cond s) as [[]| |]; simpl in *; auto.
    destruct (body s); simpl in *; auto. apply IHn; auto. lia.
Qed.

(** partial correctness *)
Lemma while_inv : forall (I : S -> Prop),
  (forall s s', I s -> cond s = Ok true -> body s = Ok s' -> I s') ->
  forall n s s', I s -> while n cond body s = Ok s' -> I s' /\ cond s' = Ok false.
Proof.
  intros I Hstep. induction n; intros s s' Hs E.
  - discriminate.
  - rewrite while_S in E. destruct (cond s) as [[]| |] eqn:C; simpl in E; try discriminate.
    + destruct (body s) eqn:B; simpl in E; try discriminate. eauto.
    + inversion E; subst. auto.
Qed.

(** total correctness: an invariant and a measure *)
Lemma while_total : forall (I : S -> Prop) (mu : S -> nat),
  (forall s, I s -> (cond s = Ok false) \/
     (cond s = Ok true /\ exists s', body s = Ok s' /\ I s' /\ (mu s' < mu s)%nat)) ->
  forall n s, I s -> (mu s < n)%nat ->
  exists s', while n cond body s = Ok s' /\ I s' /\ cond s' = Ok false.
Proof.
  intros I mu Hstep. induction n; intros s Hs Hn; [lia|].
  rewrite while_S. destruct (Hstep s Hs) as [C|[C [s' [B [Hs' Hmu]]]]].
  - exists s. rewrite C. simpl. auto.
  - rewrite C. simpl. rewrite B. simpl. apply IHn; auto. lia.
Qed.

(** divergence: an invariant that keeps the condition true and the body defined *)
Lemma while_diverges : forall (I : S -> Prop),
  (forall s, I s -> cond s = Ok true /\ exists s', body s = Ok s' /\ I s') ->
  forall n s, I s -> while n cond body s = OutOfFuel.
Proof.
  intros I Hstep. induction n; intros s Hs; auto.
  rewrite while_S. destruct (Hstep s Hs) as [C [s' [B Hs']]].
  rewrite C. simpl. rewrite B. simpl. auto.
Qed.

(** a body/condition that agree give the same loop *)
Lemma while_ext : forall cond' body',
  (forall s, cond s = cond' s) -> (forall s, body s = body' s) ->
  forall n s, while n cond body s = while n cond' body' s.
Proof.
  intros cond' body' Hc Hb. induction n; intros; auto.
  rewrite while_S. simpl. rewrite <- Hc, <- Hb. destruct (cond s) as [[]| |]; simpl; auto.
  destruct (body s); simpl; auto.
Qed.
End While.

Section For.
Context {S : Type}.
Variable body : S -> res S.

Lemma for_0 : forall s, for_n 0 body s = Ok s.
Proof. reflexivity. Qed.

Lemma for_succ : forall n s, for_n (N.succ n) body s = bind (for_n n body s) body.
Proof. intros. unfold for_n. rewrite N.iter_succ. reflexivity. Qed.

Lemma for_succ_l : forall n s, for_n (N.succ n) body s = bind (body s) (for_n n body).
Proof.
  intros n. induction n using N.peano_ind; intros.
  - rewrite for_succ. rewrite for_0. simpl. destruct (body s); reflexivity.
  - rewrite for_succ, IHn. destruct (body s); simpl; auto. rewrite for_succ. reflexivity.
Qed.

(** partial correctness, with the iteration count *)
Lemma for_inv : forall (I : N -> S -> Prop),
  (forall i s s', I i s -> body s = Ok s' -> I (N.succ i) s') ->
  forall n s s', I 0%N s -> for_n n body s = Ok s' -> I n s'.
Proof.
  intros I Hstep n. induction n using N.peano_ind; intros s s' H0 E.
  - rewrite for_0 in E. inversion E; subst; auto.
  - rewrite for_succ in E. binv E. eauto.
Qed.

(** total correctness *)
Lemma for_total : forall (I : N -> S -> Prop) n,
  (forall i s, (i < n)%N -> I i s -> exists s', body s = Ok s' /\ I (N.succ i) s') ->
  forall s, I 0%N s -> exists s', for_n n body s = Ok s' /\ I n s'.
Proof.
  intros I n. induction n using N.peano_ind; intros Hstep s H0.
  - exists s. auto.
  - destruct IHn with (s := s) as [s1 [E1 I1]]; auto.
    { intros. apply Hstep; auto. lia. }
    destruct (Hstep n s1) as [s' [E' I']]; auto; [lia|].
    exists s'. rewrite for_succ, E1. simpl. auto.
Qed.

Lemma for_fixpoint : forall n s, body s = Ok s -> for_n n body s = Ok s.
Proof.
  intros n s E. induction n using N.peano_ind; [reflexivity|].
  rewrite for_succ, IHn. simpl. auto.
Qed.
End For.

Lemma for_ext : forall S (b1 b2 : S -> res S) n s, (forall x, b1 x = b2 x) ->
  for_n n b1 s = for_n n b2 s.
Proof.
  intros S b1 b2 n s E. induction n using N.peano_ind; [reflexivity|].
  rewrite !for_succ, IHn. destruct (for_n n b2 s); simpl; auto.
Qed.

(** ** Outcome predicates *)
Lemma returns_det : forall A (f : nat -> res A) a b, returns f a -> returns f b -> a = b.
Proof.
  intros A f a b [n Ha] [k Hb]. specialize (Ha (n + k)%nat ltac:(lia)).
  specialize (Hb (n + k)%nat ltac:(lia)). congruence.
Qed.
Lemma returns_not_diverges : forall A (f : nat -> res A) a, returns f a -> ~ diverges f.
Proof. intros A f a [n Ha] D. specialize (Ha n ltac:(lia)). rewrite D in Ha. discriminate. Qed.
Lemma returns_not_panics : forall A (f : nat -> res A) a p, returns f a -> ~ panics f p.
Proof.
  intros A f a p [n Ha] [k Hb]. specialize (Ha (n + k)%nat ltac:(lia)).
  specialize (Hb (n + k)%nat ltac:(lia)). congruence.
Qed.
