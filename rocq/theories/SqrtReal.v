(** * The NIIRF square-root iteration over the reals: accuracy of one update and contraction. *)

From Coq Require Import ZArith Reals Lia Lra Psatz List.
Import ListNotations.
Open Scope R_scope.

(** region [k/16 <= x < (k+1)/16] and its acceleration factor in millionths *)
Definition betaZ : list (Z * Z) :=
  [(4, 961914); (5, 840332); (6, 782715); (7, 734869); (8, 691406); (9, 654297);
   (10, 622070); (11, 595215); (12, 573731); (13, 556152); (14, 516113); (15, 502930)]%Z.
Definition region (k b : Z) (s : R) : Prop :=
  In (k, b) betaZ /\ 0 <= s /\ IZR k / 16 <= s * s <= IZR (k + 1) / 16.

Lemma sq_le : forall a s, 0 <= a -> 0 <= s -> a * a <= s * s -> a <= s.
Proof. intros a s A S H. destruct (Rle_or_lt a s); auto. nra. Qed.

Definition y0i (s : R) : R := 2 / 3 * (s * s) + 354167 / 1000000.
Definition e0i (s : R) : R := y0i s - s.
Definition bR (b : Z) : R := IZR b / 1000000.
(** the error after one update without rounding *)
Definition err1 (b : Z) (s : R) : R := e0i s * (1 - bR b * (y0i s + s)).

Lemma bern4 : forall s a b, a <= s <= b ->
  0 <= (s - a) * (s - a) * ((s - a) * (s - a)) /\ 0 <= (s - a) * (s - a) * ((s - a) * (b - s)) /\
  0 <= (s - a) * (s - a) * ((b - s) * (b - s)) /\ 0 <= (s - a) * (b - s) * ((b - s) * (b - s)) /\
  0 <= (b - s) * (b - s) * ((b - s) * (b - s)).
Proof. intros. repeat split; repeat apply Rmult_le_pos; lra. Qed.
Ltac bern s a b := destruct (bern4 s a b) as [? [? [? [? ?]]]]; [lra|].

Ltac region_bounds s a b :=
  assert (a <= s) by (apply sq_le; lra);
  assert (s <= b) by (apply sq_le; lra).

Lemma err1_bounds : forall k b s, region k b s ->
  Rabs (err1 b s) <= 995 / 1000000 * s /\ Rabs (err1 b s) <= 702 / 1000000.
Proof.
  intros k b s [I [S [L U]]]. unfold err1, e0i, y0i, bR.
  assert (forall x y, - y <= x <= y -> Rabs x <= y) as AB by (intros; apply Rabs_le; auto).
  repeat (destruct I as [I|I]; [inversion I; subst; clear I|]); try contradiction; cbn in L, U;
  [ region_bounds s (5/10) (5591/10000); bern s (5/10) (5591/10000)
  | region_bounds s (559/1000) (6124/10000); bern s (559/1000) (6124/10000)
  | region_bounds s (6123/10000) (6615/10000); bern s (6123/10000) (6615/10000)
  | region_bounds s (6614/10000) (7072/10000); bern s (6614/10000) (7072/10000)
  | region_bounds s (7071/10000) (7501/10000); bern s (7071/10000) (7501/10000)
  | region_bounds s (75/100) (7906/10000); bern s (75/100) (7906/10000)
  | region_bounds s (7905/10000) (8292/10000); bern s (7905/10000) (8292/10000)
  | region_bounds s (8291/10000) (8661/10000); bern s (8291/10000) (8661/10000)
  | region_bounds s (866/1000) (9014/10000); bern s (866/1000) (9014/10000)
  | region_bounds s (9013/10000) (9355/10000); bern s (9013/10000) (9355/10000)
  | region_bounds s (9354/10000) (9683/10000); bern s (9354/10000) (9683/10000)
  | region_bounds s (9682/10000) 1; bern s (9682/10000) 1 ];
  split; apply AB; split; lra.
Qed.

Lemma region_s : forall k b s, region k b s -> 1 / 2 <= s <= 1.
Proof.
  intros k b s [I [S [L U]]].
  assert (4 <= k <= 15)%Z by (repeat (destruct I as [I|I]; [inversion I; lia|]); contradiction).
  assert (4 <= IZR k) by (apply IZR_le; lia). assert (IZR (k + 1) <= 16) by (apply IZR_le; lia).
  split; apply sq_le; lra.
Qed.
Lemma region_b : forall k b s, region k b s -> 1 / 2 <= bR b <= 962 / 1000.
Proof.
  intros k b s [I _]. unfold bR. repeat (destruct I as [I|I]; [inversion I; subst; lra|]); contradiction.
Qed.
Lemma region_slope : forall k b s, region k b s -> Rabs (1 - 2 * bR b * s) <= 8 / 100.
Proof.
  intros k b s [I [S [L U]]]. unfold bR. apply Rabs_le.
  repeat (destruct I as [I|I]; [inversion I; subst; clear I|]); try contradiction; cbn in L, U;
  [ region_bounds s (5/10) (5591/10000) 
  | region_bounds s (559/1000) (6124/10000)
  | region_bounds s (6123/10000) (6615/10000)
  | region_bounds s (6614/10000) (7072/10000)
  | region_bounds s (7071/10000) (7501/10000)
  | region_bounds s (75/100) (7906/10000)
  | region_bounds s (7905/10000) (8292/10000)
  | region_bounds s (8291/10000) (8661/10000)
  | region_bounds s (866/1000) (9014/10000)
  | region_bounds s (9013/10000) (9355/10000)
  | region_bounds s (9354/10000) (9683/10000)
  | region_bounds s (9682/10000) 1 ]; split; lra.
Qed.
Lemma e0i_bound : forall s, 1 / 2 <= s <= 1 -> Rabs (e0i s) <= 21 / 1000.
Proof. intros s H. unfold e0i, y0i. apply Rabs_le.
  assert (0 <= (s - 1/2) * (1 - s)) by (apply Rmult_le_pos; lra). pose proof (Rle_0_sqr (s - 3/4)) as Q. unfold Rsqr in Q. split; lra. Qed.

Lemma mul_bound : forall x y a b, Rabs x <= a -> Rabs y <= b -> Rabs (x * y) <= a * b.
Proof. intros. rewrite Rabs_mult. apply Rmult_le_compat; auto using Rabs_pos. Qed.
Lemma add_bound : forall x y a b, Rabs x <= a -> Rabs y <= b -> Rabs (x + y) <= a + b.
Proof. intros. eapply Rle_trans; [apply Rabs_triang|]. lra. Qed.
Lemma sub_bound : forall x y a b, Rabs x <= a -> Rabs y <= b -> Rabs (x - y) <= a + b.
Proof. intros. unfold Rminus. apply add_bound; auto. rewrite Rabs_Ropp. auto. Qed.

Lemma slope_bound : forall k b s y bb d db, region k b s -> Rabs (y - s) <= d -> Rabs (bb - bR b) <= db ->
  Rabs (1 - bb * (y + s)) <= 8 / 100 + 962 / 1000 * d + db * (2 + d).
Proof.
  intros k b s y bb d db R Y B. pose proof (region_s _ _ _ R). pose proof (region_b _ _ _ R).
  pose proof (region_slope _ _ _ R).
  replace (1 - bb * (y + s)) with ((1 - 2 * bR b * s) - bR b * (y - s) - (bb - bR b) * (y - s + 2 * s)) by ring.
  apply sub_bound; [apply sub_bound; auto|].
  - apply mul_bound; auto. rewrite Rabs_pos_eq; lra.
  - apply mul_bound; auto. replace (2 + d) with (d + 2) by ring. apply add_bound; auto. rewrite Rabs_pos_eq; lra.
Qed.

(** first update, with rounding errors [d0] in the start value and [db] in the factor *)
Lemma niirf_first : forall k b s y bb d0 db, region k b s ->
  Rabs (y - y0i s) <= d0 -> d0 <= 951 / 10000 -> Rabs (bb - bR b) <= db -> db <= 3126 / 100000 ->
  exists e, (y - s) * (1 - bb * (y + s)) = err1 b s + e /\ Rabs e <= 280 / 1000 * d0 + 47 / 1000 * db /\
  Rabs (y - s) <= 21 / 1000 + d0.
Proof.
  intros k b s y bb d0 db R Y D B DB. pose proof (region_s _ _ _ R) as S. pose proof (region_b _ _ _ R) as Hb.
  pose proof (e0i_bound s S) as E.
  assert (Ys : Rabs (y - s) <= 21 / 1000 + d0).
  { replace (y - s) with (e0i s + (y - y0i s)) by (unfold e0i; ring). apply add_bound; auto. }
  pose proof (slope_bound k b s y bb _ db R Ys B) as Sl.
  exists ((y - y0i s) * (1 - bb * (y + s)) - e0i s * ((bb - bR b) * (y - s + 2 * s) + bR b * (y - y0i s))).
  split; [unfold err1, e0i; ring|]. split; auto.
  assert (0 <= d0) by (pose proof (Rabs_pos (y - y0i s)); lra).
  assert (0 <= db) by (pose proof (Rabs_pos (bb - bR b)); lra).
  assert (M : Rabs (1 - bb * (y + s)) <= 258 / 1000) by (eapply Rle_trans; [exact Sl|]; nra).
  eapply Rle_trans.
  - apply sub_bound; [apply (mul_bound _ _ d0 (258/1000)); auto|].
    apply (mul_bound _ _ (21/1000) (db * (22 / 10) + 962 / 1000 * d0)); auto.
    apply add_bound.
    + apply mul_bound; auto. replace (22 / 10) with (2/10 + 2) by lra. apply add_bound; [lra|]. rewrite Rabs_pos_eq; lra.
    + apply mul_bound; auto. rewrite Rabs_pos_eq; lra.
  - lra.
Qed.

Lemma niirf_next : forall k b s y bb d db, region k b s ->
  Rabs (y - s) <= d -> d <= 921 / 10000 -> Rabs (bb - bR b) <= db -> db <= 3126 / 100000 ->
  Rabs ((y - s) * (1 - bb * (y + s))) <= d / 4.
Proof.
  intros k b s y bb d db R Y D B DB.
  assert (0 <= d) by (pose proof (Rabs_pos (y - s)); lra).
  assert (0 <= db) by (pose proof (Rabs_pos (bb - bR b)); lra).
  replace (d / 4) with (d * (1/4)) by lra. apply mul_bound; auto.
  eapply Rle_trans; [apply (slope_bound k b s y bb d db R Y B)|]. nra.
Qed.
