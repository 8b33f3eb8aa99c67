(** * Proofs about complex numbers over integer and fixed-point components. *)

From Coq Require Import ZArith Lia List Bool.
From Flocq Require Import Core.Core IEEE754.BinarySingleNaN.
From Verif Require Import Base FloatBase Traits Trig IntImpl FixedPrim FixedImpl FloatImpl
  Complex Spec Lemmas ScalarProofs FloatLemmas.
Import ListNotations.
Open Scope Z_scope.

Lemma word_add : forall m t O, word_arith m t O -> forall a b, o_add O a b = fin m t (a + b).
Proof. intros m t O H a b. destruct H; subst; reflexivity. Qed.
Lemma word_sub : forall m t O, word_arith m t O -> forall a b, o_sub O a b = fin m t (a - b).
Proof. intros m t O H a b. destruct H; subst; reflexivity. Qed.
Lemma word_cmp : forall m t O, word_arith m t O -> forall a b, o_cmp O a b = Some (a ?= b).
Proof. intros m t O H a b. destruct H; subst; reflexivity. Qed.

Lemma C_eta : forall A (z : Cartesian A), mkC (re z) (im z) = z.
Proof. destruct z; reflexivity. Qed.

(** ** C29 *)
Section Add.
Variables (m : mode) (t : ity) (O : MixedOps Z).
Hypothesis HO : word_arith m t O.
Hypothesis Hw : 1 <= iwidth t.

Lemma cadd_eq : forall z w, cartesian_add O z w =
  bind (fin m t (re z + re w)) (fun r => bind (fin m t (im z + im w)) (fun i => Ok (mkC r i))).
Proof. intros. unfold cartesian_add. rewrite !(word_add m t O HO). reflexivity. Qed.
Lemma csub_eq : forall z w, cartesian_sub O z w =
  bind (fin m t (re z - re w)) (fun r => bind (fin m t (im z - im w)) (fun i => Ok (mkC r i))).
Proof. intros. unfold cartesian_sub. rewrite !(word_sub m t O HO). reflexivity. Qed.

Lemma cadd_release : m = Release -> forall z w,
  cartesian_add O z w = Ok (mkC (wrap t (re z + re w)) (wrap t (im z + im w))).
Proof. intros Em z w. rewrite cadd_eq, Em, !fin_release by lia. reflexivity. Qed.
Lemma csub_release : m = Release -> forall z w,
  cartesian_sub O z w = Ok (mkC (wrap t (re z - re w)) (wrap t (im z - im w))).
Proof. intros Em z w. rewrite csub_eq, Em, !fin_release by lia. reflexivity. Qed.

Lemma fin2_debug : forall a b,
  bind (fin Debug t a) (fun r => bind (fin Debug t b) (fun i => Ok (mkC r i))) =
  if in_rangeb t a && in_rangeb t b then Ok (mkC a b) else Panic POverflow.
Proof. intros. unfold fin. destruct (in_rangeb t a), (in_rangeb t b); reflexivity. Qed.

Lemma cadd_debug : m = Debug -> forall z w, cartesian_add O z w =
  if in_rangeb t (re z + re w) && in_rangeb t (im z + im w)
  then Ok (mkC (re z + re w) (im z + im w)) else Panic POverflow.
Proof. intros Em z w. rewrite cadd_eq, Em. apply fin2_debug. Qed.
Lemma csub_debug : m = Debug -> forall z w, cartesian_sub O z w =
  if in_rangeb t (re z - re w) && in_rangeb t (im z - im w)
  then Ok (mkC (re z - re w) (im z - im w)) else Panic POverflow.
Proof. intros Em z w. rewrite csub_eq, Em. apply fin2_debug. Qed.

Lemma cadd_comm : forall z w, cartesian_add O z w = cartesian_add O w z.
Proof. intros. rewrite !cadd_eq. rewrite (Z.add_comm (re z)), (Z.add_comm (im z)). reflexivity. Qed.

Lemma cadd_sub : forall z w s, cvalid t z -> cartesian_add O z w = Ok s -> cartesian_sub O s w = Ok z.
Proof.
  intros z w s [Vr Vi] H. rewrite cadd_eq in H. binv H. binv H. inversion H; subst s; clear H.
  rewrite csub_eq. simpl.
  destruct (fin_Ok_inv _ _ _ _ Hw E) as [-> D1], (fin_Ok_inv _ _ _ _ Hw E0) as [-> D2].
  destruct m.
  - destruct (D1 eq_refl) as [_ ->], (D2 eq_refl) as [_ ->].
    replace (re z + re w - re w) with (re z) by lia. replace (im z + im w - im w) with (im z) by lia.
    rewrite !fin_ok by auto. simpl. rewrite C_eta. reflexivity.
  - rewrite !fin_release by lia. cbn [bind]. rewrite !wrap_sub_l by lia.
    replace (re z + re w - re w) with (re z) by lia. replace (im z + im w - im w) with (im z) by lia.
    rewrite !wrap_id by auto. rewrite C_eta. reflexivity.
Qed.

(** ** C30, C31 *)
Lemma cadda_eq : forall z w, cartesian_add_assign O z w =
  bind (fin m t (re z + re w)) (fun r => bind (fin m t (r + im w)) (fun i => Ok (mkC r i))).
Proof.
  intros. unfold cartesian_add_assign. rewrite !(word_add m t O HO).
  destruct (fin m t (re z + re w)); simpl; auto. rewrite (word_add m t O HO). reflexivity.
Qed.
Lemma csuba_eq : forall z w, cartesian_sub_assign O z w =
  bind (fin m t (re z - re w)) (fun r => bind (fin m t (r - im w)) (fun i => Ok (mkC r i))).
Proof.
  intros. unfold cartesian_sub_assign. rewrite !(word_sub m t O HO).
  destruct (fin m t (re z - re w)); simpl; auto. rewrite (word_sub m t O HO). reflexivity.
Qed.

Lemma add_assign_re : forall z w r r', cartesian_add_assign O z w = Ok r ->
  cartesian_add O z w = Ok r' -> re r = re r'.
Proof.
  intros z w r r' H H'. rewrite cadda_eq in H. rewrite cadd_eq in H'.
  binv H. binv H. inversion H; subst. binv H'. binv H'. inversion H'; subst. simpl. congruence.
Qed.
Lemma sub_assign_re : forall z w r r', cartesian_sub_assign O z w = Ok r ->
  cartesian_sub O z w = Ok r' -> re r = re r'.
Proof.
  intros z w r r' H H'. rewrite csuba_eq in H. rewrite csub_eq in H'.
  binv H. binv H. inversion H; subst. binv H'. binv H'. inversion H'; subst. simpl. congruence.
Qed.

Lemma congr_iff_wrap : forall a b, wrap t a = wrap t b <-> congr t a b.
Proof. intros. apply wrap_eq_iff; auto. Qed.

Lemma add_assign_iff : forall z w r r', cartesian_add_assign O z w = Ok r ->
  cartesian_add O z w = Ok r' -> (r = r' <-> congr t (im z) (re z + re w)).
Proof.
  intros z w r r' H H'. pose proof (add_assign_re _ _ _ _ H H') as Er.
  rewrite cadda_eq in H. rewrite cadd_eq in H'.
  binv H. binv H. inversion H; subst. binv H'. binv H'. inversion H'; subst. simpl in Er. subst v1.
  destruct (fin_Ok_inv _ _ _ _ Hw E) as [-> _]. destruct (fin_Ok_inv _ _ _ _ Hw E0) as [-> _].
  destruct (fin_Ok_inv _ _ _ _ Hw E2) as [-> _]. rewrite wrap_add_l by auto.
  transitivity (wrap t (re z + re w + im w) = wrap t (im z + im w)).
  - split; [intros X; inversion X; auto | intros ->; auto].
  - rewrite congr_iff_wrap. unfold congr. split; intros [k Hk]; exists (-k); lia.
Qed.
Lemma sub_assign_iff : forall z w r r', cartesian_sub_assign O z w = Ok r ->
  cartesian_sub O z w = Ok r' -> (r = r' <-> congr t (im z) (re z - re w)).
Proof.
  intros z w r r' H H'. pose proof (sub_assign_re _ _ _ _ H H') as Er.
  rewrite csuba_eq in H. rewrite csub_eq in H'.
  binv H. binv H. inversion H; subst. binv H'. binv H'. inversion H'; subst. simpl in Er. subst v1.
  destruct (fin_Ok_inv _ _ _ _ Hw E) as [-> _]. destruct (fin_Ok_inv _ _ _ _ Hw E0) as [-> _].
  destruct (fin_Ok_inv _ _ _ _ Hw E2) as [-> _]. rewrite wrap_sub_l by auto.
  transitivity (wrap t (re z - re w - im w) = wrap t (im z - im w)).
  - split; [intros X; inversion X; auto | intros ->; auto].
  - rewrite congr_iff_wrap. unfold congr. split; intros [k Hk]; exists (-k); lia.
Qed.

Lemma run_nil : forall A B (step : A -> B -> res A) z, run step z [] = Ok z.
Proof. reflexivity. Qed.
Lemma run_app1 : forall A B (step : A -> B -> res A) z ws w,
  run step z (ws ++ [w]) = bind (run step z ws) (fun z => step z w).
Proof. intros. unfold run. rewrite fold_left_app. reflexivity. Qed.

Lemma sumZ_app : forall a b, sumZ (a ++ b) = sumZ a + sumZ b.
Proof. induction a; intros; simpl; auto. rewrite IHa. lia. Qed.

Lemma last_app1 : forall A (l : list A) x d, last (l ++ [x]) d = x.
Proof. intros. induction l; simpl; auto. destruct (l ++ [x]) eqn:E; auto. destruct l; discriminate. Qed.

(** the exact effect of a history of [+=] *)
Lemma add_assign_history : forall ws z r, cvalid t z ->
  run (cartesian_add_assign O) z ws = Ok r ->
  re r = wrap t (re z + sumZ (map re ws)) /\
  im r = match ws with
         | [] => im z
         | _ => wrap t (re z + sumZ (map re ws) + im (last ws z))
         end.
Proof.
  intros ws. induction ws using rev_ind; intros z r [Vr Vi] H.
  - inversion H; subst. simpl. rewrite Z.add_0_r, wrap_id by auto. auto.
  - rewrite run_app1 in H. binv H. destruct (IHws z v (conj Vr Vi) E) as [Hr _].
    rewrite cadda_eq in H. binv H. binv H. inversion H; subst r; clear H. simpl.
    destruct (fin_Ok_inv _ _ _ _ Hw E0) as [-> _]. destruct (fin_Ok_inv _ _ _ _ Hw E1) as [-> _].
    rewrite Hr, map_app, sumZ_app. simpl. rewrite !wrap_add_l by auto.
    rewrite last_app1.
    replace (re z + sumZ (map re ws) + re x) with (re z + (sumZ (map re ws) + (re x + 0))) by lia.
    split; auto. destruct (ws ++ [x]) eqn:L; [destruct ws; discriminate|]. reflexivity.
Qed.
Lemma add_assign_history_release : m = Release -> forall ws z,
  exists r, run (cartesian_add_assign O) z ws = Ok r.
Proof.
  intros Em ws. induction ws using rev_ind; intros z.
  - exists z. reflexivity.
  - destruct (IHws z) as [r E]. rewrite run_app1, E. cbn [bind].
    eexists. unfold cartesian_add_assign. rewrite (word_add _ _ _ HO), Em, fin_release by lia. cbn [bind].
    rewrite (word_add _ _ _ HO), Em, fin_release by lia. reflexivity.
Qed.
(** a history of [x = x + w] is the componentwise sum *)
Lemma add_history : forall ws z r, cvalid t z ->
  run (cartesian_add O) z ws = Ok r ->
  r = cwrap t (mkC (re z + sumZ (map re ws)) (im z + sumZ (map im ws))).
Proof.
  intros ws. induction ws using rev_ind; intros z r [Vr Vi] H.
  - inversion H; subst. unfold cwrap. simpl. rewrite !Z.add_0_r, !wrap_id by auto. rewrite C_eta. auto.
  - rewrite run_app1 in H. binv H. rewrite (IHws z v (conj Vr Vi) E) in H. clear E.
    rewrite cadd_eq in H. binv H. binv H. inversion H; subst r; clear H. unfold cwrap in *. simpl in *.
    destruct (fin_Ok_inv _ _ _ _ Hw E) as [-> _]. destruct (fin_Ok_inv _ _ _ _ Hw E0) as [-> _].
    rewrite !map_app, !sumZ_app. simpl. rewrite !wrap_add_l by auto. f_equal; f_equal; lia.
Qed.
End Add.

(** ** C32: scalars of integer type *)
Section Scalar.
Variables (m : mode) (t : ity) (O : MixedOps Z).
Hypothesis HO : word_arith m t O.
Hypothesis Hw : 1 <= iwidth t.
Variable T1 : Type.
Variable C : MixedNumConversion T1 Z.
(** [conv s]: the integer value of the converted scalar, before reduction *)
Variable conv : T1 -> Z.
Hypothesis HC : forall s r, mixed_from_num C s = Ok r -> r = wrap t (conv s).

Lemma add_scalar_spec : forall z s r, cvalid t z -> cartesian_add_scalar O C z s = Ok r ->
  re r = wrap t (re z + conv s) /\ im r = im z.
Proof.
  intros z s r _ H. unfold cartesian_add_scalar in H. binv H. binv H. inversion H; subst r. simpl.
  rewrite (word_add _ _ _ HO) in E0. destruct (fin_Ok_inv _ _ _ _ Hw E0) as [-> _].
  rewrite (HC _ _ E), wrap_add_r by auto. auto.
Qed.
Lemma sub_scalar_spec : forall z s r, cvalid t z -> cartesian_sub_scalar O C z s = Ok r ->
  re r = wrap t (re z - conv s) /\ im r = im z.
Proof.
  intros z s r _ H. unfold cartesian_sub_scalar in H. binv H. binv H. inversion H; subst r. simpl.
  rewrite (word_sub _ _ _ HO) in E0. destruct (fin_Ok_inv _ _ _ _ Hw E0) as [-> _].
  rewrite (HC _ _ E), wrap_sub_r by auto. auto.
Qed.
Lemma add_assign_scalar_history : forall ss z r, cvalid t z ->
  run (cartesian_add_assign_scalar O C) z ss = Ok r ->
  re r = wrap t (re z + sumZ (map conv ss)) /\ im r = im z.
Proof.
  intros ss. induction ss using rev_ind; intros z r V H.
  - inversion H; subst. simpl. rewrite Z.add_0_r, wrap_id by (auto; apply V). auto.
  - rewrite run_app1 in H. binv H. destruct (IHss z v V E) as [Hr Hi].
    unfold cartesian_add_assign_scalar in H. binv H. binv H. inversion H; subst r; clear H. simpl.
    rewrite (word_add _ _ _ HO) in E1. destruct (fin_Ok_inv _ _ _ _ Hw E1) as [-> _].
    rewrite (HC _ _ E0), wrap_add_r, Hr, wrap_add_l by auto.
    split; auto. rewrite map_app, sumZ_app. simpl. f_equal. lia.
Qed.
End Scalar.

Lemma add_assign_scalar_agree : forall T1 T2 (O : MixedOps T2) (C : MixedNumConversion T1 T2) z s,
  cartesian_add_assign_scalar O C z s = cartesian_add_scalar O C z s /\
  cartesian_sub_assign_scalar O C z s = cartesian_sub_scalar O C z s.
Proof. split; reflexivity. Qed.

Lemma int_conv_wrap : forall t t2 s r, mixed_from_num (int_conv_int t t2) s = Ok r -> r = wrap t s.
Proof. intros. inversion H. reflexivity. Qed.
Lemma fixed_conv_wrap : forall m f t2 s r, fwf f -> mixed_from_num (fixed_conv_int m f t2) s = Ok r ->
  r = wrap (fity f) (s * fone f).
Proof.
  intros m f t2 s r W H. cbn in H. unfold fx_of_int, fx_fin in H.
  apply fin_Ok_inv in H; [tauto|]. apply fwf_width; auto.
Qed.

(** ** C33: integer products *)
Section MulInt.
Variables (m : mode) (t : ity).
Hypothesis Hw : 1 <= iwidth t.
Let O := int_ops m t.

Lemma cmul_release : m = Release -> forall z w, cartesian_mul O z w = Ok (cwrap t (gauss_mul z w)).
Proof.
  intros E z w. unfold cartesian_mul, ops_mul_cartesian. subst O. rewrite E. cbn [o_mul o_add o_sub int_ops].
  rewrite !fin_release by lia. cbn [bind]. rewrite !fin_release by lia. cbn [bind].
  unfold cwrap, gauss_mul. cbn [re im].
  rewrite wrap_sub_l, wrap_sub_r, wrap_add_l, wrap_add_r by auto. reflexivity.
Qed.

Lemma cmul_returns : forall z w r, cartesian_mul O z w = Ok r ->
  r = cwrap t (gauss_mul z w) /\ (m = Debug -> r = gauss_mul z w).
Proof.
  intros z w r H. unfold cartesian_mul, ops_mul_cartesian in H. unfold O in H. cbn [o_mul o_add o_sub int_ops] in H.
  binv H. binv H. binv H. binv H. binv H. binv H. inversion H; subst r; clear H.
  destruct (fin_Ok_inv _ _ _ _ Hw E) as [-> D1]. destruct (fin_Ok_inv _ _ _ _ Hw E0) as [-> D2].
  destruct (fin_Ok_inv _ _ _ _ Hw E1) as [-> D3]. destruct (fin_Ok_inv _ _ _ _ Hw E2) as [-> D4].
  destruct (fin_Ok_inv _ _ _ _ Hw E3) as [-> D5]. destruct (fin_Ok_inv _ _ _ _ Hw E4) as [-> D6].
  unfold cwrap, gauss_mul. cbn [re im]. split.
  - rewrite wrap_sub_l, wrap_sub_r, wrap_add_l, wrap_add_r by auto. reflexivity.
  - intros M. destruct (D1 M) as [_ R1], (D2 M) as [_ R2], (D3 M) as [_ R3], (D4 M) as [_ R4],
      (D5 M) as [_ R5], (D6 M) as [_ R6]. rewrite R1, R2 in R3. rewrite R4, R5 in R6.
    rewrite R1, R2, R3. rewrite R4, R5, R6. reflexivity.
Qed.
End MulInt.

Lemma fin_comm2 : forall m t a b c d (k : Z -> Z -> res (Cartesian Z)),
  bind (fin m t a) (fun x => bind (fin m t b) (fun y => bind (fin m t c) (fun u => bind (fin m t d) (k u)))) =
  bind (fin m t a) (fun x => bind (fin m t b) (fun y => bind (fin m t c) (fun u => bind (fin m t d) (k u)))).
Proof. reflexivity. Qed.

Lemma fin_swap : forall A m t a b (k : Z -> Z -> res A),
  bind (fin m t a) (fun x => bind (fin m t b) (fun y => k x y)) =
  bind (fin m t b) (fun y => bind (fin m t a) (fun x => k x y)).
Proof. intros. unfold fin. destruct (in_rangeb t a), (in_rangeb t b), m; reflexivity. Qed.

(** commutativity on words: every panic is an overflow panic *)
Lemma cmul_word_comm : forall m t O, word_arith m t O -> forall z w,
  cartesian_mul O z w = cartesian_mul O w z.
Proof.
  intros m t O HO z w. unfold cartesian_mul, ops_mul_cartesian.
  assert (Hm : exists g, forall a b, o_mul O a b = fin m t (g (a * b))).
  { destruct HO; subst. - exists (fun x => x). reflexivity. - exists (fun x => x / fone f). reflexivity. }
  destruct Hm as [g Hm].
  rewrite !Hm. rewrite !(Z.mul_comm (re w)), !(Z.mul_comm (im w)).
  destruct (fin m t (g (re z * re w))); simpl; auto.
  destruct (fin m t (g (im z * im w))); simpl; auto.
  rewrite (word_sub _ _ _ HO). destruct (fin m t (a - a0)); simpl; auto.
  rewrite (fin_swap _ m t (g (re z * im w)) (g (im z * re w))
             (fun x y => bind (o_add O x y) (fun i => Ok (mkC a1 i)))).
  unfold bind at 1. unfold bind at 3.
  destruct (fin m t (g (im z * re w))); auto. simpl.
  destruct (fin m t (g (re z * im w))); auto. simpl.
  rewrite !(word_add _ _ _ HO), (Z.add_comm a2). reflexivity.
Qed.

(** release integer arithmetic is the ring Z[i] modulo 2^w *)
Lemma gauss_assoc : forall x y z, gauss_mul (gauss_mul x y) z = gauss_mul x (gauss_mul y z).
Proof. intros. unfold gauss_mul. simpl. f_equal; ring. Qed.
Lemma gauss_dist : forall x y z, gauss_mul x (gauss_add y z) = gauss_add (gauss_mul x y) (gauss_mul x z).
Proof. intros. unfold gauss_mul, gauss_add. simpl. f_equal; ring. Qed.

Lemma cwrap_mul_l : forall t, 1 <= iwidth t -> forall x y, cwrap t (gauss_mul (cwrap t x) y) = cwrap t (gauss_mul x y).
Proof.
  intros t Hw x y. unfold cwrap, gauss_mul. simpl.
  destruct (wrap_congr t Hw (re x)) as [k1 E1], (wrap_congr t Hw (im x)) as [k2 E2].
  f_equal; apply wrap_eq_iff; auto; rewrite E1, E2.
  - exists (k1 * re y - k2 * im y). ring.
  - exists (k1 * im y + k2 * re y). ring.
Qed.
Lemma cwrap_mul_r : forall t, 1 <= iwidth t -> forall x y, cwrap t (gauss_mul x (cwrap t y)) = cwrap t (gauss_mul x y).
Proof.
  intros t Hw x y. unfold cwrap, gauss_mul. simpl.
  destruct (wrap_congr t Hw (re y)) as [k1 E1], (wrap_congr t Hw (im y)) as [k2 E2].
  f_equal; apply wrap_eq_iff; auto; rewrite E1, E2.
  - exists (re x * k1 - im x * k2). ring.
  - exists (re x * k2 + im x * k1). ring.
Qed.

Lemma cmul_assoc_release : forall t x y z, 1 <= iwidth t ->
  (xy <- cartesian_mul (int_ops Release t) x y ;; cartesian_mul (int_ops Release t) xy z) =
  (yz <- cartesian_mul (int_ops Release t) y z ;; cartesian_mul (int_ops Release t) x yz).
Proof.
  intros t x y z Hw. rewrite !(cmul_release Release t) by auto. cbn [bind]. rewrite !(cmul_release Release t) by auto.
  rewrite cwrap_mul_l, cwrap_mul_r, gauss_assoc by auto. reflexivity.
Qed.
Lemma cmul_dist_release : forall t x y z, 1 <= iwidth t ->
  (s <- cartesian_add (int_ops Release t) y z ;; cartesian_mul (int_ops Release t) x s) =
  (a <- cartesian_mul (int_ops Release t) x y ;; b <- cartesian_mul (int_ops Release t) x z ;;
   cartesian_add (int_ops Release t) a b).
Proof.
  intros t x y z Hw. rewrite !(cmul_release Release t) by auto. cbn [bind].
  rewrite !(cadd_release Release t _ (word_int _ _)) by auto. cbn [bind].
  rewrite (cmul_release Release t) by auto. f_equal.
  change (mkC (wrap t (re y + re z)) (wrap t (im y + im z))) with (cwrap t (gauss_add y z)).
  rewrite cwrap_mul_r, gauss_dist by auto. unfold cwrap, gauss_add. cbn [re im].
  rewrite !wrap_add_l, !wrap_add_r by auto. reflexivity.
Qed.

(** ** C33: fixed-point products *)
Lemma cmul_fixed_debug : forall f z w r, 0 <= ffrac f -> cartesian_mul (fixed_ops Debug f) z w = Ok r ->
  Z.abs (re r * fone f - re (gauss_mul z w)) < fone f /\
  - 2 * fone f < im r * fone f - im (gauss_mul z w) <= 0.
Proof.
  intros f z w r F0 H. pose proof (fone_pos f F0) as P.
  unfold cartesian_mul, ops_mul_cartesian in H. cbn [o_mul o_add o_sub fixed_ops] in H.
  unfold fx_mul, fx_add, fx_sub, fx_fin in H.
  binv H. binv H. binv H. binv H. binv H. binv H. inversion H; subst r; clear H.
  apply fin_debug_inv in E, E0, E1, E2, E3, E4.
  destruct E as [-> _], E0 as [-> _], E1 as [-> _], E2 as [-> _], E3 as [-> _], E4 as [-> _].
  unfold gauss_mul. cbn [re im].
  assert (B : forall p, p - fone f < p / fone f * fone f <= p).
  { intros p. pose proof (Z.div_mod p (fone f)). pose proof (Z.mod_pos_bound p (fone f)). lia. }
  pose proof (B (re z * re w)). pose proof (B (im z * im w)).
  pose proof (B (re z * im w)). pose proof (B (im z * re w)).
  rewrite Z.mul_sub_distr_r, Z.mul_add_distr_r. lia.
Qed.

(** ** C34 *)
Section Conj.
Variables (m : mode) (t : ity).
Hypothesis Hw : 1 <= iwidth t.

Definition word_neg : MixedNumSigned Z := int_signed m t.

Lemma conj_eq : forall z, cartesian_conj word_neg z = bind (fin m t (- im z)) (fun i => Ok (mkC (re z) i)).
Proof. reflexivity. Qed.

Lemma conj_debug : m = Debug -> isigned t = true -> forall z, cvalid t z ->
  (im z <> imin t -> cartesian_conj word_neg z = Ok (mkC (re z) (- im z))) /\
  (im z = imin t -> cartesian_conj word_neg z = Panic POverflow).
Proof.
  intros Em S z [_ Vi]. rewrite conj_eq, Em. unfold in_range, imin, imax in Vi. rewrite S in Vi.
  assert (P : 0 < 2 ^ (iwidth t - 1)) by (apply Z.pow_pos_nonneg; lia). split; intros N.
  - rewrite fin_ok; auto. unfold imin in N. rewrite S in N. unfold in_range, imin, imax. rewrite S. lia.
  - rewrite fin_debug_over; auto. rewrite N. unfold in_range, imin, imax. rewrite S. lia.
Qed.

Lemma conj_involutive : forall z c, cvalid t z -> cartesian_conj word_neg z = Ok c ->
  cartesian_conj word_neg c = Ok z.
Proof.
  intros z c [Vr Vi] H. rewrite conj_eq in H. binv H. inversion H; subst c; clear H.
  rewrite conj_eq. cbn [im re]. destruct (fin_Ok_inv _ _ _ _ Hw E) as [-> D]. destruct m.
  - destruct (D eq_refl) as [_ ->]. rewrite Z.opp_involutive, fin_ok by auto. simpl. rewrite C_eta. auto.
  - rewrite fin_release by auto. rewrite wrap_opp, Z.opp_involutive, wrap_id by auto. simpl. rewrite C_eta. auto.
Qed.
End Conj.

Lemma conj_add_release : forall t z w, 1 <= iwidth t ->
  (s <- cartesian_add (int_ops Release t) z w ;; cartesian_conj (int_signed Release t) s) =
  (a <- cartesian_conj (int_signed Release t) z ;; b <- cartesian_conj (int_signed Release t) w ;;
   cartesian_add (int_ops Release t) a b).
Proof.
  intros t z w Hw. rewrite (cadd_release Release t _ (word_int _ _)) by auto. cbn [bind].
  unfold cartesian_conj. cbn [o_neg int_signed]. rewrite !fin_release by auto. cbn [bind re im].
  rewrite (cadd_release Release t _ (word_int _ _)) by auto. cbn [re im].
  rewrite wrap_opp, wrap_add_l, wrap_add_r by auto. do 2 f_equal. f_equal. lia.
Qed.
Lemma conj_mul_release : forall t z w, 1 <= iwidth t ->
  (s <- cartesian_mul (int_ops Release t) z w ;; cartesian_conj (int_signed Release t) s) =
  (a <- cartesian_conj (int_signed Release t) z ;; b <- cartesian_conj (int_signed Release t) w ;;
   cartesian_mul (int_ops Release t) a b).
Proof.
  intros t z w Hw. rewrite (cmul_release Release t) by auto. cbn [bind].
  unfold cartesian_conj. cbn [o_neg int_signed]. rewrite !fin_release by auto. cbn [bind re im].
  rewrite (cmul_release Release t) by auto. f_equal. unfold cwrap, gauss_mul. cbn [re im].
  destruct (wrap_congr t Hw (- im z)) as [k1 E1], (wrap_congr t Hw (- im w)) as [k2 E2].
  rewrite wrap_opp by auto. rewrite E1, E2. f_equal; apply wrap_eq_iff; auto.
  - exists (im w * (- k1) - im z * k2 + k1 * k2 * 2 ^ iwidth t). ring.
  - exists (- (re z * k2) - k1 * re w). ring.
Qed.
