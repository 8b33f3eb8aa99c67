(** * Combined statements for the complex-number properties. *)

From Coq Require Import ZArith Reals Lia Lra List Bool.
From Flocq Require Import Core.Core IEEE754.BinarySingleNaN.
From Verif Require Import Base FloatBase Traits Trig IntImpl FixedPrim FixedImpl FloatImpl Complex Spec
  Lemmas ScalarProofs FloatLemmas FloatProofs ScalarProofs2 ComplexProofs ComplexProofs2.
Import ListNotations.
Open Scope Z_scope.

Lemma in_rangeb_and : forall t a b, in_rangeb t a && in_rangeb t b = true <-> in_range t a /\ in_range t b.
Proof. intros. rewrite andb_true_iff, !in_rangeb_spec. tauto. Qed.

Lemma add_sub_all : forall m t O, word_arith m t O -> 8 <= iwidth t ->
  forall z w, cvalid t z -> cvalid t w ->
  (m = Release ->
     cartesian_add O z w = Ok (mkC (wrap t (re z + re w)) (wrap t (im z + im w))) /\
     cartesian_sub O z w = Ok (mkC (wrap t (re z - re w)) (wrap t (im z - im w)))) /\
  (m = Debug ->
     (in_range t (re z + re w) /\ in_range t (im z + im w) ->
        cartesian_add O z w = Ok (mkC (re z + re w) (im z + im w))) /\
     (~ (in_range t (re z + re w) /\ in_range t (im z + im w)) ->
        cartesian_add O z w = Panic POverflow) /\
     (in_range t (re z - re w) /\ in_range t (im z - im w) ->
        cartesian_sub O z w = Ok (mkC (re z - re w) (im z - im w))) /\
     (~ (in_range t (re z - re w) /\ in_range t (im z - im w)) ->
        cartesian_sub O z w = Panic POverflow)) /\
  cartesian_add O z w = cartesian_add O w z /\
  (forall s, cartesian_add O z w = Ok s -> cartesian_sub O s w = Ok z) /\
  ops_add O z w = cartesian_add O z w /\ ops_sub O z w = cartesian_sub O z w.
Proof.
  intros m t O HO Hw z w Vz Vw. assert (Hw1 : 1 <= iwidth t) by lia.
  split; [|split; [|split; [|split; [|split]]]].
  - intros Em. split; [eapply cadd_release | eapply csub_release]; eauto.
  - intros Em. rewrite (cadd_debug m t O HO Em), (csub_debug m t O HO Em).
    repeat split; intros H; rewrite <- in_rangeb_and in H;
      [rewrite H | apply not_true_is_false in H; rewrite H | rewrite H | apply not_true_is_false in H; rewrite H]; reflexivity.
  - eapply cadd_comm; eauto.
  - intros s. eapply cadd_sub; eauto.
  - reflexivity.
  - reflexivity.
Qed.

Lemma compound_refuted : forall m,
  cartesian_add (int_ops m i32) (mkC 1 2) (mkC 3 4) = Ok (mkC 4 6) /\
  cartesian_add_assign (int_ops m i32) (mkC 1 2) (mkC 3 4) = Ok (mkC 4 8) /\
  cartesian_sub (int_ops m i32) (mkC 1 2) (mkC 3 4) = Ok (mkC (-2) (-2)) /\
  cartesian_sub_assign (int_ops m i32) (mkC 1 2) (mkC 3 4) = Ok (mkC (-2) (-6)) /\
  cartesian_add_assign (float_ops : MixedOps f64) (mkC (float_of_Z 53 1024 1) (float_of_Z 53 1024 2))
     (mkC (float_of_Z 53 1024 3) (float_of_Z 53 1024 4))
   <> cartesian_add float_ops (mkC (float_of_Z 53 1024 1) (float_of_Z 53 1024 2))
     (mkC (float_of_Z 53 1024 3) (float_of_Z 53 1024 4)).
Proof.
  intros m. do 4 (split; [destruct m; vm_compute; reflexivity|]).
  intros H. apply (f_equal (fun r => match r with Ok z => Bcompare (im z) (float_of_Z 53 1024 6) | _ => None end)) in H.
  vm_compute in H. discriminate.
Qed.

Lemma compound_iff : forall m t O, word_arith m t O -> 8 <= iwidth t ->
  forall z w, cvalid t z -> cvalid t w ->
  (forall r r', cartesian_add_assign O z w = Ok r -> cartesian_add O z w = Ok r' ->
     re r = re r' /\ (r = r' <-> congr t (im z) (re z + re w))) /\
  (forall r r', cartesian_sub_assign O z w = Ok r -> cartesian_sub O z w = Ok r' ->
     re r = re r' /\ (r = r' <-> congr t (im z) (re z - re w))).
Proof.
  intros m t O HO Hw z w _ _. assert (Hw1 : 1 <= iwidth t) by lia.
  split; intros r r' H H'; split.
  - eapply add_assign_re; eauto.
  - eapply add_assign_iff; eauto.
  - eapply sub_assign_re; eauto.
  - eapply sub_assign_iff; eauto.
Qed.

Lemma accumulate_refuted : forall m,
  run (cartesian_add_assign (int_ops m i32)) (mkC 0 0) [mkC 1 1; mkC 1 1; mkC 1 1] = Ok (mkC 3 4) /\
  run (cartesian_add (int_ops m i32)) (mkC 0 0) [mkC 1 1; mkC 1 1; mkC 1 1] = Ok (mkC 3 3).
Proof. intros m. split; destruct m; vm_compute; reflexivity. Qed.

Lemma history_all : forall m t O, word_arith m t O -> 8 <= iwidth t ->
  forall ws z, cvalid t z ->
  (forall r, run (cartesian_add_assign O) z ws = Ok r ->
     re r = wrap t (re z + sumZ (map re ws)) /\
     im r = match ws with
            | [] => im z
            | _ => wrap t (re z + sumZ (map re ws) + im (last ws z))
            end) /\
  (forall r, run (cartesian_add O) z ws = Ok r ->
     r = mkC (wrap t (re z + sumZ (map re ws))) (wrap t (im z + sumZ (map im ws)))) /\
  (m = Release -> exists r, run (cartesian_add_assign O) z ws = Ok r).
Proof.
  intros m t O HO Hw ws z V. assert (Hw1 : 1 <= iwidth t) by lia. split; [|split].
  - intros r H. eapply add_assign_history; eauto.
  - intros r H. exact (add_history m t O HO Hw1 ws z r V H).
  - intros Em. exact (add_assign_history_release m t O HO Hw1 Em ws z).
Qed.

Lemma map_id_Z : forall l : list Z, map (fun s => s) l = l.
Proof. induction l; simpl; congruence. Qed.
Lemma scalar_int_all : forall m t t1, In t int_types -> In t1 int_types ->
  forall z ss r, cvalid t z ->
  run (cartesian_add_assign_scalar (int_ops m t) (int_conv_int t t1)) z ss = Ok r ->
  re r = wrap t (re z + sumZ ss) /\ im r = im z.
Proof.
  intros m t t1 Ht Ht1 z ss r V H. pose proof (int_types_width t Ht).
  rewrite <- (map_id_Z ss) at 1.
  eapply add_assign_scalar_history with (conv := fun s => s); eauto; [constructor | lia |].
  intros. eapply int_conv_wrap; eauto.
Qed.
Lemma sumZ_scale : forall k l, sumZ (map (fun s => s * k) l) = sumZ l * k.
Proof. induction l; simpl; auto. rewrite IHl. ring. Qed.
Lemma scalar_fixed_all : forall m f t1, supported f = true ->
  forall z ss r, cvalid (fity f) z ->
  run (cartesian_add_assign_scalar (fixed_ops m f) (fixed_conv_int m f t1)) z ss = Ok r ->
  re r = wrap (fity f) (re z + sumZ ss * 2 ^ ffrac f) /\ im r = im z.
Proof.
  intros m f t1 Hf z ss r V H. pose proof (supported_fwf f Hf) as W.
  rewrite <- sumZ_scale.
  eapply add_assign_scalar_history with (conv := fun s => s * fone f); eauto; [constructor; auto | apply fwf_width; auto |].
  intros. eapply fixed_conv_wrap; eauto.
Qed.
Lemma scalar_generic_all : forall T1 T2 (O : MixedOps T2) (C : MixedNumConversion T1 T2) z s,
  (forall r, cartesian_add_scalar O C z s = Ok r -> exists c, mixed_from_num C s = Ok c /\
     o_add O (re z) c = Ok (re r) /\ im r = im z) /\
  (forall r, cartesian_sub_scalar O C z s = Ok r -> exists c, mixed_from_num C s = Ok c /\
     o_sub O (re z) c = Ok (re r) /\ im r = im z) /\
  (forall r, cartesian_mul_scalar O C z s = Ok r -> exists c, mixed_from_num C s = Ok c /\
     o_mul O (re z) c = Ok (re r) /\ o_mul O (im z) c = Ok (im r)) /\
  cartesian_add_assign_scalar O C z s = cartesian_add_scalar O C z s /\
  cartesian_sub_assign_scalar O C z s = cartesian_sub_scalar O C z s.
Proof.
  intros T1 T2 O C z s. split; [|split; [|split; [|split; reflexivity]]]; intros r H.
  - unfold cartesian_add_scalar in H. binv H. binv H. inversion H; subst. eauto.
  - unfold cartesian_sub_scalar in H. binv H. binv H. inversion H; subst. eauto.
  - unfold cartesian_mul_scalar in H. binv H. rewrite E in H. binv H. binv H. binv H. inversion E1; subst. inversion H; subst. eauto.
Qed.

Lemma mul_int_all : forall t, In t int_types -> forall z w, cvalid t z -> cvalid t w ->
  cartesian_mul (int_ops Release t) z w =
    Ok (mkC (wrap t (re z * re w - im z * im w)) (wrap t (re z * im w + im z * re w))) /\
  (forall r, cartesian_mul (int_ops Debug t) z w = Ok r ->
     r = mkC (re z * re w - im z * im w) (re z * im w + im z * re w)).
Proof.
  intros t Ht z w _ _. pose proof (int_types_width t Ht). split.
  - apply cmul_release; auto; lia.
  - intros r H1. apply (cmul_returns Debug t ltac:(lia)) in H1. apply H1. auto.
Qed.
Lemma mul_ring_all : forall t, In t int_types -> forall x y z,
  let mul := cartesian_mul (int_ops Release t) in
  let add := cartesian_add (int_ops Release t) in
  mul x y = mul y x /\
  (xy <- mul x y ;; mul xy z) = (yz <- mul y z ;; mul x yz) /\
  (s <- add y z ;; mul x s) = (a <- mul x y ;; b <- mul x z ;; add a b).
Proof.
  intros t Ht x y z mul add. pose proof (int_types_width t Ht). split; [|split].
  - eapply cmul_word_comm. constructor.
  - apply cmul_assoc_release. lia.
  - apply cmul_dist_release. lia.
Qed.

Lemma fin_debug_release : forall t z r, fin Debug t z = Ok r -> fin Release t z = Ok r.
Proof. intros t z r H. unfold fin in *. destruct (in_rangeb t z); auto. discriminate. Qed.

Lemma mul_fixed_all : forall f, supported f = true -> forall z w r, cvalid (fity f) z -> cvalid (fity f) w ->
  cartesian_mul (fixed_ops Debug f) z w = Ok r ->
  (Rabs (fval f (re r) - (fval f (re z) * fval f (re w) - fval f (im z) * fval f (im w))) < ulp f)%R /\
  (-2 * ulp f < fval f (im r) - (fval f (re z) * fval f (im w) + fval f (im z) * fval f (re w)) <= 0)%R /\
  cartesian_mul (fixed_ops Release f) z w = Ok r.
Proof.
  intros f Hf z w r _ _ H. pose proof (supported_fwf f Hf) as W. pose proof (proj1 W) as F0.
  pose proof (fone_IZR_pos f F0) as P.
  destruct (cmul_fixed_debug f z w r F0 H) as [B1 B2].
  assert (Ex : forall a b c d e, (IZR a / IZR (fone f) - (IZR b / IZR (fone f) * (IZR c / IZR (fone f)) + IZR d / IZR (fone f) * (IZR e / IZR (fone f))))%R
            = (IZR (a * fone f - (b * c + d * e)) / (IZR (fone f) * IZR (fone f)))%R).
  { intros. rewrite minus_IZR, plus_IZR, !mult_IZR. field. lra. }
  assert (Ex' : forall a b c d e, (IZR a / IZR (fone f) - (IZR b / IZR (fone f) * (IZR c / IZR (fone f)) - IZR d / IZR (fone f) * (IZR e / IZR (fone f))))%R
            = (IZR (a * fone f - (b * c - d * e)) / (IZR (fone f) * IZR (fone f)))%R).
  { intros. rewrite !minus_IZR, !mult_IZR. field. lra. }
  assert (PP : (0 < IZR (fone f) * IZR (fone f))%R) by (apply Rmult_lt_0_compat; auto).
  assert (Ul : ulp f = (IZR (fone f) / (IZR (fone f) * IZR (fone f)))%R) by (rewrite ulp_eq by auto; field; lra).
  rewrite !fval_eq by auto. rewrite Ex', Ex, Ul. unfold gauss_mul in B1, B2. cbn [re im] in B1, B2.
  split; [|split].
  - unfold Rdiv. rewrite Rabs_mult, (Rabs_pos_eq (/ _)) by (apply Rlt_le, Rinv_0_lt_compat; auto).
    apply Rmult_lt_compat_r; [apply Rinv_0_lt_compat; auto|]. rewrite <- abs_IZR. apply IZR_lt. exact B1.
  - split.
    + replace (-2 * (IZR (fone f) / (IZR (fone f) * IZR (fone f))))%R with (IZR (-2 * fone f) / (IZR (fone f) * IZR (fone f)))%R
        by (rewrite mult_IZR; field; lra).
      apply Rmult_lt_compat_r; [apply Rinv_0_lt_compat; auto|]. apply IZR_lt. lia.
    + apply Rmult_le_reg_r with (IZR (fone f) * IZR (fone f))%R; auto. rewrite Rmult_0_l.
      unfold Rdiv. rewrite Rmult_assoc, Rinv_l, Rmult_1_r by lra. apply IZR_le. lia.
  - unfold cartesian_mul, ops_mul_cartesian in *. cbn [o_mul o_add o_sub fixed_ops] in *.
    unfold fx_mul, fx_add, fx_sub, fx_fin in *.
    binv H. binv H. binv H. binv H. binv H. binv H.
    apply fin_debug_release in E, E0, E1, E2, E3, E4.
    rewrite E. cbn [bind]. rewrite E0. cbn [bind]. rewrite E1. cbn [bind]. rewrite E2. cbn [bind].
    rewrite E3. cbn [bind]. rewrite E4. cbn [bind]. exact H.
Qed.

Lemma conj_word_all : forall m t, 8 <= iwidth t -> isigned t = true ->
  forall z, cvalid t z ->
  (im z <> imin t -> cartesian_conj (int_signed m t) z = Ok (mkC (re z) (- im z))) /\
  (im z = imin t -> cartesian_conj (int_signed m t) z =
     match m with Debug => Panic POverflow | Release => Ok z end) /\
  (forall c, cartesian_conj (int_signed m t) z = Ok c -> cartesian_conj (int_signed m t) c = Ok z).
Proof.
  intros m t Hw S z V. assert (Hw1 : 1 <= iwidth t) by lia.
  assert (P : 0 < 2 ^ (iwidth t - 1)) by (apply Z.pow_pos_nonneg; lia).
  pose proof (half_le_full (iwidth t) Hw1) as HF.
  split; [|split].
  - intros N. destruct V as [_ Vi]. unfold cartesian_conj. cbn. rewrite fin_ok; auto.
    unfold in_range, imin, imax in *. rewrite S in *. lia.
  - intros N. unfold cartesian_conj. cbn. destruct m.
    + rewrite fin_debug_over; auto. rewrite N. unfold in_range, imin, imax in *. rewrite S in *. lia.
    + rewrite fin_release by auto. rewrite N. cbn [bind]. rewrite (wrap_unique t Hw1 (- imin t) (imin t) (-1)).
      * rewrite <- N. rewrite C_eta. reflexivity.
      * unfold in_range, imin, imax. rewrite S. lia.
      * unfold imin. rewrite S. lia.
  - intros c. apply (conj_involutive m t Hw1); auto.
Qed.
Lemma conj_hom_all : forall t, In t int_types -> forall z w,
  let add := cartesian_add (int_ops Release t) in
  let mul := cartesian_mul (int_ops Release t) in
  let conj := cartesian_conj (int_signed Release t) in
  (s <- add z w ;; conj s) = (a <- conj z ;; b <- conj w ;; add a b) /\
  (s <- mul z w ;; conj s) = (a <- conj z ;; b <- conj w ;; mul a b).
Proof.
  intros t Ht z w add mul cj. pose proof (int_types_width t Ht). split.
  - apply conj_add_release. lia.
  - apply conj_mul_release. lia.
Qed.

Section F.
Context {prec emax : Z} {Hp : Prec_gt_0 prec} {He : Prec_lt_emax prec emax}.
Notation float := (binary_float prec emax).
Lemma conj_float_all : forall z w : Cartesian float,
   (c <- cartesian_conj float_signed z ;; cartesian_conj float_signed c) = Ok z /\
   (exists p q, (s <- cartesian_mul float_ops z w ;; cartesian_conj float_signed s) = Ok p /\
     (a <- cartesian_conj float_signed z ;; b <- cartesian_conj float_signed w ;; cartesian_mul float_ops a b) = Ok q /\
     re p = re q /\ same_float (im q) (im p)) /\
   (exists p q, (s <- cartesian_add float_ops z w ;; cartesian_conj float_signed s) = Ok p /\
     (a <- cartesian_conj float_signed z ;; b <- cartesian_conj float_signed w ;; cartesian_add float_ops a b) = Ok q /\
     re p = re q /\ same_float (im q) (im p)).
Proof. intros z w. split; [apply float_conj_involutive|]. split; [apply float_conj_mul | apply float_conj_add]. Qed.

Lemma o_eq_true : forall x y : float, o_eq float_ops x y = true <-> Bcompare x y = Some Eq.
Proof. intros. unfold o_eq. cbn. destruct (Bcompare x y) as [[]|]; split; congruence. Qed.

Lemma polar_mul_float_all : forall p q : Polar float,
  (Bcompare (mag p) (B754_zero false) = Some Eq \/ Bcompare (mag q) (B754_zero false) = Some Eq ->
     polar_mul float_ops p q = Ok (mkP (B754_zero false) (B754_zero false))) /\
  (Bcompare (mag p) (B754_zero false) <> Some Eq -> Bcompare (mag q) (B754_zero false) <> Some Eq ->
     polar_mul float_ops p q = Ok (mkP (Bmult mode_NE (mag p) (mag q)) (Bplus mode_NE (ang p) (ang q)))) /\
  polar_mul float_ops p q = polar_mul float_ops q p /\
  (forall s, polar_mul_real float_ops p s = Ok (mkP (Bmult mode_NE (mag p) s) (ang p))).
Proof.
  intros p q. assert (HZ : o_of_i32 float_ops 0 = Ok (B754_zero false : float)) by reflexivity.
  split; [|split; [|split]].
  - intros H. apply polar_mul_zero; auto. rewrite !o_eq_true. auto.
  - intros H1 H2. rewrite (polar_mul_nonzero float_ops _ HZ); auto.
    + destruct (o_eq float_ops (mag p) (B754_zero false)) eqn:E; auto. apply o_eq_true in E. contradiction.
    + destruct (o_eq float_ops (mag q) (B754_zero false)) eqn:E; auto. apply o_eq_true in E. contradiction.
  - apply (polar_mul_comm float_ops _ HZ); intros; cbn; f_equal; [apply Bmult_comm | apply Bplus_comm].
  - reflexivity.
Qed.
End F.

Lemma div_refuted : forall m,
  cartesian_div (int_ops m i32) (int_powi m i32) (mkC 2 0) (mkC 0 1) = Panic PDivZero /\
  cartesian_div (int_ops m i32) (int_powi m i32) (mkC 4 4) (mkC 2 0) = Ok (mkC 2 0) /\
  cartesian_div (fixed_ops m (mkFty true 32 22)) (fixed_powi m (mkFty true 32 22))
     (mkC (4 * 2 ^ 22) (4 * 2 ^ 22)) (mkC (2 * 2 ^ 22) 0) = Ok (mkC (2 * 2 ^ 22) 0).
Proof. intros m. repeat split; destruct m; vm_compute; reflexivity. Qed.

Lemma div_int_all : forall t, In t int_types -> forall z w, cvalid t z -> cvalid t w ->
  let c := re w in
  (forall r, cartesian_div (int_ops Debug t) (int_powi Debug t) z w = Ok r ->
     re r = Z.quot (re z * c + im z * c) (c * c + c * c) /\
     im r = Z.quot (im z * c - re z * c) (c * c + c * c)) /\
  (im w = re w -> forall r, cartesian_div (int_ops Debug t) (int_powi Debug t) z w = Ok r ->
     re r = Z.quot (re z * re w + im z * im w) (re w * re w + im w * im w) /\
     im r = Z.quot (im z * re w - re z * im w) (re w * re w + im w * im w)) /\
  (forall m, re w = 0 -> cartesian_div (int_ops m t) (int_powi m t) z w = Panic PDivZero) /\
  (forall m d, cartesian_div (int_ops m t) (int_powi m t) z (mkC (re w) d) =
               cartesian_div (int_ops m t) (int_powi m t) z w).
Proof.
  intros t Ht z w Vz Vw c. pose proof (int_types_width t Ht). split; [|split; [|split]].
  - intros r. apply int_cdiv_debug; auto. lia.
  - intros E r Hr. apply int_cdiv_debug in Hr; auto; [|lia]. rewrite E. exact Hr.
  - intros m E. apply int_cdiv_re0; auto. lia.
  - intros. reflexivity.
Qed.
Lemma div_imaginary_fixed : forall m f z w, supported f = true -> re w = 0 ->
  cartesian_div (fixed_ops m f) (fixed_powi m f) z w = Panic PDivZero.
Proof. intros. apply fixed_cdiv_re0; auto. apply supported_fwf; auto. Qed.

Lemma int_zero_eq : forall t, In t int_types -> mixed_zero (int_zero t) = Ok 0.
Proof. intros t H. apply int_types_width in H. cbn. rewrite wrap_id; auto; [lia|]. apply zero_in_range. lia. Qed.

Lemma div_zero_all : 
  (forall m t t1, In t int_types -> In t1 int_types -> forall z,
     cartesian_div_scalar (int_ops m t1) (int_ops m t) (int_conv_int t t1) (int_zero t1) (int_real m t) z 0
       = Ok (mkC (imax t) (imax t))) /\
  (forall m f t1, supported f = true -> In t1 int_types -> forall z,
     cartesian_div_scalar (int_ops m t1) (fixed_ops m f) (fixed_conv_int m f t1) (int_zero t1) (fixed_real m f) z 0
       = Ok (mkC (fmax f) (fmax f))) /\
  (forall m f, supported f = true -> forall z s,
     cartesian_div_scalar float_ops (fixed_ops m f) (fixed_conv_f64 m f) float_zero (fixed_real m f) z (B754_zero s)
       = Ok (mkC (fmax f) (fmax f))) /\
  (forall (z : Cartesian f64) s,
     cartesian_div_scalar float_ops float_ops (float_conv_float 53 1024) float_zero float_real z (B754_zero s : f64)
       = Ok (mkC Bmax_float Bmax_float)) /\
  (forall m f, supported f = true -> forall z,
     ops_div_scalar_cartesian (fixed_ops m f) (fixed_real m f) z 0 = Ok (mkC (fmax f) (fmax f))) /\
  (forall m f, supported f = true -> forall p,
     polar_div_real (fixed_ops m f) (fixed_real m f) (fixed_zero m f) p 0 = Ok (mkP (fmax f) (ang p))).
Proof.
  split; [|split; [|split; [|split; [|split]]]].
  - intros m t t1 Ht Ht1 z. apply (div_scalar_zero _ _ _ _ _ _ (int_real m t)) with (zero := 0); [apply int_zero_eq; auto | reflexivity].
  - intros m f t1 Hf Ht1 z. apply (div_scalar_zero _ _ _ _ _ _ (fixed_real m f)) with (zero := 0); [apply int_zero_eq; auto | reflexivity].
  - intros m f Hf z s. apply (div_scalar_zero _ _ _ _ _ _ (fixed_real m f)) with (zero := B754_zero false); destruct s; reflexivity.
  - intros z s. apply (div_scalar_zero _ _ _ _ _ _ float_real) with (zero := B754_zero false); destruct s; reflexivity.
  - intros m f Hf z. unfold ops_div_scalar_cartesian. cbn [o_of_i32 fixed_ops].
    rewrite fx_of_int_small by (try lia; apply supported_fwf; auto). reflexivity.
  - intros m f Hf p. unfold polar_div_real. cbn [mixed_zero fixed_zero].
    rewrite fx_of_int_small by (try lia; apply supported_fwf; auto). reflexivity.
Qed.

Lemma div_assign_zero_all :
  (forall m t t1, In t int_types -> In t1 int_types -> forall z,
     cartesian_div_assign_scalar (int_ops m t1) (int_ops m t) (int_conv_int t t1) (int_zero t1) (int_real m t) z 0
       = Panic PDivZero) /\
  (forall m f t1, supported f = true -> In t1 int_types -> forall z,
     cartesian_div_assign_scalar (int_ops m t1) (fixed_ops m f) (fixed_conv_int m f t1) (int_zero t1) (fixed_real m f) z 0
       = Panic PDivZero) /\
  (forall m f, supported f = true -> forall z s,
     cartesian_div_assign_scalar float_ops (fixed_ops m f) (fixed_conv_f64 m f) float_zero (fixed_real m f) z (B754_zero s)
       = Panic PDivZero) /\
  (forall (z : Cartesian f64) s,
     cartesian_div_assign_scalar float_ops float_ops (float_conv_float 53 1024) float_zero float_real z (B754_zero s : f64)
       = Ok (mkC (B754_infinity s) (B754_infinity s))).
Proof.
  split; [|split; [|split]].
  - intros m t t1 Ht Ht1 z. eapply div_assign_word_zero; [constructor | apply int_zero_eq; auto|].
    apply (int_zero_eq t Ht).
  - intros m f t1 Hf Ht1 z. eapply div_assign_word_zero; [constructor; reflexivity | apply int_zero_eq; auto|].
    cbn [mixed_from_num fixed_conv_int]. rewrite fx_of_int_small by (try lia; apply supported_fwf; auto). reflexivity.
  - intros m f Hf z s. eapply div_assign_word_zero; [constructor; reflexivity | reflexivity | reflexivity].
  - intros z s. destruct s; vm_compute; reflexivity.
Qed.

Lemma div_scalar_refuted : 
  let f := mkFty true 32 22 in
  (forall m, exists s : f64, (0 < B2R s)%R /\
     cartesian_div_scalar float_ops (fixed_ops m f) (fixed_conv_f64 m f) float_zero (fixed_real m f) (mkC 1 1) s = Panic PDivZero) /\
  cartesian_div_scalar (int_ops Release i32) (fixed_ops Release f) (fixed_conv_int Release f i32) (int_zero i32) (fixed_real Release f) (mkC 1 1) 1024
     = Panic PDivZero.
Proof.
  intros f. split.
  - intros m. exists (float_of_scaled 53 1024 1 (-40)). split.
    + assert (E : B2SF (float_of_scaled 53 1024 1 (-40)) = SpecFloat.S754_finite false 4503599627370496 (-92)) by (vm_compute; reflexivity).
      destruct (float_of_scaled 53 1024 1 (-40)); try discriminate. simpl in E. inversion E; subst. simpl. apply F2R_gt_0. simpl. lia.
    + destruct m; vm_compute; reflexivity.
  - vm_compute. reflexivity.
Qed.

Lemma div_scalar_partial_all :
  (forall m t O, word_arith m t O ->
   forall T1 (O1 : MixedOps T1) C Z1 R z s zero,
   mixed_zero Z1 = Ok zero -> mixed_from_num C s <> Panic PDivZero ->
   (cartesian_div_scalar O1 O C Z1 R z s = Panic PDivZero <->
    o_eq O1 s zero = false /\ mixed_from_num C s = Ok 0)) /\
  (forall m t t1, In t int_types -> In t1 int_types -> iwidth t1 <= iwidth t -> forall z s, in_range t1 s ->
     cartesian_div_scalar (int_ops m t1) (int_ops m t) (int_conv_int t t1) (int_zero t1) (int_real m t) z s
       <> Panic PDivZero) /\
  (forall f t1, supported f = true -> In t1 int_types -> forall z s, in_range t1 s ->
     cartesian_div_scalar (int_ops Debug t1) (fixed_ops Debug f) (fixed_conv_int Debug f t1) (int_zero t1) (fixed_real Debug f) z s
       <> Panic PDivZero).
Proof.
  assert (NZ : forall m t1 s, o_eq (int_ops m t1) s 0 = false -> s <> 0).
  { intros m t1 s H ->. discriminate. }
  split; [|split].
  - intros. eapply div_scalar_divzero_iff; eauto.
  - intros m t t1 Ht Ht1 Hle z s Vs H.
    pose proof (int_types_width t Ht). pose proof (int_types_width t1 Ht1).
    eapply div_scalar_divzero_iff in H; [|constructor|apply int_zero_eq; auto|discriminate].
    destruct H as [Ha Hb]. cbn in Hb. inversion Hb.
    apply (int_conv_nonzero t t1 s); auto; try lia. eapply NZ; eauto.
  - intros f t1 Hf Ht1 z s Vs H. pose proof (supported_fwf f Hf) as W. pose proof (fone_pos f (proj1 W)) as P.
    eapply div_scalar_divzero_iff in H; [|constructor; reflexivity|apply int_zero_eq; auto|].
    + destruct H as [H1 H2]. cbn [mixed_from_num fixed_conv_int] in H2. unfold fx_of_int, fx_fin in H2.
      apply fin_debug_inv in H2. destruct H2 as [H2 _]. apply NZ in H1. nia.
    + cbn [mixed_from_num fixed_conv_int]. unfold fx_of_int, fx_fin, fin. destruct (in_rangeb _ _); discriminate.
Qed.

Lemma polar_mul_word_all : forall m t O, word_arith m t O -> 
  (exists f, O = fixed_ops m f /\ supported f = true) \/ (O = int_ops m t /\ In t int_types) ->
  forall p q,
  (mag p = 0 \/ mag q = 0 -> polar_mul O p q = Ok (mkP 0 0)) /\
  (mag p <> 0 -> mag q <> 0 -> forall r, polar_mul O p q = Ok r <->
     o_mul O (mag p) (mag q) = Ok (mag r) /\ o_add O (ang p) (ang q) = Ok (ang r)) /\
  polar_mul O p q = polar_mul O q p.
Proof.
  intros m t O HO Hk p q.
  assert (HZ : o_of_i32 O 0 = Ok 0).
  { destruct Hk as [(f & -> & Hf)|(-> & Ht)].
    - cbn. rewrite fx_of_int_small by (try lia; apply supported_fwf; auto). reflexivity.
    - apply (int_zero_eq t Ht). }
  assert (E : forall a, o_eq O a 0 = (a =? 0)).
  { intros a. unfold o_eq. rewrite (word_cmp _ _ _ HO). destruct (Z.compare_spec a 0), (Z.eqb_spec a 0); auto; lia. }
  split; [|split].
  - intros H. apply polar_mul_zero; auto. rewrite !E, !Z.eqb_eq. auto.
  - intros H1 H2 r. rewrite (polar_mul_nonzero O 0 HZ) by (rewrite E; apply Z.eqb_neq; auto). split.
    + intros H. binv H. binv H. inversion H; subst. auto.
    + intros [-> ->]. destruct r; reflexivity.
  - apply (polar_mul_comm O 0 HZ); [apply (word_mul_comm _ _ _ HO) | apply (word_add_comm _ _ _ HO)].
Qed.
Lemma polar_one_all : 
  (forall m t p o, In t int_types -> in_range t (mag p) -> in_range t (ang p) -> mag p <> 0 ->
    polar_one (int_zero t) (int_one t) = Ok o ->
    polar_mul (int_ops m t) p o = Ok p /\ polar_mul (int_ops m t) o p = Ok p) /\
  (forall m f p o, supported f = true -> fvalid f (mag p) -> fvalid f (ang p) -> mag p <> 0 ->
    polar_one (fixed_zero m f) (fixed_one m f) = Ok o ->
    polar_mul (fixed_ops m f) p o = Ok p /\ polar_mul (fixed_ops m f) o p = Ok p).
Proof.
  split.
  - intros m t p o Ht. pose proof (int_types_width t Ht). apply polar_one_int. lia.
  - intros m f p o Hf. apply polar_one_fixed. apply supported_fwf; auto.
Qed.

Lemma complex_conv_all : forall T1 T2 (C : MixedNumConversion T1 T2) (Z1 : MixedZero T1) (Z2 : MixedZero T2),
  (forall c r, mixed_from_num (cartesian_conv_cartesian C) c = Ok r <->
     mixed_from_num C (re c) = Ok (re r) /\ mixed_from_num C (im c) = Ok (im r)) /\
  (forall c, mixed_from_num (real_conv_cartesian C Z1) c = mixed_from_num C (re c)) /\
  ((forall a b, mixed_from_num C a = Ok b -> mixed_to_num C b = Ok a) ->
     (forall c r, mixed_from_num (cartesian_conv_cartesian C) c = Ok r ->
        mixed_to_num (cartesian_conv_cartesian C) r = Ok c) /\
     (forall x p, mixed_from_num (polar_conv_real C Z2) x = Ok p ->
        mixed_to_num (polar_conv_real C Z2) p = Ok x)) /\
  ((forall b a, mixed_to_num C b = Ok a -> mixed_from_num C a = Ok b) ->
     forall x c, mixed_to_num (real_conv_cartesian C Z1) x = Ok c ->
       mixed_zero Z1 = Ok (im c) /\ mixed_from_num (real_conv_cartesian C Z1) c = Ok x).
Proof.
  intros T1 T2 C Z1 Z2. split; [|split; [|split]].
  - apply conv_cartesian_from.
  - reflexivity.
  - intros H. split; [apply conv_cartesian_roundtrip | apply polar_real_roundtrip]; auto.
  - intros H. apply real_cartesian_roundtrip; auto.
Qed.

Lemma default_zero_all : 
  (forall m f, supported f = true -> cartesian_zero (fixed_zero m f) = Ok (cartesian_default 0) /\
     polar_zero (fixed_zero m f) = Ok (polar_default 0)) /\
  (forall t, In t int_types -> cartesian_zero (int_zero t) = Ok (cartesian_default 0) /\
     polar_zero (int_zero t) = Ok (polar_default 0)) /\
  cartesian_zero (float_zero (prec:=53) (emax:=1024)) = Ok (cartesian_default (B754_zero false)) /\
  cartesian_zero (float_zero (prec:=24) (emax:=128)) = Ok (cartesian_default (B754_zero false)).
Proof.
  split; [|split; [|split; reflexivity]].
  - intros m f Hf. unfold cartesian_zero, polar_zero. cbn [mixed_zero fixed_zero].
    rewrite !fx_of_int_small by (try lia; apply supported_fwf; auto). split; reflexivity.
  - intros t Ht. unfold cartesian_zero, polar_zero. rewrite !int_zero_eq by auto. split; reflexivity.
Qed.

Lemma conj_fixed_all : forall m f, supported f = true -> fsigned f = true -> forall z, cvalid (fity f) z ->
  (forall c, cartesian_conj (fixed_signed m f) z = Ok c -> im z <> imin (fity f) ->
     fval f (re c) = fval f (re z) /\ fval f (im c) = (- fval f (im z))%R) /\
  (im z <> imin (fity f) -> exists c, cartesian_conj (fixed_signed m f) z = Ok c) /\
  (im z = imin (fity f) -> cartesian_conj (fixed_signed m f) z =
     match m with Debug => Panic POverflow | Release => Ok z end) /\
  (forall c, cartesian_conj (fixed_signed m f) z = Ok c -> cartesian_conj (fixed_signed m f) c = Ok z).
Proof.
  intros m f Hf S z V.
  assert (W : 8 <= iwidth (fity f)) by (apply supported_inv in Hf; cbn; lia).
  destruct (conj_word_all m (fity f) W S z V) as (A & B & C).
  split; [|split; [|split]].
  - intros c H N. change (cartesian_conj (int_signed m (fity f)) z = Ok c) in H. rewrite (A N) in H. inversion H; subst.
    split; [reflexivity|]. cbn [im]. unfold fval. rewrite opp_IZR. ring.
  - intros N. exists (mkC (re z) (- im z)). exact (A N).
  - exact B.
  - exact C.
Qed.
