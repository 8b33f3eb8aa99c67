(** * Products with the conjugate and with i, distributivity (proofs for C101-C103). *)

From Coq Require Import ZArith Reals Lia Lra Psatz Bool List.
From Flocq Require Import Core.Core IEEE754.BinarySingleNaN.
From Verif Require Import Base FloatBase Traits IntImpl FixedPrim FixedImpl FloatImpl Complex Spec Lemmas ScalarProofs ScalarProofs2 ComplexProofs ComplexProofs3 ProdProofs FloatLemmas FloatProofs IdentProofs DisplayProofs ScalarProofs.
Import ListNotations.
Open Scope Z_scope.

Notation norm_int m t z := (c <- cartesian_conj (int_signed m t) z ;; cartesian_mul (int_ops m t) z c).
Notation norm_fixed m f z := (c <- cartesian_conj (fixed_signed m f) z ;; cartesian_mul (fixed_ops m f) z c).
Notation norm_float z := (c <- cartesian_conj float_signed z ;; cartesian_mul float_ops z c).

Lemma conj_fixed_eq : forall m f z, cartesian_conj (fixed_signed m f) z = cartesian_conj (int_signed m (fity f)) z.
Proof. reflexivity. Qed.

Lemma conj_dbg : forall t z c, cartesian_conj (int_signed Debug t) z = Ok c -> c = mkC (re z) (- im z).
Proof.
  intros t z c H. unfold cartesian_conj in H. change (o_neg (int_signed Debug t) (im z)) with (fin Debug t (- im z)) in H. rewrite fin_debug_if in H.
  destruct (in_rangeb t (- im z)); cbn [bind] in H; [|discriminate]. injection H as <-. reflexivity.
Qed.

Lemma mul_int_dbg : forall t z w r, cartesian_mul (int_ops Debug t) z w = Ok r -> r = gauss_mul z w.
Proof. intros t z w r H. rewrite mul_int_debug in H. cbv zeta in H. destruct (forallb _ _) in H; [|discriminate]. injection H as <-. reflexivity. Qed.
Lemma mul_fixed_dbg : forall f z w r, cartesian_mul (fixed_ops Debug f) z w = Ok r ->
  r = mkC (re z * re w / fone f - im z * im w / fone f) (re z * im w / fone f + im z * re w / fone f).
Proof. intros f z w r H. rewrite mul_fixed_debug in H. cbv zeta in H. destruct (forallb _ _) in H; [|discriminate]. injection H as <-. reflexivity. Qed.

Lemma norm_int_all : forall t, In t int_types -> isigned t = true -> forall z, cvalid t z ->
  (forall r, norm_int Debug t z = Ok r -> re r = re z * re z + im z * im z /\ im r = 0) /\
  norm_int Release t z = Ok (mkC (wrap t (re z * re z + im z * im z)) 0).
Proof.
  intros t Ht S z V. pose proof (int_types_width t Ht) as W. split.
  - intros r H. destruct (cartesian_conj (int_signed Debug t) z) as [c| |] eqn:E; cbn [bind] in H; try discriminate.
    apply conj_dbg in E. apply mul_int_dbg in H. subst. unfold gauss_mul. cbn [re im]. split; lia.
  - unfold cartesian_conj. change (o_neg (int_signed Release t) (im z)) with (fin Release t (- im z)). rewrite fin_release by lia. cbn [bind].
    rewrite (cmul_release Release t ltac:(lia)) by reflexivity. unfold cwrap, gauss_mul. cbn [re im]. destruct (wrap_congr t ltac:(lia) (- im z)) as [k Hk].
    f_equal. f_equal.
    + apply (wrap_eq_iff t ltac:(lia)). exists (- im z * k). rewrite Hk. ring.
    + rewrite <- (wrap_id t ltac:(lia) 0) at 1 by (apply zero_in_range; lia). symmetry. apply (wrap_eq_iff t ltac:(lia)). exists (- re z * k). rewrite Hk. ring.
Qed.

(** floor of the opposite *)
Lemma div_opp : forall p q, 0 < q -> (- p) / q = - (p / q) - (if p mod q =? 0 then 0 else 1).
Proof.
  intros p q Q. destruct (p mod q =? 0) eqn:E.
  - apply Z.eqb_eq in E. rewrite Z.div_opp_l_z by lia. lia.
  - apply Z.eqb_neq in E. rewrite Z.div_opp_l_nz by lia. lia.
Qed.

Lemma norm_fixed_all : forall f, supported f = true -> fsigned f = true -> forall z r, norm_fixed Debug f z = Ok r ->
  let a := fval f (re z) in let b := fval f (im z) in
  (Rabs (fval f (re r) - (a * a + b * b)) < ulp f)%R /\
  im r = (if re z * im z mod fone f =? 0 then 0 else -1).
Proof.
  intros f Hf S z r H a b. pose proof (supported_fwf f Hf) as W. pose proof (proj1 W) as F0. pose proof (fone_pos f F0) as Q. pose proof (fone_IZR_pos f F0) as P.
  destruct (cartesian_conj (fixed_signed Debug f) z) as [c| |] eqn:E; cbn [bind] in H; try discriminate.
  rewrite conj_fixed_eq in E. apply conj_dbg in E. apply mul_fixed_dbg in H. subst. cbn [re im]. split.
  - unfold a, b. rewrite !fval_eq by auto. rewrite ulp_eq by auto. set (q := fone f) in *.
    pose proof (Z.div_mod (re z * re z) q ltac:(lia)) as A1. pose proof (Z.mod_pos_bound (re z * re z) q Q) as A2.
    pose proof (Z.div_mod (im z * - im z) q ltac:(lia)) as B1. pose proof (Z.mod_pos_bound (im z * - im z) q Q) as B2.
    set (x := re z * re z / q) in *. set (y := im z * - im z / q) in *.
    assert (K : - q < (x - y) * q - (re z * re z + im z * im z) < q) by lia.
    destruct K as [K1 K2]. apply IZR_lt in K1, K2. rewrite opp_IZR in K1. rewrite minus_IZR, plus_IZR, !mult_IZR in K1, K2.
    replace (IZR (x - y) / IZR q - (IZR (re z) / IZR q * (IZR (re z) / IZR q) + IZR (im z) / IZR q * (IZR (im z) / IZR q)))%R
      with ((IZR (x - y) * IZR q - (IZR (re z) * IZR (re z) + IZR (im z) * IZR (im z))) * (/ IZR q * / IZR q))%R by (field; lra).
    assert (I : (0 < / IZR q * / IZR q)%R) by (assert (0 < / IZR q)%R by (apply Rinv_0_lt_compat; auto); nra).
    rewrite Rabs_mult, (Rabs_pos_eq (/ IZR q * / IZR q)) by lra. replace (/ IZR q)%R with (IZR q * (/ IZR q * / IZR q))%R at 3 by (field; lra).
    apply Rmult_lt_compat_r; auto. apply Rabs_def1; lra.
  - replace (re z * - im z) with (- (re z * im z)) by ring. rewrite div_opp by auto. rewrite (Z.mul_comm (im z)). destruct (_ =? 0); lia.
Qed.

Section Flt.
Context {prec emax : Z} {Hp : Prec_gt_0 prec} {He : Prec_lt_emax prec emax}.
Notation float := (binary_float prec emax).
Notation "x *. y" := (Bmult mode_NE x y) (at level 40).
Notation "x +. y" := (Bplus mode_NE x y) (at level 50).
Notation "x -. y" := (Bminus mode_NE x y) (at level 50).

Lemma norm_float_all : forall z : Cartesian float, exists r, norm_float z = Ok r /\
  re r = (re z *. re z) +. (im z *. im z) /\ (is_finite (re z *. im z) = true -> im r = B754_zero false).
Proof.
  intros z. eexists. split; [reflexivity|]. cbn [re im]. split.
  - rewrite Bmult_opp_r, Bminus_plus, Bopp_involutive'. reflexivity.
  - intros F. rewrite Bmult_opp_r, (Bmult_comm (im z)). remember (re z *. im z) as p eqn:Ep.
    assert (Fo : is_finite (Bopp p) = true) by (rewrite is_finite_Bopp; auto).
    pose proof (Bplus_correct prec emax _ _ mode_NE (Bopp p) p Fo F) as BC. rewrite B2R_Bopp in BC. replace (- B2R p + B2R p)%R with 0%R in BC by ring.
    rewrite round_0 in BC by apply valid_rnd_round_mode. rewrite Rabs_R0, Rlt_bool_true in BC by apply bpow_gt_0. destruct BC as (B1 & B2 & B3).
    rewrite Rcompare_Eq in B3 by reflexivity. destruct (Bopp p +. p) as [s|s| |s m e Hb]; try discriminate B2.
    + cbn in B3. rewrite B3. f_equal. rewrite Bsign_opp by (apply finite_not_nan; auto). destruct (Bsign p); reflexivity.
    + exfalso. cbn in B1. destruct s; [assert (F2R (Float radix2 (cond_Zopp true (Z.pos m)) e) < 0)%R by (apply F2R_lt_0; reflexivity); lra
      | assert (0 < F2R (Float radix2 (cond_Zopp false (Z.pos m)) e))%R by (apply F2R_gt_0; reflexivity); lra].
Qed.

Lemma rot_float : 24 <= prec -> forall (z i : Cartesian float) e o, mixed_zero float_zero = Ok e -> mixed_one float_one = Ok o -> i = mkC e o ->
  is_finite (re z) = true -> is_finite (im z) = true -> exists r, cartesian_mul float_ops z i = Ok r /\ same_float (re r) (Bopp (im z)) /\ same_float (im r) (re z).
Proof.
  intros P24 [x y] i e o He0 Ho -> Fx Fy. cbn [re im] in Fx, Fy |- * ; cbn [mixed_zero mixed_one float_zero float_one] in He0, Ho. rewrite float_of_Z_zero in He0. rewrite float_of_Z_one in Ho by lia. injection He0 as <-. injection Ho as <-.
  eexists. split; [reflexivity|]. cbn [re im]. rewrite !(Bmult_comm x Bone), !(Bmult_comm y Bone), !Bmult_Bone_l.
  destruct (Bmult_zero x false Fx) as [sx ->]. destruct (Bmult_zero y false Fy) as [sy ->]. split.
  - rewrite Bminus_plus. apply Bzero_plus.
  - apply Bplus_zero.
Qed.
End Flt.

Lemma conj_mul_fixed : forall f, supported f = true -> fsigned f = true -> forall z w cz cw zw p,
  cartesian_conj (fixed_signed Debug f) z = Ok cz -> cartesian_conj (fixed_signed Debug f) w = Ok cw ->
  cartesian_mul (fixed_ops Debug f) z w = Ok zw -> cartesian_mul (fixed_ops Debug f) cz cw = Ok p -> re p = re zw /\ - im zw - 2 <= im p <= - im zw.
Proof.
  intros f Hf S z w cz cw zw p H1 H2 H3 H4. pose proof (fone_pos f (proj1 (supported_fwf f Hf))) as Q.
  rewrite conj_fixed_eq in H1, H2. apply conj_dbg in H1, H2. apply mul_fixed_dbg in H3, H4. subst. cbn [re im]. split.
  - replace (- im z * - im w) with (im z * im w) by ring. reflexivity.
  - replace (re z * - im w) with (- (re z * im w)) by ring. replace (- im z * re w) with (- (im z * re w)) by ring. rewrite !div_opp by auto.
    destruct (_ =? 0); destruct (_ =? 0); lia.
Qed.

(** ** multiplication by i *)
Lemma rot_word : forall m t O, 8 <= iwidth t -> word_arith m t O -> isigned t = true -> forall one, 
  (forall a, in_range t a -> o_mul O a one = Ok a) -> (forall a, in_range t a -> o_mul O a 0 = Ok 0) ->
  forall z, cvalid t z ->
  cartesian_mul O z (mkC 0 one) = if im z =? imin t then match m with Debug => Panic POverflow | Release => Ok (mkC (imin t) (re z)) end else Ok (mkC (- im z) (re z)).
Proof.
  intros m t O W H S one H1 H0 z [Vr Vi]. unfold cartesian_mul, ops_mul_cartesian. cbn [re im]. rewrite !H0, !H1 by auto. cbn [bind].
  rewrite (word_sub m t O H), (word_add m t O H). rewrite Z.add_0_r, Z.sub_0_l.
  assert (Mn : imin t = - 2 ^ (iwidth t - 1) /\ imax t = 2 ^ (iwidth t - 1) - 1) by (unfold imin, imax; rewrite S; auto). destruct Mn as [Mn Mx].
  assert (FR : fin m t (re z) = Ok (re z)). { destruct m; [rewrite fin_debug_if, (proj2 (in_rangeb_spec t (re z))) by auto; auto | rewrite fin_release by lia; rewrite wrap_id by (auto; lia); auto]. }
  destruct (im z =? imin t) eqn:E.
  - apply Z.eqb_eq in E. rewrite E, Mn. destruct m.
    + rewrite fin_debug_if. assert (N : in_rangeb t (- - 2 ^ (iwidth t - 1)) = false). { apply not_true_is_false. intro K. apply in_rangeb_spec in K. unfold in_range in K. lia. } rewrite N. reflexivity.
    + rewrite fin_release by lia. cbn [bind]. rewrite FR. cbn [bind]. f_equal. f_equal. apply (wrap_unique t ltac:(lia) _ _ (-1)).
      * rewrite <- Mn, <- E. exact Vi.
      * replace (2 ^ iwidth t) with (2 * 2 ^ (iwidth t - 1)) by (rewrite <- Z.pow_succ_r by lia; f_equal; lia). ring.
  - apply Z.eqb_neq in E. assert (FI : fin m t (- im z) = Ok (- im z)).
    { assert (G : in_range t (- im z)) by (unfold in_range in *; lia).
      destruct m; [rewrite fin_debug_if, (proj2 (in_rangeb_spec t (- im z))) by auto; auto | rewrite fin_release by lia; rewrite wrap_id by (auto; lia); auto]. }
    rewrite FI. cbn [bind]. rewrite FR. reflexivity.
Qed.

Notation i_times m t z := (if im z =? imin t then match m with Debug => Panic POverflow | Release => Ok (mkC (imin t) (re z)) end else Ok (mkC (- im z) (re z))).

Lemma rot_int : forall m t, In t int_types -> isigned t = true -> forall z e o, cvalid t z -> mixed_zero (int_zero t) = Ok e -> mixed_one (int_one t) = Ok o ->
  cartesian_mul (int_ops m t) z (mkC e o) = i_times m t z.
Proof.
  intros m t Ht S z e o V E0 E1. pose proof (int_types_width t Ht) as W. rewrite int_zero_eq in E0 by auto. injection E0 as <-.
  assert (E2 : o = 1). { cbn in E1. rewrite wrap_id in E1; [congruence|lia|apply one_in_range; lia]. } subst o.
  apply rot_word; auto; try lia; try constructor; intros; cbn [o_mul int_ops]; rewrite ?Z.mul_0_r, ?Z.mul_1_r; apply fin_ok; auto; apply zero_in_range; lia.
Qed.

Lemma rot_fixed : forall m f, supported f = true -> fsigned f = true -> forall z e o, cvalid (fity f) z -> mixed_zero (fixed_zero m f) = Ok e -> mixed_one (fixed_one m f) = Ok o ->
  cartesian_mul (fixed_ops m f) z (mkC e o) = i_times m (fity f) z.
Proof.
  intros m f Hf S z e o V E0 E1. pose proof (supported_fwf f Hf) as W. pose proof (fone_pos f (proj1 W)) as P. rewrite fixed_zero_ok in E0 by auto. injection E0 as <-.
  cbn [mixed_one fixed_one] in E1. rewrite fx_of_int_small in E1 by (auto; lia). rewrite Z.mul_1_l in E1. injection E1 as <-.
  assert (V0 : fvalid f 0) by (apply zero_in_range; apply fwf_width; auto).
  apply rot_word; auto.
  - apply supported_inv in Hf. cbn. lia.
  - constructor. reflexivity.
  - intros a Va. cbn [o_mul fixed_ops]. unfold fx_mul. rewrite Z.div_mul by lia. apply fx_fin_ok; auto.
  - intros a Va. cbn [o_mul fixed_ops]. unfold fx_mul. rewrite Z.mul_0_r, Z.div_0_l by lia. apply fx_fin_ok; auto.
Qed.

(** four quarter turns, given one quarter turn *)
Lemma rot_four : forall m t (M : Cartesian Z -> res (Cartesian Z)), 8 <= iwidth t -> isigned t = true -> (forall z, cvalid t z -> M z = i_times m t z) ->
  forall z, cvalid t z -> (a <- M z ;; b <- M a ;; c <- M b ;; M c) =
    if (re z =? imin t) || (im z =? imin t) then match m with Debug => Panic POverflow | Release => Ok z end else Ok z.
Proof.
  intros m t M W S H [x y] [Vx Vy]. cbn [re im] in *.
  assert (Mn : imin t = - 2 ^ (iwidth t - 1) /\ imax t = 2 ^ (iwidth t - 1) - 1) by (unfold imin, imax; rewrite S; auto). destruct Mn as [Mn Mx].
  assert (Q : 0 < 2 ^ (iwidth t - 1)) by (apply Z.pow_pos_nonneg; lia). unfold in_range in Vx, Vy.
  assert (St : forall u v, in_range t u -> in_range t v -> v <> imin t -> M (mkC u v) = Ok (mkC (- v) u)).
  { intros u v Vu Vv N. rewrite H by (split; auto). cbn [re im]. apply Z.eqb_neq in N. rewrite N. reflexivity. }
  assert (Sm : forall u, in_range t u -> M (mkC u (imin t)) = match m with Debug => Panic POverflow | Release => Ok (mkC (imin t) u) end).
  { intros u Vu. rewrite H by (split; auto; cbn [re im]; unfold in_range; lia). cbn [re im]. rewrite Z.eqb_refl. reflexivity. }
  assert (Vm : in_range t (imin t)) by (unfold in_range; lia). 
  assert (On : forall v, in_range t v -> v <> imin t -> in_range t (- v) /\ - v <> imin t) by (unfold in_range; intros; lia).
  destruct (Z.eq_dec x (imin t)) as [->|Nx]; destruct (Z.eq_dec y (imin t)) as [->|Ny]; rewrite ?Z.eqb_refl; cbn [orb].
  - rewrite Sm by auto. destruct m; cbn [bind]; [reflexivity|]. do 3 (rewrite ?Sm by auto; cbn [bind]). reflexivity.
  - destruct (On y ltac:(auto) Ny) as [O1 O2]. rewrite St by auto. cbn [bind]. rewrite Sm by auto. destruct m; cbn [bind]; [reflexivity|].
    rewrite St by auto. cbn [bind]. rewrite Z.opp_involutive. rewrite Sm by auto. reflexivity.
  - destruct (On x ltac:(auto) Nx) as [O1 O2]. rewrite orb_true_r. rewrite Sm by auto. destruct m; cbn [bind]; [reflexivity|].
    rewrite St by auto. cbn [bind]. rewrite Sm by auto. cbn [bind]. rewrite St by auto. rewrite Z.opp_involutive. reflexivity.
  - destruct (On x ltac:(auto) Nx) as [O1 O2]. destruct (On y ltac:(auto) Ny) as [O3 O4]. rewrite (proj2 (Z.eqb_neq _ _) Nx), (proj2 (Z.eqb_neq _ _) Ny). cbn [orb].
    rewrite St by auto. cbn [bind]. rewrite St by auto. cbn [bind]. rewrite St by auto. cbn [bind]. rewrite St by (rewrite ?Z.opp_involutive; auto). rewrite !Z.opp_involutive. reflexivity.
Qed.

Lemma rot4_int : forall m t, In t int_types -> isigned t = true -> forall z e o, cvalid t z -> mixed_zero (int_zero t) = Ok e -> mixed_one (int_one t) = Ok o ->
  let i := mkC e o in let M := fun z => cartesian_mul (int_ops m t) z i in
  (a <- M z ;; b <- M a ;; c <- M b ;; M c) = if (re z =? imin t) || (im z =? imin t) then match m with Debug => Panic POverflow | Release => Ok z end else Ok z.
Proof. intros m t Ht S z e o V E0 E1 i M. pose proof (int_types_width t Ht) as W. apply rot_four; auto. intros w Vw. apply rot_int; auto. Qed.

Lemma rot4_fixed : forall m f, supported f = true -> fsigned f = true -> forall z e o, cvalid (fity f) z -> mixed_zero (fixed_zero m f) = Ok e -> mixed_one (fixed_one m f) = Ok o ->
  let i := mkC e o in let M := fun z => cartesian_mul (fixed_ops m f) z i in let t := fity f in
  (a <- M z ;; b <- M a ;; c <- M b ;; M c) = if (re z =? imin t) || (im z =? imin t) then match m with Debug => Panic POverflow | Release => Ok z end else Ok z.
Proof. intros m f Hf S z e o V E0 E1 i M t. apply rot_four; auto. - apply supported_inv in Hf. cbn. lia. - intros w Vw. apply rot_fixed; auto. Qed.

(** ** distributivity on fixed types *)
Lemma floor_add : forall u v q, 0 < q -> u / q + v / q <= (u + v) / q <= u / q + v / q + 1.
Proof.
  intros u v q Q. pose proof (Z.div_mod u q ltac:(lia)). pose proof (Z.div_mod v q ltac:(lia)). pose proof (Z.div_mod (u + v) q ltac:(lia)).
  pose proof (Z.mod_pos_bound u q Q). pose proof (Z.mod_pos_bound v q Q). pose proof (Z.mod_pos_bound (u + v) q Q). nia.
Qed.

Lemma distr_fixed : forall f, supported f = true -> forall x y z s l p q r, 
  cartesian_add (fixed_ops Debug f) y z = Ok s -> cartesian_mul (fixed_ops Debug f) x s = Ok l ->
  cartesian_mul (fixed_ops Debug f) x y = Ok p -> cartesian_mul (fixed_ops Debug f) x z = Ok q -> cartesian_add (fixed_ops Debug f) p q = Ok r ->
  Z.abs (re l - re r) <= 1 /\ 0 <= im l - im r <= 2.
Proof.
  intros f Hf x y z s l p q r H1 H2 H3 H4 H5. pose proof (fone_pos f (proj1 (supported_fwf f Hf))) as Q.
  assert (A : forall a b c, cartesian_add (fixed_ops Debug f) a b = Ok c -> c = mkC (re a + re b) (im a + im b)).
  { intros a b c H. unfold cartesian_add in H. cbn [o_add fixed_ops] in H. unfold fx_add, fx_fin in H. rewrite !fin_debug_if in H.
    destruct (in_rangeb _ _) in H; cbn [bind] in H; [|discriminate]. destruct (in_rangeb _ _) in H; cbn [bind] in H; [|discriminate]. congruence. }
  apply A in H1, H5. apply mul_fixed_dbg in H2, H3, H4. subst. cbn [re im]. rewrite !Z.mul_add_distr_l.
  pose proof (floor_add (re x * re y) (re x * re z) _ Q). pose proof (floor_add (im x * im y) (im x * im z) _ Q). 
  pose proof (floor_add (re x * im y) (re x * im z) _ Q). pose proof (floor_add (im x * re y) (im x * re z) _ Q). lia.
Qed.

Lemma norm_fixed_bad : forall m f, supported f = true -> fsigned f = true -> 1 <= ffrac f -> norm_fixed m f (mkC 1 1) = Ok (mkC 1 (-1)).
Proof.
  intros m f Hf S F1. pose proof (supported_fwf f Hf) as W. assert (Q : 2 <= fone f) by (unfold fone; change 2 with (2 ^ 1); apply Z.pow_le_mono_r; lia).
  assert (V : forall a, -1 <= a <= 1 -> fx_fin m f a = Ok a). { intros a A. apply fx_fin_ok; auto. apply fvalid_iff. rewrite S. apply supported_inv in Hf. assert (2 ^ 1 <= 2 ^ (fwidth f - 1)) by (apply Z.pow_le_mono_r; lia). lia. }
  unfold cartesian_conj. cbn [re im o_neg fixed_signed]. unfold fx_neg. rewrite V by lia. cbn [bind]. unfold cartesian_mul, ops_mul_cartesian. cbn [re im o_mul o_add o_sub fixed_ops]. unfold fx_mul, fx_sub, fx_add.
  assert (D1 : 1 * 1 / fone f = 0) by (apply Z.div_small; lia). assert (D2 : 1 * - (1) / fone f = -1) by (symmetry; apply (Z.div_unique (1 * -(1)) (fone f) (-1) (fone f - 1)); lia).
  change (1 * - (1)) with (-1) in *. change (1 * 1) with 1 in *. change (1 * -1) with (-1) in *. 
  rewrite D1, D2. rewrite !V by lia. cbn [bind]. change (0 - -1) with 1. change (-1 + 0) with (-1). rewrite !V by lia. reflexivity.
Qed.
