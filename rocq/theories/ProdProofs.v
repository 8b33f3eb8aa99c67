(** * Exact outcome of complex products, and accumulated products (proofs for C33 and C98). *)

From Coq Require Import ZArith Reals Lia Lra Psatz Bool List.
From Flocq Require Import Core.Core.
From Verif Require Import Base FloatBase Traits IntImpl FixedPrim FixedImpl Complex Spec Lemmas ScalarProofs ScalarProofs2 ComplexProofs ComplexProofs3.
Import ListNotations.
Open Scope Z_scope.

Lemma fin_debug_if : forall t z, fin Debug t z = if in_rangeb t z then Ok z else Panic POverflow.
Proof. intros t z. unfold fin. destruct (in_rangeb t z); reflexivity. Qed.

Lemma mul_int_debug : forall t z w,
  let ac := re z * re w in let bd := im z * im w in let ad := re z * im w in let bc := im z * re w in
  cartesian_mul (int_ops Debug t) z w =
    if forallb (in_rangeb t) [ac; bd; ad; bc; ac - bd; ad + bc] then Ok (mkC (ac - bd) (ad + bc)) else Panic POverflow.
Proof.
  intros t z w ac bd ad bc. unfold cartesian_mul, ops_mul_cartesian.
  change (o_mul (int_ops Debug t)) with (fun a b => fin Debug t (a * b)). change (o_sub (int_ops Debug t)) with (fun a b => fin Debug t (a - b)).
  change (o_add (int_ops Debug t)) with (fun a b => fin Debug t (a + b)). cbv beta. rewrite !fin_debug_if. fold ac bd ad bc. cbn [forallb].
  destruct (in_rangeb t ac); cbn [bind andb]; [|reflexivity]. destruct (in_rangeb t bd); cbn [bind andb]; [|reflexivity].
  rewrite fin_debug_if. destruct (in_rangeb t (ac - bd)); cbn [bind andb]; rewrite ?fin_debug_if;
  destruct (in_rangeb t ad); cbn [bind andb]; try reflexivity; destruct (in_rangeb t bc); cbn [bind andb]; try reflexivity.
  rewrite fin_debug_if. destruct (in_rangeb t (ad + bc)); reflexivity.
Qed.

Lemma mul_fixed_debug : forall f z w,
  let mul a b := a * b / fone f in
  let ac := mul (re z) (re w) in let bd := mul (im z) (im w) in let ad := mul (re z) (im w) in let bc := mul (im z) (re w) in
  cartesian_mul (fixed_ops Debug f) z w =
    if forallb (in_rangeb (fity f)) [ac; bd; ad; bc; ac - bd; ad + bc] then Ok (mkC (ac - bd) (ad + bc)) else Panic POverflow.
Proof.
  intros f z w mul ac bd ad bc. unfold cartesian_mul, ops_mul_cartesian.
  change (o_mul (fixed_ops Debug f)) with (fun a b => fin Debug (fity f) (mul a b)). change (o_sub (fixed_ops Debug f)) with (fun a b => fin Debug (fity f) (a - b)).
  change (o_add (fixed_ops Debug f)) with (fun a b => fin Debug (fity f) (a + b)). cbv beta. rewrite !fin_debug_if. fold ac bd ad bc. cbn [forallb].
  destruct (in_rangeb (fity f) ac); cbn [bind andb]; [|reflexivity]. destruct (in_rangeb (fity f) bd); cbn [bind andb]; [|reflexivity].
  rewrite fin_debug_if. destruct (in_rangeb (fity f) (ac - bd)); cbn [bind andb]; rewrite ?fin_debug_if;
  destruct (in_rangeb (fity f) ad); cbn [bind andb]; try reflexivity; destruct (in_rangeb (fity f) bc); cbn [bind andb]; try reflexivity.
  rewrite fin_debug_if. destruct (in_rangeb (fity f) (ad + bc)); reflexivity.
Qed.

(** multiply and accumulate: [acc = acc + z * w] *)
Notation mac O := (fun acc zw => p <- cartesian_mul O (fst zw) (snd zw) ;; cartesian_add O acc p).
Definition pre (zw : Cartesian Z * Cartesian Z) : Z := re (fst zw) * re (snd zw) - im (fst zw) * im (snd zw).
Definition pim (zw : Cartesian Z * Cartesian Z) : Z := re (fst zw) * im (snd zw) + im (fst zw) * re (snd zw).
Definition are (zw : Cartesian Z * Cartesian Z) : Z := Z.abs (re (fst zw) * re (snd zw)) + Z.abs (im (fst zw) * im (snd zw)).
Definition aim (zw : Cartesian Z * Cartesian Z) : Z := Z.abs (re (fst zw) * im (snd zw)) + Z.abs (im (fst zw) * re (snd zw)).

Lemma run_err : forall A B (step : A -> B -> res A) ws e, (forall a, e <> Ok a) -> fold_left (fun r w => bind r (fun z => step z w)) ws e = e.
Proof. intros A B step. induction ws as [|w ws IH]; intros e He; cbn; [reflexivity|]. destruct e as [a| |]; [destruct (He a); reflexivity| |]; apply IH; discriminate. Qed.
Lemma run_cons : forall A B (step : A -> B -> res A) z w ws, run step z (w :: ws) = (z' <- step z w ;; run step z' ws).
Proof.
  intros. unfold run. cbn [fold_left bind]. destruct (step z w) as [a| |]; cbn [bind]; [reflexivity| |]; apply run_err; discriminate.
Qed.

Lemma mul_release_of_debug : forall f z w r, cartesian_mul (fixed_ops Debug f) z w = Ok r -> cartesian_mul (fixed_ops Release f) z w = Ok r.
Proof.
  intros f z w r H. unfold cartesian_mul, ops_mul_cartesian in *.
  change (o_mul (fixed_ops Debug f)) with (fun a b => fin Debug (fity f) (a * b / fone f)) in H. change (o_sub (fixed_ops Debug f)) with (fun a b => fin Debug (fity f) (a - b)) in H.
  change (o_add (fixed_ops Debug f)) with (fun a b => fin Debug (fity f) (a + b)) in H.
  change (o_mul (fixed_ops Release f)) with (fun a b => fin Release (fity f) (a * b / fone f)). change (o_sub (fixed_ops Release f)) with (fun a b => fin Release (fity f) (a - b)).
  change (o_add (fixed_ops Release f)) with (fun a b => fin Release (fity f) (a + b)). cbv beta in *.
  repeat match type of H with (x <- fin Debug ?t ?a ;; _) = _ => let E := fresh in destruct (fin Debug t a) eqn:E; cbn [bind] in H; try discriminate; rewrite (fin_debug_release _ _ _ E); cbn [bind] end. exact H.
Qed.
Lemma add_release_of_debug : forall f z w r, cartesian_add (fixed_ops Debug f) z w = Ok r -> cartesian_add (fixed_ops Release f) z w = Ok r.
Proof.
  intros f z w r H. unfold cartesian_add in *.
  change (o_add (fixed_ops Debug f)) with (fun a b => fin Debug (fity f) (a + b)) in H.
  change (o_add (fixed_ops Release f)) with (fun a b => fin Release (fity f) (a + b)). cbv beta in *.
  repeat match type of H with (x <- fin Debug ?t ?a ;; _) = _ => let E := fresh in destruct (fin Debug t a) eqn:E; cbn [bind] in H; try discriminate; rewrite (fin_debug_release _ _ _ E); cbn [bind] end. exact H.
Qed.
Lemma add_fixed_debug : forall f z w, cartesian_add (fixed_ops Debug f) z w =
  if forallb (in_rangeb (fity f)) [re z + re w; im z + im w] then Ok (mkC (re z + re w) (im z + im w)) else Panic POverflow.
Proof.
  intros f z w. unfold cartesian_add. change (o_add (fixed_ops Debug f)) with (fun a b => fin Debug (fity f) (a + b)). cbv beta. rewrite !fin_debug_if. cbn [forallb].
  destruct (in_rangeb (fity f) (re z + re w)); cbn [bind andb]; [|reflexivity]. destruct (in_rangeb (fity f) (im z + im w)); reflexivity.
Qed.

Lemma mac_step : forall f, 0 < fone f -> forall z w, let p := mkC (re z * re w / fone f - im z * im w / fone f) (re z * im w / fone f + im z * re w / fone f) in
  Z.abs (re p * fone f - pre (z, w)) < fone f /\ - 2 * fone f < im p * fone f - pim (z, w) <= 0.
Proof.
  intros f Q z w p. unfold p, pre, pim. cbn [re im fst snd].
  pose proof (Z.div_mod (re z * re w) (fone f)) as A1. pose proof (Z.mod_pos_bound (re z * re w) (fone f) Q) as B1.
  pose proof (Z.div_mod (im z * im w) (fone f)) as A2. pose proof (Z.mod_pos_bound (im z * im w) (fone f) Q) as B2.
  pose proof (Z.div_mod (re z * im w) (fone f)) as A3. pose proof (Z.mod_pos_bound (re z * im w) (fone f) Q) as B3.
  pose proof (Z.div_mod (im z * re w) (fone f)) as A4. pose proof (Z.mod_pos_bound (im z * re w) (fone f) Q) as B4.
  specialize (A1 ltac:(lia)). specialize (A2 ltac:(lia)). specialize (A3 ltac:(lia)). specialize (A4 ltac:(lia)). split; lia.
Qed.

Lemma mac_returns : forall f, 0 < fone f -> forall ws acc r, run (mac (fixed_ops Debug f)) acc ws = Ok r ->
  let n := Z.of_nat (length ws) in
  Z.abs (re r * fone f - (re acc * fone f + sumZ (map pre ws))) <= n * fone f /\
  - 2 * n * fone f <= im r * fone f - (im acc * fone f + sumZ (map pim ws)) <= 0 /\
  run (mac (fixed_ops Release f)) acc ws = Ok r.
Proof.
  intros f Q. induction ws as [|[z w] ws IH]; intros acc r H n.
  - cbn in H. injection H as <-. cbn [map sumZ]. split; [|split]; [lia|lia|reflexivity].
  - rewrite run_cons in H |- *. cbn [fst snd] in H |- *.
    destruct (cartesian_mul (fixed_ops Debug f) z w) as [p| |] eqn:EM; cbn [bind] in H; try discriminate.
    destruct (cartesian_add (fixed_ops Debug f) acc p) as [a| |] eqn:EA; cbn [bind] in H; try discriminate.
    rewrite (mul_release_of_debug _ _ _ _ EM). cbn [bind]. rewrite (add_release_of_debug _ _ _ _ EA). cbn [bind].
    destruct (IH a r H) as (I1 & I2 & I3).
    rewrite mul_fixed_debug in EM. cbv zeta in EM. destruct (forallb _ _) in EM; [|discriminate]. injection EM as <-.
    rewrite add_fixed_debug in EA. destruct (forallb _ _) in EA; [|discriminate]. injection EA as <-.
    destruct (mac_step f Q z w) as [S1 S2]. cbv zeta in S1, S2. cbn [re im] in I1, I2, S1, S2. cbn [map sumZ].
    unfold n in *. cbn [length]. rewrite Nat2Z.inj_succ. split; [|split]; [lia|lia|exact I3].
Qed.

Lemma in_rangeb_true : forall t z, in_range t z -> in_rangeb t z = true.
Proof. intros t z H. apply in_rangeb_spec. exact H. Qed.

Lemma sumZ_nonneg : forall A (g : A -> Z) l, (forall x, 0 <= g x) -> 0 <= sumZ (map g l).
Proof. intros A g l H. induction l as [|x l IH]; cbn; [lia|]. specialize (H x). lia. Qed.
Lemma are_nonneg : forall zw, 0 <= are zw. Proof. intros. unfold are. lia. Qed.
Lemma aim_nonneg : forall zw, 0 <= aim zw. Proof. intros. unfold aim. lia. Qed.

(** enough room for the accumulated magnitudes *)
Lemma mac_total : forall f, 0 < fone f -> fsigned f = true -> 1 <= fwidth f -> forall ws acc Er Ei k, 0 <= k ->
  let n := Z.of_nat (length ws) in let B := 2 ^ (fwidth f - 1) in
  Z.abs (re acc * fone f) <= Er + k * fone f -> Z.abs (im acc * fone f) <= Ei + 2 * k * fone f -> 0 <= Er -> 0 <= Ei ->
  Er + sumZ (map are ws) + (k + n) * fone f <= (B - 1) * fone f ->
  Ei + sumZ (map aim ws) + 2 * (k + n) * fone f <= (B - 1) * fone f ->
  exists r, run (mac (fixed_ops Debug f)) acc ws = Ok r.
Proof.
  intros f Q S W. induction ws as [|[z w] ws IH]; intros acc Er Ei k K n B HR HI R0 I0 HA HB.
  - exists acc. reflexivity.
  - rewrite run_cons. cbn [fst snd]. cbn [map sumZ] in HA, HB. unfold n in *. cbn [length] in *. rewrite Nat2Z.inj_succ in *.
    pose proof (sumZ_nonneg _ are ws are_nonneg) as N1. pose proof (sumZ_nonneg _ aim ws aim_nonneg) as N2.
    set (L := Z.of_nat (length ws)) in *. assert (0 <= L) by (unfold L; lia).
    assert (RG : forall v, - B <= v <= B - 1 -> in_rangeb (fity f) v = true).
    { intros v Hv. apply in_rangeb_true. unfold in_range, imin, imax, fity. cbn. rewrite S. fold B. exact Hv. }
    set (q := fone f) in *. set (sa := sumZ (map are ws)) in *. set (sb := sumZ (map aim ws)) in *.
    assert (DV : forall v, Z.abs v <= (B - 2) * q -> - B <= v / q <= B - 1 /\ v / q * q <= v < v / q * q + q).
    { intros v Hv. pose proof (Z.div_mod v q ltac:(lia)). pose proof (Z.mod_pos_bound v q Q). split; [|nia]. split.
      - apply Z.div_le_lower_bound; nia.
      - enough (v / q < B) by lia. apply Z.div_lt_upper_bound; nia. }
    assert (M1 : Z.abs (re z * re w) + Z.abs (im z * im w) <= (B - 2) * q) by (unfold are in HA; cbn [fst snd] in HA; nia).
    assert (M2 : Z.abs (re z * im w) + Z.abs (im z * re w) <= (B - 3) * q) by (unfold aim in HB; cbn [fst snd] in HB; nia).
    destruct (DV (re z * re w)) as [D1 D1']; [lia|]. destruct (DV (im z * im w)) as [D2 D2']; [lia|].
    destruct (DV (re z * im w)) as [D3 D3']; [nia|]. destruct (DV (im z * re w)) as [D4 D4']; [nia|].
    rewrite mul_fixed_debug. cbv zeta. fold q.
    set (ac := re z * re w / q) in *. set (bd := im z * im w / q) in *. set (ad := re z * im w / q) in *. set (bc := im z * re w / q) in *.
    assert (P1 : Z.abs ((ac - bd) * q) <= are (z, w) + q).
    { unfold are; cbn [fst snd]. clear - D1' D2' Q. lia. }
    assert (P2 : Z.abs ((ad + bc) * q) <= aim (z, w) + 2 * q).
    { unfold aim; cbn [fst snd]. clear - D3' D4' Q. lia. }
    assert (BB : forall v, Z.abs (v * q) <= (B - 1) * q -> - B <= v <= B - 1) by (clear - Q; intros; nia).
    assert (P1' : Z.abs ((re acc + (ac - bd)) * q) <= (Er + are (z, w)) + (k + 1) * q) by (clear - P1 HR; lia).
    assert (P2' : Z.abs ((im acc + (ad + bc)) * q) <= (Ei + aim (z, w)) + 2 * (k + 1) * q) by (clear - P2 HI; lia).
    assert (LQ : 0 <= L * q) by (clear - Q H; nia). assert (KQ : 0 <= k * q) by (clear - Q K; nia).
    assert (T : forall v1 v2 v3 v4 v5 v6, - B <= v1 <= B - 1 -> - B <= v2 <= B - 1 -> - B <= v3 <= B - 1 -> - B <= v4 <= B - 1 -> - B <= v5 <= B - 1 -> - B <= v6 <= B - 1 ->
      forallb (in_rangeb (fity f)) [v1; v2; v3; v4; v5; v6] = true).
    { intros. cbn [forallb]. rewrite !RG by assumption. reflexivity. }
    rewrite T; try assumption; [|apply BB; clear - P1 HA N1 R0 LQ KQ Q; lia | apply BB; clear - P2 HB N2 I0 LQ KQ Q; lia].
    cbn [bind]. rewrite add_fixed_debug. cbn [re im forallb].
    rewrite !RG; [| apply BB; clear - P2' HB N2 I0 LQ KQ Q; lia | apply BB; clear - P1' HA N1 R0 LQ KQ Q; lia].
    cbn [andb bind]. apply (IH _ (Er + are (z, w)) (Ei + aim (z, w)) (k + 1)); cbn [re im]; try assumption; try lia;
      pose proof (are_nonneg (z, w)); pose proof (aim_nonneg (z, w)); fold L; fold B; fold q; fold sa; fold sb; try lia.
Qed.

Lemma mac_fixed : forall f, supported f = true -> forall ws acc,
  let n := INR (length ws) in let v := fval f in
  let er := (v (re acc) + fold_right Rplus 0 (map (fun zw => v (re (fst zw)) * v (re (snd zw)) - v (im (fst zw)) * v (im (snd zw))) ws))%R in
  let ei := (v (im acc) + fold_right Rplus 0 (map (fun zw => v (re (fst zw)) * v (im (snd zw)) + v (im (fst zw)) * v (re (snd zw))) ws))%R in
  let ar := (Rabs (v (re acc)) + fold_right Rplus 0 (map (fun zw => Rabs (v (re (fst zw)) * v (re (snd zw))) + Rabs (v (im (fst zw)) * v (im (snd zw)))) ws))%R in
  let ai := (Rabs (v (im acc)) + fold_right Rplus 0 (map (fun zw => Rabs (v (re (fst zw)) * v (im (snd zw))) + Rabs (v (im (fst zw)) * v (re (snd zw)))) ws))%R in
  (forall r, run (mac (fixed_ops Debug f)) acc ws = Ok r ->
    (Rabs (v (re r) - er) <= n * ulp f)%R /\ (- (2 * n) * ulp f <= v (im r) - ei <= 0)%R /\ run (mac (fixed_ops Release f)) acc ws = Ok r) /\
  (fsigned f = true -> (ar + n * ulp f <= v (fmax f))%R -> (ai + 2 * n * ulp f <= v (fmax f))%R ->
    exists r, run (mac (fixed_ops Debug f)) acc ws = Ok r).
Proof.
  intros f Hf ws acc n v er ei ar ai. pose proof (supported_fwf f Hf) as W. pose proof (proj1 W) as F0.
  pose proof (fone_pos f F0) as Q. pose proof (fone_IZR_pos f F0) as P. set (q := IZR (fone f)) in *.
  assert (SUM : forall (g : Cartesian Z * Cartesian Z -> R) (h : Cartesian Z * Cartesian Z -> Z), (forall x, g x = IZR (h x) / (q * q))%R ->
    fold_right Rplus 0%R (map g ws) = (IZR (sumZ (map h ws)) / (q * q))%R).
  { intros g h Hg. clear - Hg P. induction ws as [|x l IH]; cbn [map fold_right sumZ]; [unfold Rdiv; ring|]. rewrite IH, Hg, plus_IZR. field. lra. }
  assert (VQ : forall a, v a = (IZR (a * fone f) / (q * q))%R).
  { intros. unfold v. rewrite fval_eq by auto. rewrite mult_IZR. fold q. field. lra. }
  assert (VV : forall a b, (v a * v b = IZR (a * b) / (q * q))%R).
  { intros. unfold v. rewrite !fval_eq by auto. rewrite mult_IZR. fold q. field. lra. }
  assert (PP : (0 < q * q)%R) by (apply Rmult_lt_0_compat; auto). assert (PI : (0 < / (q * q))%R) by (apply Rinv_0_lt_compat; auto).
  assert (AB : forall a, (Rabs (IZR a / (q * q)) = IZR (Z.abs a) / (q * q))%R).
  { intros. unfold Rdiv. rewrite Rabs_mult, (Rabs_pos_eq (/ _)) by lra. rewrite abs_IZR. reflexivity. }
  assert (U : ulp f = (IZR (fone f) / (q * q))%R) by (rewrite ulp_eq by auto; unfold q; field; unfold q in P; lra).
  assert (LE : forall a b, a <= b -> (IZR a / (q * q) <= IZR b / (q * q))%R).
  { intros. apply Rmult_le_compat_r; [lra|]. apply IZR_le; auto. }
  assert (EL : forall a b, (IZR a / (q * q) <= IZR b / (q * q))%R -> a <= b).
  { intros a b H. apply le_IZR. apply Rmult_le_reg_r with (/ (q * q))%R; auto. }
  assert (AD : forall a b, (IZR a / (q * q) + IZR b / (q * q) = IZR (a + b) / (q * q))%R) by (intros; rewrite plus_IZR; field; lra).
  assert (SB : forall a b, (IZR a / (q * q) - IZR b / (q * q) = IZR (a - b) / (q * q))%R) by (intros; rewrite minus_IZR; field; lra).
  assert (ML : forall a b, (IZR a * (IZR b / (q * q)) = IZR (a * b) / (q * q))%R) by (intros; rewrite mult_IZR; field; lra).
  assert (NI : n = IZR (Z.of_nat (length ws))) by apply INR_IZR_INZ.
  assert (Eer : er = (IZR (re acc * fone f + sumZ (map pre ws)) / (q * q))%R).
  { unfold er. rewrite (SUM _ pre), VQ, AD; [reflexivity|]. intros x. unfold pre. rewrite !VV, SB. reflexivity. }
  assert (Eei : ei = (IZR (im acc * fone f + sumZ (map pim ws)) / (q * q))%R).
  { unfold ei. rewrite (SUM _ pim), VQ, AD; [reflexivity|]. intros x. unfold pim. rewrite !VV, AD. reflexivity. }
  assert (Ear : ar = (IZR (Z.abs (re acc * fone f) + sumZ (map are ws)) / (q * q))%R).
  { unfold ar. rewrite (SUM _ are), VQ, AB, AD; [reflexivity|]. intros x. unfold are. rewrite !VV, !AB, AD. reflexivity. }
  assert (Eai : ai = (IZR (Z.abs (im acc * fone f) + sumZ (map aim ws)) / (q * q))%R).
  { unfold ai. rewrite (SUM _ aim), VQ, AB, AD; [reflexivity|]. intros x. unfold aim. rewrite !VV, !AB, AD. reflexivity. }
  split.
  - intros r H. destruct (mac_returns f Q ws acc r H) as (A1 & A2 & A3). cbv zeta in A1, A2.
    rewrite Eer, Eei, !VQ, !SB, U, NI, AB, ML. replace (- (2 * IZR (Z.of_nat (length ws))))%R with (IZR (- (2 * Z.of_nat (length ws)))) by (rewrite opp_IZR, mult_IZR; reflexivity).
    rewrite ML. replace 0%R with (IZR 0 / (q * q))%R by (unfold Rdiv; ring). repeat split; try apply LE; try lia. exact A3.
  - intros S HA HB. rewrite Ear, U, NI, ML, VQ, AD in HA. replace (2 * n)%R with (IZR (2 * Z.of_nat (length ws))) in HB by (rewrite mult_IZR, NI; reflexivity).
    rewrite Eai, U, ML, VQ, AD in HB. apply EL in HA, HB. unfold fmax, imax, fity in HA, HB. cbn [isigned iwidth] in HA, HB. rewrite S in HA, HB.
    assert (1 <= fwidth f) by (unfold fwf in W; lia).
    apply (mac_total f Q S) with (Er := Z.abs (re acc * fone f)) (Ei := Z.abs (im acc * fone f)) (k := 0); try lia.
Qed.
