(** * Complex division on fixed-point formats (proofs for C35). *)

From Coq Require Import ZArith Reals Lia Lra Psatz Bool List.
From Flocq Require Import Core.Core.
From Verif Require Import Base FloatBase Traits IntImpl FixedPrim FixedImpl Complex Spec Lemmas ScalarProofs ScalarProofs2 ComplexProofs ComplexProofs2 ComplexProofs3 ProdProofs.
Import ListNotations.
Open Scope Z_scope.

Lemma fin_dbg : forall t z r, fin Debug t z = Ok r -> r = z.
Proof. intros t z r. rewrite fin_debug_if. destruct (in_rangeb t z); intros H; inversion H; reflexivity. Qed.
Lemma fmul_dbg : forall f a b r, fx_mul Debug f a b = Ok r -> r = a * b / fone f.
Proof. intros f a b r H. apply fin_dbg in H. exact H. Qed.
Lemma fdiv_dbg : forall f a b r, fx_div Debug f a b = Ok r -> b <> 0 /\ r = Z.quot (a * fone f) b.
Proof. intros f a b r H. unfold fx_div in H. destruct (b =? 0) eqn:E; [discriminate|]. apply Z.eqb_neq in E. apply fin_dbg in H. auto. Qed.

Lemma quot_err : forall a b, b <> 0 -> Z.abs (Z.quot a b * b - a) < Z.abs b.
Proof. intros a b H. pose proof (Z.quot_rem' a b). pose proof (Z.rem_bound_abs a b H). lia. Qed.

Lemma ratio_err : forall u n N s S Q r : R, (0 < u -> 4 * u <= S -> Q * S = N -> Rabs (n - N) <= 2 * u -> S - 2 * u <= s <= S -> Rabs (r * s - n) <= u * s ->
  Rabs (r - Q) <= u + 4 * u * (1 + Rabs Q) / S)%R.
Proof.
  intros u n N s S Q r U HS HQ Hn Hs Hr. assert (S0 : (0 < s)%R) by lra.
  assert (E : (Rabs ((r - Q) * s) <= u * s + 2 * u * (1 + Rabs Q))%R).
  { replace ((r - Q) * s)%R with ((r * s - n) + (n - N) + Q * (S - s))%R by (rewrite <- HQ; ring).
    eapply Rle_trans; [apply Rabs_triang|]. eapply Rle_trans; [apply Rplus_le_compat_r, Rabs_triang|]. rewrite (Rabs_mult Q), (Rabs_pos_eq (S - s)) by lra.
    pose proof (Rabs_pos Q). nra. }
  rewrite Rabs_mult, (Rabs_pos_eq s) in E by lra. apply Rmult_le_reg_r with s; auto. eapply Rle_trans; [exact E|].
  assert (K : (2 * u * (1 + Rabs Q) <= 4 * u * (1 + Rabs Q) / S * s)%R).
  { apply Rmult_le_reg_r with S; [lra|]. replace (4 * u * (1 + Rabs Q) / S * s * S)%R with (4 * u * (1 + Rabs Q) * s)%R by (field; lra).
    pose proof (Rabs_pos Q). assert (0 <= 2 * u * (1 + Rabs Q))%R by nra. nra. }
  lra.
Qed.

Lemma div_fixed_value : forall f, supported f = true -> forall z w r, cvalid (fity f) z -> cvalid (fity f) w ->
  let a := fval f (re z) in let b := fval f (im z) in let c := fval f (re w) in
  (2 * ulp f <= c * c)%R -> cartesian_div (fixed_ops Debug f) (fixed_powi Debug f) z w = Ok r ->
  let x := ((a + b) / (2 * c))%R in let y := ((b - a) / (2 * c))%R in
  (Rabs (fval f (re r) - x) <= ulp f + 2 * ulp f * (1 + Rabs x) / (c * c))%R /\
  (Rabs (fval f (im r) - y) <= ulp f + 2 * ulp f * (1 + Rabs y) / (c * c))%R /\
  cartesian_div (fixed_ops Release f) (fixed_powi Release f) z w = Ok r.
Proof.
  intros f Hf z w r Vz Vw a b c HC H x y. pose proof (supported_fwf f Hf) as W. pose proof (proj1 W) as F0.
  pose proof (fone_pos f F0) as Q. pose proof (fone_IZR_pos f F0) as P.
  assert (VC : fvalid f (re w)) by apply Vw.
  unfold cartesian_div in *. cbv zeta in *. rewrite !fixed_powi_2 in * by assumption.
  change (o_mul (fixed_ops Debug f)) with (fx_mul Debug f) in H. change (o_add (fixed_ops Debug f)) with (fun a b => fin Debug (fity f) (a + b)) in H.
  change (o_sub (fixed_ops Debug f)) with (fun a b => fin Debug (fity f) (a - b)) in H. change (o_div (fixed_ops Debug f)) with (fx_div Debug f) in H.
  change (o_mul (fixed_ops Release f)) with (fx_mul Release f). change (o_add (fixed_ops Release f)) with (fun a b => fin Release (fity f) (a + b)).
  change (o_sub (fixed_ops Release f)) with (fun a b => fin Release (fity f) (a - b)). change (o_div (fixed_ops Release f)) with (fx_div Release f).
  cbv beta in *.
  assert (DR : forall a b v, fx_div Debug f a b = Ok v -> fx_div Release f a b = Ok v).
  { intros a0 b0 v H0. unfold fx_div in *. destruct (b0 =? 0); [discriminate|]. apply fin_debug_release. exact H0. }
  assert (MR : forall a b v, fx_mul Debug f a b = Ok v -> fx_mul Release f a b = Ok v) by (intros a0 b0 v H0; apply fin_debug_release; exact H0).
  destruct (fx_mul Debug f (re z) (re w)) as [ac| |] eqn:E1; cbn [bind] in H; try discriminate. rewrite (MR _ _ _ E1). cbn [bind].
  destruct (fx_mul Debug f (im z) (re w)) as [bd| |] eqn:E2; cbn [bind] in H; try discriminate. rewrite (MR _ _ _ E2). cbn [bind].
  destruct (fin Debug (fity f) (ac + bd)) as [n| |] eqn:E3; cbn [bind] in H; try discriminate. rewrite (fin_debug_release _ _ _ E3). cbn [bind].
  destruct (fx_mul Debug f (re w) (re w)) as [c2| |] eqn:E4; cbn [bind] in H; try discriminate. rewrite (MR _ _ _ E4). cbn [bind].
  destruct (fin Debug (fity f) (c2 + c2)) as [s| |] eqn:E5; cbn [bind] in H; try discriminate. rewrite (fin_debug_release _ _ _ E5). cbn [bind].
  destruct (fx_div Debug f n s) as [rr| |] eqn:E6; cbn [bind] in H; try discriminate. rewrite (DR _ _ _ E6). cbn [bind].
  destruct (fin Debug (fity f) (bd - ac)) as [n'| |] eqn:E7; cbn [bind] in H; try discriminate. rewrite (fin_debug_release _ _ _ E7). cbn [bind].
  destruct (fx_div Debug f n' s) as [ii| |] eqn:E8; cbn [bind] in H; try discriminate. rewrite (DR _ _ _ E8). cbn [bind].
  injection H as <-. cbn [re im]. apply fmul_dbg in E1, E2, E4. apply fin_dbg in E3, E5, E7. apply fdiv_dbg in E6, E8. destruct E6 as [S0 E6]. destruct E8 as [_ E8].
  pose proof (quot_err (n * fone f) s S0) as Q1. rewrite <- E6 in Q1. pose proof (quot_err (n' * fone f) s S0) as Q2. rewrite <- E8 in Q2.
  assert (FL : forall p v, v = p / fone f -> v * fone f <= p < v * fone f + fone f).
  { intros p v ->. pose proof (Z.div_mod p (fone f) ltac:(lia)). pose proof (Z.mod_pos_bound p (fone f) Q). lia. }
  apply FL in E1, E2, E4. clear FL DR MR. clear E6 E8.
  set (q := IZR (fone f)) in *. assert (U : ulp f = (/ q)%R) by (rewrite ulp_eq by auto; reflexivity).
  assert (UP : (0 < / q)%R) by (apply Rinv_0_lt_compat; auto).
  assert (V : forall v, fval f v = (IZR v / q)%R) by (intros; apply fval_eq; auto).
  assert (PV : forall v p g : Z, v * fone f <= p * g < v * fone f + fone f -> (fval f p * fval f g - / q < fval f v <= fval f p * fval f g)%R).
  { intros v p g [A B]. rewrite !V. apply IZR_le in A. apply IZR_lt in B. rewrite plus_IZR, !mult_IZR in *. fold q in A, B. split.
    - apply Rmult_lt_reg_r with (q * q)%R; [nra|]. replace ((IZR p / q * (IZR g / q) - / q) * (q * q))%R with (IZR p * IZR g - q)%R by (field; lra).
      replace (IZR v / q * (q * q))%R with (IZR v * q)%R by (field; lra). lra.
    - apply Rmult_le_reg_r with (q * q)%R; [nra|]. replace ((IZR p / q * (IZR g / q)) * (q * q))%R with (IZR p * IZR g)%R by (field; lra).
      replace (IZR v / q * (q * q))%R with (IZR v * q)%R by (field; lra). lra. }
  apply PV in E1, E2, E4. fold a c in E1. fold b c in E2. fold c in E4.
  assert (PS : forall v p g, v = p + g -> (fval f v = fval f p + fval f g)%R) by (intros v p g ->; rewrite !V, plus_IZR; field; lra).
  assert (MS : forall v p g, v = p - g -> (fval f v = fval f p - fval f g)%R) by (intros v p g ->; rewrite !V, minus_IZR; field; lra).
  apply PS in E3, E5. apply MS in E7.
  assert (C0 : c <> 0%R). { intro Z. rewrite Z, U in HC. lra. }
  assert (SP : (0 < fval f s)%R). { rewrite E5. rewrite U in HC. lra. }
  assert (SZ : 0 < s). { rewrite V in SP. apply lt_IZR. apply Rmult_lt_reg_r with (/ q)%R; auto. unfold Rdiv in SP. lra. }
  rewrite (Z.abs_eq s) in Q1, Q2 by lia.
  assert (QV : forall v g, Z.abs (v * s - g * fone f) < s -> (Rabs (fval f v * fval f s - fval f g) <= / q * fval f s)%R).
  { intros v g HZ. assert (HZ' : Z.abs (v * s - g * fone f) <= s) by lia. apply IZR_le in HZ'. rewrite abs_IZR, minus_IZR, !mult_IZR in HZ'. fold q in HZ'. rewrite !V.
    replace (IZR v / q * (IZR s / q) - IZR g / q)%R with ((IZR v * IZR s - IZR g * q) * (/ q * / q))%R by (field; lra).
    rewrite Rabs_mult, (Rabs_pos_eq (/ q * / q)) by nra. replace (/ q * (IZR s / q))%R with (IZR s * (/ q * / q))%R by (field; lra). apply Rmult_le_compat_r; [nra|exact HZ']. }
  apply QV in Q1, Q2. rewrite U in *.
  assert (FIN : forall (g v : Z) (N X : R), (X * (2 * (c * c)) = N)%R -> (Rabs (fval f g - N) <= 2 * / q)%R -> (Rabs (fval f v * fval f s - fval f g) <= / q * fval f s)%R ->
    (Rabs (fval f v - X) <= / q + 2 * / q * (1 + Rabs X) / (c * c))%R).
  { intros g v N X HX HN HR. eapply Rle_trans; [apply (ratio_err (/ q) (fval f g) N (fval f s) (2 * (c * c)) X (fval f v)); auto; try lra|].
    right. field. split; lra. }
  split; [|split; [|reflexivity]].
  - apply (FIN n rr (a * c + b * c)%R x); auto; [unfold x; field; auto | rewrite E3; apply Rabs_le; lra].
  - apply (FIN n' ii (b * c - a * c)%R y); auto; [unfold y; field; auto | rewrite E7; apply Rabs_le; lra].
Qed.
