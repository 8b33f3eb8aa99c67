(** * Proofs about linear filters in state-space form. *)

From Coq Require Import ZArith Reals Lia Lra List Bool.
From Flocq Require Import Core.Core IEEE754.BinarySingleNaN.
From Verif Require Import Base FloatBase Traits FixedPrim FixedImpl FloatImpl Spec SpecStateSpace Lemmas ScalarProofs ScalarProofs2 ProdProofs PhaseAcc FilterProofs PolarProofs QuotProofs FloatLemmas FloatArith MagProofs FormulaProofs UFormulaProofs.
Import ListNotations.
Open Scope Z_scope.

(** ** the exact filter *)
Lemma dot_bound : forall X w s, bounded X w s -> forall a, (Rabs (dot a s) <= X * wsum a w)%R.
Proof.
  induction 1 as [|w0 s0 w s H HF IH]; intros [|a0 a]; cbn [dot wsum]; try (rewrite Rabs_R0; lra).
  eapply Rle_trans; [apply Rabs_triang|]. rewrite Rabs_mult. specialize (IH a). pose proof (Rabs_pos a0). assert (Rabs a0 * Rabs s0 <= Rabs a0 * (X * w0))%R by (apply Rmult_le_compat_l; auto). lra.
Qed.
Lemma close_dot : forall rho w s y, close rho w s y -> forall a, (Rabs (dot a s - dot a y) <= rho * wsum a w)%R.
Proof.
  induction w as [|w0 w IH]; intros [|s0 s] [|y0 y] H [|a0 a]; try contradiction; cbn [dot wsum]; rewrite ?Rminus_0_r, ?Rabs_R0; try lra.
  destruct H as [H H']. specialize (IH s y H' a). replace (a0 * s0 + dot a s - (a0 * y0 + dot a y))%R with (a0 * (s0 - y0) + (dot a s - dot a y))%R by ring.
  eapply Rle_trans; [apply Rabs_triang|]. rewrite Rabs_mult. pose proof (Rabs_pos a0). assert (Rabs a0 * Rabs (s0 - y0) <= Rabs a0 * (rho * w0))%R by (apply Rmult_le_compat_l; auto). lra.
Qed.
Lemma dot_minus : forall a b s, length a = length b -> (dot a s - dot b s = dot (minus a b) s)%R.
Proof.
  induction a as [|a0 a IH]; intros [|b0 b] [|s0 s] H; try discriminate; cbn [dot minus combine map fst snd]; try ring. injection H as H. specialize (IH b s H). unfold minus in IH. cbn [fst snd] in IH. rewrite <- IH. ring.
Qed.
Lemma close_sym_len : forall rho w s y, close rho w s y -> length s = length w /\ length y = length w.
Proof. induction w as [|w0 w IH]; intros [|s0 s] [|y0 y] H; try contradiction; cbn [length]; [auto|]. destruct H as [_ H]. destruct (IH _ _ H). lia. Qed.
Lemma affineR_bound : forall X U L w y, bounded X w y -> (0 <= X)%R -> forall w' A c, Forall2 (fun w0 a => wsum a w <= L * w0)%R w' A -> bounded U w' c -> bounded (L * X + U) w' (affineR A c y).
Proof.
  intros X U L w y By X0. induction w' as [|w0 w' IH]; intros A c HA HC; inversion HA as [|? a ? A' Ha HA']; subst; inversion HC as [|? c0 ? c' Hc HC']; subst; cbn [affineR]; constructor; auto.
  - eapply Rle_trans; [apply Rabs_triang|]. pose proof (dot_bound _ _ _ By a). assert (X * wsum a w <= X * (L * w0))%R by (apply Rmult_le_compat_l; auto). lra.
  - apply IH; auto.
Qed.

(** ** any type *)
Section Any.
Context {T : Type} (O : MixedOps T) (val : T -> R) (ok : T -> Prop) (B mu : R).
Hypothesis Hmul : forall a b, ok a -> ok b -> (Rabs (val a * val b) <= B)%R -> exists p, o_mul O a b = Ok p /\ ok p /\ (Rabs (val p - val a * val b) <= mu)%R.
Variable sg : R.
Hypothesis Hadd : forall a b, ok a -> ok b -> (Rabs (val a + val b) <= B)%R -> exists p, o_add O a b = Ok p /\ ok p /\ (Rabs (val p - (val a + val b)) <= sg)%R.
Hypotheses (M0 : (0 <= mu)%R) (S0 : (0 <= sg)%R).
Lemma wsum_pos : forall w, Forall (fun w => 0 <= w)%R w -> forall a, (0 <= wsum a w)%R.
Proof using. induction 1 as [|w0 w H HF IH]; intros [|a0 a]; cbn [wsum]; try lra. specialize (IH a). pose proof (Rmult_le_pos _ _ (Rabs_pos a0) H). lra. Qed.
Lemma dot_near : forall X w, (0 <= X)%R -> Forall (fun w => 0 <= w)%R w -> forall s, bounded X w (map val s) -> Forall ok s -> forall a acc, Forall ok a -> ok acc ->
  (Rabs (val acc) + X * wsum (map val a) w + INR (length w) * (mu + sg) <= B)%R ->
  exists r, add_dot O acc a s = Ok r /\ ok r /\ (Rabs (val r - (val acc + dot (map val a) (map val s))) <= INR (length w) * (mu + sg))%R.
Proof using Hmul Hadd M0 S0.
  intros X w X0. induction w as [|w0 w IH]; intros W0 s HB HO a acc HA Ha HS.
  - destruct s as [|s0 s]; [|inversion HB]. exists acc. destruct a; (split; [reflexivity|]); (split; [exact Ha|]); cbn [map dot length INR]; rewrite Rplus_0_r, Rminus_diag_eq, Rabs_R0 by reflexivity; lra.
  - destruct s as [|s0 s]; [inversion HB|]. cbn [map] in HB. inversion HB as [|? ? ? ? H0 HB']; subst. inversion HO as [|? ? O0 HO']; subst. inversion W0 as [|? ? P0 W0']; subst.
    assert (NP : (0 <= INR (length w) * (mu + sg))%R) by (apply Rmult_le_pos; [apply pos_INR|lra]).
    destruct a as [|a0 a].
    { exists acc. split; [reflexivity|]. split; [exact Ha|]. cbn [map dot]. rewrite Rplus_0_r, Rminus_diag_eq, Rabs_R0 by reflexivity. apply Rmult_le_pos; [apply pos_INR|lra]. }
    inversion HA as [|? ? A0 HA']; subst. cbn [map wsum dot] in HS |- *. cbn [length] in HS |- *. rewrite S_INR in HS |- *.
    pose proof (Rmult_le_pos _ _ X0 (wsum_pos w W0' (map val a))) as WP. pose proof (Rabs_pos (val acc)) as AP.
    assert (PB : (Rabs (val a0 * val s0) <= X * (Rabs (val a0) * w0))%R). { rewrite Rabs_mult. pose proof (Rabs_pos (val a0)). assert (Rabs (val a0) * Rabs (val s0) <= Rabs (val a0) * (X * w0))%R by (apply Rmult_le_compat_l; auto). lra. }
    destruct (Hmul a0 s0 A0 O0) as (p & Ep & Op & Bp); [lra|].
    assert (D1 : (Rabs (val acc + val p) <= Rabs (val acc) + X * (Rabs (val a0) * w0) + mu)%R). { eapply Rle_trans; [apply Rabs_triang|]. pose proof (abs_near _ _ _ Bp). lra. }
    destruct (Hadd acc p Ha Op) as (q & Eq & Oq & Bq); [lra|].
    assert (D2 : (Rabs (val q) <= Rabs (val acc) + X * (Rabs (val a0) * w0) + mu + sg)%R) by (pose proof (abs_near _ _ _ Bq); lra).
    destruct (IH W0' s HB' HO' a q HA' Oq) as (r & Er & Or & Br); [lra|].
    exists r. split; [cbn [add_dot]; rewrite Ep; cbn [bind]; rewrite Eq; cbn [bind]; exact Er|]. split; [exact Or|].
    apply Rabs_le_inv in Bp, Bq, Br. apply Rabs_le. lra.
Qed.

Variables (X U L kappa q nu : R) (w : list R) (A : list (list T)) (A' : list (list R)).
Hypotheses (X0 : (0 <= X)%R) (K0 : (0 <= kappa)%R) (Q0 : (0 <= q)%R) (N0 : (0 <= nu)%R) (W0 : Forall (fun w => 0 <= w)%R w) (OA : Forall (Forall ok) A) (GA : gain L w (map (map val) A)) (GA' : gain L w A').
Hypothesis NA : matrix_near q w (map (map val) A) A'.
Hypotheses (RU : Forall (fun w0 => INR (length w) * (mu + sg) <= nu * w0)%R w) (Room : (L * X + U + nu <= X)%R) (Top : Forall (fun w0 => X * w0 <= B)%R w) (L1 : (0 <= L < 1)%R).
Lemma step_near : forall s y c c' rho, (0 <= rho)%R -> Forall ok s -> Forall ok c -> bounded X w (map val s) -> bounded X w y -> close rho w (map val s) y ->
  bounded U w (map val c) -> close kappa w (map val c) c' ->
  exists r, affine O A c s = Ok r /\ Forall ok r /\ bounded X w (map val r) /\ close (L * rho + (kappa + q * X + nu)) w (map val r) (affineR A' c' y).
Proof using Hmul Hadd M0 S0 X0 W0 OA GA GA' NA RU Room Top.
  clear GA'. intros s y c c' rho R0 Os Oc Bs By Ap Bc Cc. unfold gain, matrix_near in *. clear L1.
  assert (ML := proj1 NA). assert (MN := proj2 NA). clear NA.
  assert (Pos := W0). revert A A' OA GA ML MN c c' Oc Bc Cc.
  assert (Gen : forall w', Forall (fun w0 => 0 <= w0)%R w' -> Forall (fun w0 => INR (length w) * (mu + sg) <= nu * w0)%R w' -> Forall (fun w0 => X * w0 <= B)%R w' ->
    forall A A', Forall (Forall ok) A -> Forall2 (fun w0 a => wsum a w <= L * w0)%R w' (map (map val) A) -> Forall2 (fun a a' : list R => length a = length a') (map (map val) A) A' ->
    Forall2 (fun w0 a => wsum a w <= q * w0)%R w' (map (fun p => minus (fst p) (snd p)) (combine (map (map val) A) A')) ->
    forall c c', Forall ok c -> bounded U w' (map val c) -> close kappa w' (map val c) c' ->
    exists r, affine O A c s = Ok r /\ Forall ok r /\ bounded X w' (map val r) /\ close (L * rho + (kappa + q * X + nu)) w' (map val r) (affineR A' c' y)).
  2:{ intros A1 A1' OA1 GA1 ML1 MN1 c c' Oc Bc Cc. apply Gen; auto. }
  clear RU Top Pos.
  induction w' as [|w0 w' IH]; intros P1 R1 T1 A1 A1' OA1 GA1 ML1 MN1 c c' Oc Bc Cc.
  - destruct A1 as [|a A1]; [|inversion GA1]. inversion ML1; subst. destruct c as [|c0 c]; [|inversion Bc]. exists []. split; [reflexivity|]. split; [constructor|]. split; [constructor|exact I].
  - destruct A1 as [|a A1]; [inversion GA1|]. destruct A1' as [|a' A1']; [inversion ML1|]. destruct c as [|c0 c]; [inversion Bc|]. destruct c' as [|c0' c']; [destruct Cc|].
    cbn [map combine fst snd] in *. inversion P1; subst. inversion R1 as [|? ? R10 ?]; subst. inversion T1 as [|? ? T10 ?]; subst. inversion OA1 as [|? ? Oa ?]; subst. inversion GA1 as [|? ? ? ? Ga ?]; subst.
    inversion ML1 as [|? ? ? ? Ml ?]; subst. inversion MN1 as [|? ? ? ? Mn ?]; subst. inversion Oc as [|? ? Oc0 ?]; subst. inversion Bc as [|? ? ? ? Bc0 ?]; subst. destruct Cc as [Cc0 Cc'].
    assert (XG : (X * wsum (map val a) w <= X * (L * w0))%R) by (apply Rmult_le_compat_l; auto).
    assert (XR : ((L * X + U + nu) * w0 <= X * w0)%R) by (apply Rmult_le_compat_r; auto).
    destruct (dot_near X w X0 W0 s Bs Os a c0 Oa Oc0) as (r & Er & Or & Br); [lra|].
    destruct IH with (A := A1) (A' := A1') (c := c) (c' := c') as (rs & Ers & Ors & Brs & Crs); auto.
    exists (r :: rs). split; [cbn [affine]; rewrite Er; cbn [bind]; rewrite Ers; reflexivity|]. split; [constructor; auto|]. cbn [map affineR close].
    pose proof (dot_bound _ _ _ Bs (map val a)) as DB. split; [constructor; [|exact Brs]|split; [|exact Crs]].
    + apply Rabs_le_inv in Br, DB, Bc0. apply Rabs_le. lra.
    + pose proof (close_dot _ _ _ _ Ap (map val a)) as CD. pose proof (dot_minus (map val a) a' y Ml) as DM. pose proof (dot_bound _ _ _ By (minus (map val a) a')) as DB'. rewrite <- DM in DB'.
      assert (XQ : (X * wsum (minus (map val a) a') w <= X * (q * w0))%R) by (apply Rmult_le_compat_l; auto). assert (RG : (rho * wsum (map val a) w <= rho * (L * w0))%R) by (apply Rmult_le_compat_l; auto).
      apply Rabs_le_inv in Br, Cc0, CD, DB'. apply Rabs_le. lra.
Qed.
Theorem state_space_near : forall cs cs', Forall2 (fun c c' => Forall ok c /\ bounded U w (map val c) /\ bounded U w c' /\ close kappa w (map val c) c') cs cs' ->
  forall s y rho, (0 <= rho)%R -> Forall ok s -> bounded X w (map val s) -> bounded X w y -> close rho w (map val s) y ->
  exists r, state_space O A s cs = Ok r /\ Forall ok r /\ bounded X w (map val r) /\ bounded X w (state_spaceR A' y cs') /\
  close (L ^ length cs * rho + (kappa + q * X + nu) * (1 - L ^ length cs) / (1 - L)) w (map val r) (state_spaceR A' y cs').
Proof using All.
  induction 1 as [|c c' cs cs' (Oc & Bc & Bc' & Cc) HF IH]; intros s y rho R0 Os Bs By Ap.
  - exists s. split; [reflexivity|]. split; [auto|]. split; [auto|]. split; [auto|]. cbn [length pow state_spaceR]. replace (1 * rho + (kappa + q * X + nu) * (1 - 1) / (1 - L))%R with rho by (field; lra). exact Ap.
  - destruct (step_near s y c c' rho R0 Os Oc Bs By Ap Bc Cc) as (t & Et & Ot & Bt & Ct).
    assert (By' : bounded X w (affineR A' c' y)).
    { pose proof (affineR_bound X U L w y By X0 w A' c' GA' Bc') as H. unfold bounded in *. clear - H W0 Room N0. revert H W0. generalize (affineR A' c' y). induction w as [|w0 w' IH]; intros l H W; inversion H; subst; constructor.
      - inversion W; subst. eapply Rle_trans; [eassumption|]. apply Rmult_le_compat_r; lra.
      - apply IH; [assumption|inversion W; assumption]. }
    assert (P : (0 <= L * rho + (kappa + q * X + nu))%R) by (pose proof (Rmult_le_pos L rho); pose proof (Rmult_le_pos q X); lra).
    destruct (IH t (affineR A' c' y) _ P Ot Bt By' Ct) as (r & Er & Or & Br & Byr & Cr).
    exists r. split; [cbn [state_space]; rewrite Et; exact Er|]. split; [auto|]. split; [auto|]. split; [exact Byr|]. cbn [length pow state_spaceR].
    replace (L * L ^ length cs * rho + (kappa + q * X + nu) * (1 - L * L ^ length cs) / (1 - L))%R with (L ^ length cs * (L * rho + (kappa + q * X + nu)) + (kappa + q * X + nu) * (1 - L ^ length cs) / (1 - L))%R by (field; lra). exact Cr.
Qed.
End Any.

(** ** fixed point *)
Section Fixed.
Variables (m : mode) (f : fty).
Hypothesis Hf : supported f = true.
Let W : fwf f := supported_fwf f Hf.
Notation top := (fval f (fmax f)).
Lemma fix_add : forall a b, fvalid f a -> fvalid f b -> (Rabs (fval f a + fval f b) <= top - ulp f)%R -> exists p, o_add (fixed_ops m f) a b = Ok p /\ fvalid f p /\ (Rabs (fval f p - (fval f a + fval f b)) <= 0)%R.
Proof using Hf.
  intros a b Va Vb H. assert (U : (0 < ulp f)%R) by apply bpow_gt_0. exists (a + b). cbn [o_add fixed_ops]. unfold fx_add. rewrite fval_add, Rminus_eq_0, Rabs_R0. destruct (fsigned f) eqn:S.
  - split; [apply fin_room; auto; rewrite fval_add; lra|]. split; [apply in_room; auto; rewrite fval_add; lra|lra].
  - destruct (u_pos f Hf S a Va), (u_pos f Hf S b Vb). pose proof (Rle_abs (fval f a + fval f b)). destruct (u_room m f Hf S (a + b)) as [I F]; [lia|rewrite fval_add; lra|]. split; [exact F|]. split; [exact I|lra].
Qed.
Lemma fix_mul : forall a b, fvalid f a -> fvalid f b -> (Rabs (fval f a * fval f b) <= top - ulp f)%R -> exists p, o_mul (fixed_ops m f) a b = Ok p /\ fvalid f p /\ (Rabs (fval f p - fval f a * fval f b) <= ulp f)%R.
Proof using Hf.
  intros a b Va Vb H. assert (U : (0 < ulp f)%R) by apply bpow_gt_0. pose proof (fval_mul f a b (proj1 W)) as [Lo Up]. pose proof (fone_pos f (proj1 W)) as F1.
  assert (Bd : (Rabs (fval f (a * b / fone f) - fval f a * fval f b) <= ulp f)%R) by (apply Rabs_le; lra). pose proof (abs_near _ _ _ Bd) as AP.
  exists (a * b / fone f). destruct (fsigned f) eqn:S.
  - split; [apply fin_room; auto; lra|]. split; [apply in_room; auto; lra|exact Bd].
  - destruct (u_pos f Hf S a Va), (u_pos f Hf S b Vb). pose proof (Rle_abs (fval f (a * b / fone f))). destruct (u_room m f Hf S (a * b / fone f)) as [I F]; [apply Z.div_pos; nia|lra|]. split; [exact F|]. split; [exact I|exact Bd].
Qed.
Theorem state_space_fixed : forall X U L kappa q nu w A A', Forall (Forall (fvalid f)) A -> stable (top - ulp f) (ulp f) X U L nu w (map (map (fval f)) A) A' ->
  (0 <= kappa)%R -> (0 <= q)%R -> matrix_near q w (map (map (fval f)) A) A' ->
  forall cs cs', Forall2 (fun c c' => Forall (fvalid f) c /\ bounded U w (map (fval f) c) /\ bounded U w c' /\ close kappa w (map (fval f) c) c') cs cs' ->
  forall s y rho, (0 <= rho)%R -> Forall (fvalid f) s -> bounded X w (map (fval f) s) -> bounded X w y -> close rho w (map (fval f) s) y ->
  exists r, state_space (fixed_ops m f) A s cs = Ok r /\ Forall (fvalid f) r /\ bounded X w (map (fval f) r) /\ bounded X w (state_spaceR A' y cs') /\
  close (L ^ length cs * rho + (kappa + q * X + nu) * (1 - L ^ length cs) / (1 - L)) w (map (fval f) r) (state_spaceR A' y cs').
Proof using Hf.
  intros X U L kappa q nu w A A' OA ((X0 & L1 & N0 & RM) & GA & GA' & HW) K0 Q0 NA. assert (UP : (0 < ulp f)%R) by apply bpow_gt_0.
  apply (state_space_near (fixed_ops m f) (fval f) (fvalid f) (top - ulp f) (ulp f) fix_mul 0 fix_add); auto; try lra.
  - eapply Forall_impl; [|exact HW]. cbv beta. intros; lra.
  - eapply Forall_impl; [|exact HW]. cbv beta. intros w0 H. rewrite Rplus_0_r. lra.
  - eapply Forall_impl; [|exact HW]. cbv beta. intros; lra.
Qed.
End Fixed.

(** ** floats *)
Section Flt.
Context {p e : Z} {Hp : Prec_gt_0 p} {He : Prec_lt_emax p e}.
Hypotheses (Pp : 24 <= p) (Pe : 128 <= e).
Notation u := (bpow radix2 (- p)).
Notation eta := (bpow radix2 (3 - e - p)).
Variable B : R.
Hypothesis HB : (B <= bpow radix2 (e - 1))%R.
Notation err := (u * B + / 2 * eta)%R.
Lemma flt_top : forall v, (Rabs v <= B)%R -> (Rabs v + (u * Rabs v + / 2 * eta) <= bpow radix2 e - bpow radix2 (e - p))%R.
Proof using Pp Pe HB.
  intros v H. assert (U : (u <= / 16)%R) by (change (/ 16)%R with (bpow radix2 (-4)); apply bpow_le; lia). assert (U0 : (0 < u)%R) by apply bpow_gt_0.
  assert (E1 : (bpow radix2 e = 2 * bpow radix2 (e - 1))%R) by (replace e with (1 + (e - 1)) at 1 by lia; rewrite bpow_plus; reflexivity).
  assert (E2 : (bpow radix2 (e - p) = 2 * (bpow radix2 (e - 1) * u))%R) by (rewrite <- bpow_plus; replace (e - p) with (1 + (e - 1 + - p)) by lia; rewrite bpow_plus; reflexivity).
  assert (E3 : (eta <= / 8 * bpow radix2 (e - 1))%R) by (change (/ 8)%R with (bpow radix2 (-3)); rewrite <- bpow_plus; apply bpow_le; lia).
  pose proof (bpow_gt_0 radix2 (e - 1)) as P1. pose proof (Rabs_pos v).
  assert (u * Rabs v <= / 16 * bpow radix2 (e - 1))%R by (apply Rmult_le_compat; lra). assert (bpow radix2 (e - 1) * u <= bpow radix2 (e - 1) * / 16)%R by (apply Rmult_le_compat_l; lra). lra.
Qed.
Lemma flt_err : forall v, (Rabs v <= B)%R -> (u * Rabs v + / 2 * eta <= err)%R.
Proof using. intros v H. apply Rplus_le_compat_r, Rmult_le_compat_l; [apply bpow_ge_0|exact H]. Qed.
Lemma flt_add : forall a b : binary_float p e, is_finite a = true -> is_finite b = true -> (Rabs (B2R a + B2R b) <= B)%R -> exists r, o_add float_ops a b = Ok r /\ is_finite r = true /\ (Rabs (B2R r - (B2R a + B2R b)) <= err)%R.
Proof using Pp Pe HB.
  intros a b Fa Fb H. destruct (rnd_top (prec:=p) (emax:=e) _ (flt_top _ H)) as [Lt Bd]. destruct (plus_ok a b Fa Fb Lt) as [F V]. exists (Bplus mode_NE a b). split; [reflexivity|]. split; [exact F|]. rewrite V. pose proof (flt_err _ H). lra.
Qed.
Lemma flt_mul : forall a b : binary_float p e, is_finite a = true -> is_finite b = true -> (Rabs (B2R a * B2R b) <= B)%R -> exists r, o_mul float_ops a b = Ok r /\ is_finite r = true /\ (Rabs (B2R r - B2R a * B2R b) <= err)%R.
Proof using Pp Pe HB.
  intros a b Fa Fb H. destruct (rnd_top (prec:=p) (emax:=e) _ (flt_top _ H)) as [Lt Bd]. pose proof (Bmult_correct p e _ _ mode_NE a b) as C. cbn [round_mode] in C. rewrite Rlt_bool_true in C by exact Lt. destruct C as (V & F & _). rewrite Fa, Fb in F.
  exists (Bmult mode_NE a b). split; [reflexivity|]. split; [exact F|]. rewrite V. pose proof (flt_err _ H). lra.
Qed.
Theorem state_space_float : (0 <= B)%R -> forall X U L kappa q nu w (A : list (list (binary_float p e))) A', Forall (Forall (fun a => is_finite a = true)) A -> stable B (2 * err) X U L nu w (map (map B2R) A) A' ->
  (0 <= kappa)%R -> (0 <= q)%R -> matrix_near q w (map (map B2R) A) A' ->
  forall cs cs', Forall2 (fun c c' => Forall (fun a => is_finite a = true) c /\ bounded U w (map B2R c) /\ bounded U w c' /\ close kappa w (map B2R c) c') cs cs' ->
  forall s y rho, (0 <= rho)%R -> Forall (fun a => is_finite a = true) s -> bounded X w (map B2R s) -> bounded X w y -> close rho w (map B2R s) y ->
  exists r, state_space float_ops A s cs = Ok r /\ Forall (fun a => is_finite a = true) r /\ bounded X w (map B2R r) /\ bounded X w (state_spaceR A' y cs') /\
  close (L ^ length cs * rho + (kappa + q * X + nu) * (1 - L ^ length cs) / (1 - L)) w (map B2R r) (state_spaceR A' y cs').
Proof using Pp Pe HB.
  intros B0 X U L kappa q nu w A A' OA ((X0 & L1 & N0 & RM) & GA & GA' & HW) K0 Q0 NA.
  assert (E0 : (0 <= err)%R) by (pose proof (Rmult_le_pos _ _ (bpow_ge_0 radix2 (- p)) B0); pose proof (bpow_gt_0 radix2 (3 - e - p)); lra).
  apply (state_space_near float_ops B2R (fun a => is_finite a = true) B err flt_mul err flt_add); auto; try lra.
  - eapply Forall_impl; [|exact HW]. cbv beta. intros; lra.
  - eapply Forall_impl; [|exact HW]. cbv beta. intros w0 H. replace (err + err)%R with (2 * err)%R by ring. lra.
  - eapply Forall_impl; [|exact HW]. cbv beta. intros; lra.
Qed.
End Flt.
