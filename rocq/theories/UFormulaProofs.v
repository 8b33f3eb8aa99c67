(** * Proofs about formulas on unsigned fixed-point types. *)

From Coq Require Import ZArith Reals Lia Lra List Bool.
From Flocq Require Import Core.Core.
From Verif Require Import Base Traits FixedPrim FixedImpl Spec SpecFormula SpecUFormula Lemmas ScalarProofs ScalarProofs2 ProdProofs PhaseAcc PolarProofs QuotProofs FormulaProofs.
Open Scope Z_scope.

Section Unsigned.
Variables (m : mode) (f : fty).
Hypotheses (Hf : supported f = true) (Sg : fsigned f = false).
Let W : fwf f := supported_fwf f Hf.
Lemma u_room : forall v, 0 <= v -> (fval f v <= fval f (fmax f))%R -> fvalid f v /\ fx_fin m f v = Ok v.
Proof using Hf Sg.
  intros v V H. apply fval_le in H; [|apply W]. assert (I : fvalid f v). { unfold fvalid, in_range, fmax in *. unfold imin. cbn [fity isigned]. rewrite Sg. split; [exact V|exact H]. }
  split; [exact I|]. unfold fx_fin, fin. apply in_rangeb_true in I. rewrite I. reflexivity.
Qed.
Lemma u_pos : forall v, fvalid f v -> 0 <= v /\ (0 <= fval f v <= fval f (fmax f))%R.
Proof using Hf Sg.
  intros v [L H]. unfold imin in L. cbn [fity isigned] in L. rewrite Sg in L. split; [exact L|]. split.
  - unfold fval. apply Rmult_le_pos; [apply IZR_le; exact L|apply bpow_ge_0].
  - apply fval_le; [apply W|exact H].
Qed.
Lemma fval_sub : forall a b, fval f (a - b) = (fval f a - fval f b)%R.
Proof using. intros. unfold fval. rewrite minus_IZR. ring. Qed.
Lemma u_div : forall a b, fvalid f a -> fvalid f b -> b <> 0 -> (fval f a / fval f b <= fval f (fmax f))%R ->
  exists r, fx_div m f a b = Ok r /\ fvalid f r /\ (Rabs (fval f r - fval f a / fval f b) <= ulp f)%R.
Proof using Hf Sg.
  intros a b Va Vb B H. destruct (u_pos a Va) as [A0 _]. destruct (u_pos b Vb) as [B0 _]. pose proof (fone_IZR_pos f (proj1 W)) as O. pose proof (fone_pos f (proj1 W)) as O'.
  assert (BP : (0 < IZR b)%R) by (apply IZR_lt; lia). assert (Q : (fval f a / fval f b = IZR a / IZR b)%R) by (rewrite !fval_eq by apply W; field; lra).
  exists (a * fone f / b). unfold fx_div. destruct (Z.eqb_spec b 0); [lia|]. rewrite Z.quot_div_nonneg by nia.
  pose proof (Z.mul_div_le (a * fone f) b ltac:(lia)) as L. pose proof (Z.mul_succ_div_gt (a * fone f) b ltac:(lia)) as G. set (q := a * fone f / b) in *.
  apply IZR_le in L. apply IZR_lt in G. rewrite !mult_IZR in L, G. rewrite succ_IZR in G.
  assert (E : (fval f q - IZR a / IZR b = (IZR b * IZR q - IZR a * IZR (fone f)) * / (IZR b * IZR (fone f)))%R) by (rewrite fval_eq by apply W; field; lra).
  assert (U : (ulp f = IZR b * / (IZR b * IZR (fone f)))%R) by (rewrite ulp_eq by apply W; field; lra).
  assert (I : (0 < / (IZR b * IZR (fone f)))%R) by (apply Rinv_0_lt_compat; nra).
  assert (D : (- ulp f <= fval f q - IZR a / IZR b <= 0)%R). { rewrite E, U. set (i := (/ (IZR b * IZR (fone f)))%R) in *. split; nra. }
  rewrite Q in H |- *. destruct (u_room q) as [V F]; [apply Z.div_pos; nia|lra|]. split; [exact F|]. split; [exact V|]. apply Rabs_le. lra.
Qed.
Variables (Q : nat -> MixedSqrt Z) (env : nat -> Z) (x d : nat -> R).
Hypothesis Henv : forall i, fvalid f (env i) /\ (Rabs (fval f (env i) - x i) <= d i)%R.
Notation u := (round_fixed (ulp f)).
Notation top := (fval f (fmax f)).
Notation run fuel := (compute (fixed_ops m f) (fixed_signed m f) (fixed_abs m f) (Q fuel) env).
Theorem uformula : forall e, usafe x u d top e -> forall fuel, exists r, run fuel e = Ok r /\ fvalid f r /\ (Rabs (fval f r - value x e) <= slack x u d e)%R.
Proof using Hf Sg Henv.
  induction e as [i|k|a IHa b IHb|a IHa b IHb|a IHa b IHb|a IHa b IHb|a IHa|a IHa|a IHa]; intros HS fuel; cbn [usafe] in HS; try contradiction.
  - destruct (Henv i) as [V E]. exists (env i). auto.
  - destruct HS as [K T]. assert (V : fval f (k * fone f) = IZR k). { rewrite fval_eq by apply W. rewrite mult_IZR. field. pose proof (fone_IZR_pos f (proj1 W)); lra. }
    pose proof (fone_pos f (proj1 W)). destruct (u_room (k * fone f)) as [I F]; [nia|lra|]. exists (k * fone f). split; [exact F|]. split; [exact I|]. cbn [value slack r_whole round_fixed]. rewrite V, Rminus_eq_0, Rabs_R0. lra.
  - destruct HS as (Sa & Sb & Sv). destruct (IHa Sa fuel) as (r & Er & Vr & Br). destruct (IHb Sb fuel) as (s & Es & Vs & Bs). cbn [value slack r_sum round_fixed] in Sv |- *.
    assert (P : (Rabs (fval f (r + s) - (value x a + value x b)) <= slack x u d a + slack x u d b)%R).
    { rewrite fval_add. replace (fval f r + fval f s - (value x a + value x b))%R with ((fval f r - value x a) + (fval f s - value x b))%R by ring. eapply Rle_trans; [apply Rabs_triang|]. lra. }
    pose proof (abs_near _ _ _ P) as AP. pose proof (Rle_abs (fval f (r + s))). destruct (u_pos r Vr), (u_pos s Vs). destruct (u_room (r + s)) as [I F]; [lia|lra|].
    exists (r + s). split; [cbn [compute bind]; rewrite Er; cbn [bind]; rewrite Es; exact F|]. split; [exact I|lra].
  - destruct HS as (Sa & Sb & Sv). destruct (IHa Sa fuel) as (r & Er & Vr & Br). destruct (IHb Sb fuel) as (s & Es & Vs & Bs). cbn [value slack r_sum round_fixed].
    assert (P : (Rabs (fval f (r - s) - (value x a - value x b)) <= slack x u d a + slack x u d b)%R).
    { rewrite fval_sub. replace (fval f r - fval f s - (value x a - value x b))%R with ((fval f r - value x a) + - (fval f s - value x b))%R by ring. eapply Rle_trans; [apply Rabs_triang|]. rewrite Rabs_Ropp. lra. }
    destruct (u_pos r Vr) as [R0 R1], (u_pos s Vs) as [S0 S1]. pose proof (Rabs_le_inv _ _ P) as [P1 P2].
    destruct (u_room (r - s)) as [I F]; [apply (proj1 (fval_le f 0 (r - s) (proj1 W))); unfold fval at 1; rewrite Rmult_0_l; lra|rewrite fval_sub; lra|].
    exists (r - s). split; [cbn [compute bind]; rewrite Er; cbn [bind]; rewrite Es; exact F|]. split; [exact I|lra].
  - destruct HS as (Sa & Sb & Sv). destruct (IHa Sa fuel) as (r & Er & Vr & Br). destruct (IHb Sb fuel) as (s & Es & Vs & Bs). cbn [value slack r_prod round_fixed] in Sv |- *.
    pose proof (near_mul _ _ _ _ _ _ Br Bs) as P. pose proof (fval_mul f r s (proj1 W)) as [L U]. pose proof (fone_pos f (proj1 W)).
    assert (B : (Rabs (fval f (r * s / fone f) - fval f r * fval f s) <= ulp f)%R) by (apply Rabs_le; lra). pose proof (near_step _ _ _ _ _ B P) as D.
    pose proof (abs_near _ _ _ D) as AP. pose proof (Rle_abs (fval f (r * s / fone f))). destruct (u_pos r Vr), (u_pos s Vs). destruct (u_room (r * s / fone f)) as [I F]; [apply Z.div_pos; nia|lra|].
    exists (r * s / fone f). split; [cbn [compute bind]; rewrite Er; cbn [bind]; rewrite Es; exact F|]. split; [exact I|exact D].
  - destruct HS as (Sa & Sb & Sd & Sv). destruct (IHa Sa fuel) as (r & Er & Vr & Br). destruct (IHb Sb fuel) as (s & Es & Vs & Bs). cbn [value slack r_prod round_fixed] in Sv |- *.
    destruct (near_div _ _ _ _ _ _ Br Bs Sd) as [NZ P]. pose proof (abs_near _ _ _ P) as AP. pose proof (Rle_abs (fval f r / fval f s)). assert (0 < ulp f)%R by apply bpow_gt_0.
    destruct (u_div r s Vr Vs) as (q & E & I & B); [intros ->; apply NZ; unfold fval; rewrite Rmult_0_l; reflexivity|lra|].
    exists q. split; [cbn [compute bind]; rewrite Er; cbn [bind]; rewrite Es; exact E|]. split; [exact I|]. eapply near_step; eauto.
  - destruct (IHa HS fuel) as (r & Er & Vr & Br). exists r. split; [cbn [compute bind]; rewrite Er; cbn [bind mixed_abs fixed_abs]; rewrite Sg; reflexivity|]. split; [exact Vr|].
    cbn [value slack]. rewrite <- (Rabs_pos_eq (fval f r)) by apply (u_pos r Vr). eapply Rle_trans; [apply Rabs_triang_inv2|exact Br].
Qed.
(** a difference that is certainly negative *)
Theorem uformula_under : forall a b, usafe x u d top a -> usafe x u d top b -> (value x a + slack x u d a + slack x u d b < value x b)%R -> forall fuel,
  match m with
  | Debug => run fuel (Minus a b) = Panic POverflow
  | Release => exists r, run fuel (Minus a b) = Ok r /\ fvalid f r /\ (Rabs (fval f r - (value x a - value x b + (top + ulp f))) <= slack x u d a + slack x u d b)%R
  end.
Proof using Hf Sg Henv.
  intros a b Sa Sb L fuel. destruct (uformula a Sa fuel) as (r & Er & Vr & Br). destruct (uformula b Sb fuel) as (s & Es & Vs & Bs).
  assert (C : run fuel (Minus a b) = fx_fin m f (r - s)) by (cbn [compute bind]; rewrite Er; cbn [bind]; rewrite Es; reflexivity).
  assert (LT : r < s). { apply Znot_ge_lt. intros G. assert (fval f s <= fval f r)%R by (apply fval_le; [apply W|lia]). apply Rabs_le_inv in Br, Bs. lra. }
  assert (NR : in_rangeb (fity f) (r - s) = false). { unfold in_rangeb, imin. cbn [fity isigned]. rewrite Sg. apply andb_false_intro1. apply Z.leb_gt. lia. }
  destruct (u_pos r Vr) as [R0 _], (u_pos s Vs) as [S0 _]. destruct Vs as [_ SM]. unfold fx_fin, fin in C. rewrite NR in C. destruct m; [exact C|].
  unfold imax in SM. cbn [fity isigned iwidth] in SM. rewrite Sg in SM.
  assert (Wr : wrap (fity f) (r - s) = r - s + 2 ^ fwidth f).
  { unfold wrap. cbn [fity isigned iwidth]. rewrite Sg. cbv zeta. symmetry. try (apply Z.mod_unique_pos with (-1); lia). }
  rewrite Wr in C. exists (r - s + 2 ^ fwidth f). split; [exact C|]. split.
  - unfold fvalid, in_range, imin, imax. cbn [fity isigned iwidth]. rewrite Sg. lia.
  - assert (E : (fval f (r - s + 2 ^ fwidth f) = fval f r - fval f s + (top + ulp f))%R).
    { unfold fmax, imax. cbn [fity isigned iwidth]. rewrite Sg. unfold fval, ulp. rewrite plus_IZR, !minus_IZR. ring. }
    rewrite E. replace (fval f r - fval f s + (top + ulp f) - (value x a - value x b + (top + ulp f)))%R with ((fval f r - value x a) + - (fval f s - value x b))%R by ring.
    eapply Rle_trans; [apply Rabs_triang|]. rewrite Rabs_Ropp. lra.
Qed.
End Unsigned.
