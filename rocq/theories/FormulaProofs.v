(** * Proofs about arbitrary formulas. *)

From Coq Require Import ZArith Reals Lia Lra List Bool.
From Flocq Require Import Core.Core IEEE754.BinarySingleNaN.
From Verif Require Import Base FloatBase Traits Trig IntImpl FixedPrim FixedImpl FloatImpl Spec SpecFormula SpecProfile Lemmas ScalarProofs ScalarProofs2 ProfileProofs WideProofs
  PhaseAcc FilterProofs PolarCart PolarProofs QuotProofs NiirfFixed4 FloatLemmas FloatArith MagProofs CsqrtProofs RmsProofs.
Import ListNotations.
Open Scope Z_scope.

Open Scope R_scope.
Lemma near_mul : forall a b x y ea eb, Rabs (a - x) <= ea -> Rabs (b - y) <= eb -> Rabs (a * b - x * y) <= Rabs x * eb + Rabs y * ea + ea * eb.
Proof.
  intros a b x y ea eb A B. replace (a * b - x * y) with (x * (b - y) + y * (a - x) + (a - x) * (b - y)) by ring.
  eapply Rle_trans; [apply Rabs_triang|]. apply Rplus_le_compat; [eapply Rle_trans; [apply Rabs_triang|]; apply Rplus_le_compat|]; rewrite Rabs_mult; apply Rmult_le_compat; auto using Rabs_pos, Rle_refl.
Qed.
Lemma near_div : forall a b x y ea eb, Rabs (a - x) <= ea -> Rabs (b - y) <= eb -> eb < Rabs y -> b <> 0 /\ Rabs (a / b - x / y) <= (ea + Rabs (x / y) * eb) / (Rabs y - eb).
Proof.
  intros a b x y ea eb A B Y. assert (Y0 : y <> 0) by (intros ->; rewrite Rabs_R0 in Y; pose proof (Rabs_pos (b - 0)); lra).
  assert (BL : Rabs y - eb <= Rabs b). { pose proof (Rabs_triang_inv y (y - b)) as T. replace (y - (y - b)) with b in T by ring. rewrite (Rabs_minus_sym y b) in T. lra. }
  assert (B0 : b <> 0) by (intros ->; rewrite Rabs_R0 in BL; lra). split; auto.
  replace (a / b - x / y) with (((a - x) - x / y * (b - y)) / b) by (field; auto). unfold Rdiv at 1. rewrite Rabs_mult, Rabs_inv.
  assert (P : Rabs (a - x - x / y * (b - y)) <= ea + Rabs (x / y) * eb).
  { eapply Rle_trans; [apply Rabs_triang|]. rewrite Rabs_Ropp, Rabs_mult. apply Rplus_le_compat; auto. apply Rmult_le_compat_l; auto using Rabs_pos. }
  unfold Rdiv at 2. apply Rmult_le_compat; auto using Rabs_pos.
  - apply Rlt_le, Rinv_0_lt_compat. lra.
  - apply Rinv_le_contravar; lra.
Qed.
Lemma near_root : forall a x e, Rabs (a - x) <= e -> e <= x -> 0 <= a /\ Rabs (sqrt a - sqrt x) <= e / sqrt x.
Proof.
  intros a x e A E. apply Rabs_le_inv in A as A'. split; [lra|]. pose proof (Rabs_pos (a - x)).
  destruct (Req_dec x 0) as [->|X].
  - assert (a = 0) by lra. subst a. rewrite sqrt_0, Rminus_0_r, Rabs_R0. replace e with 0 by lra. unfold Rdiv. rewrite Rmult_0_l. lra.
  - assert (SX : 0 < sqrt x) by (apply sqrt_lt_R0; lra). pose proof (sqrt_pos a) as SA.
    replace (sqrt a - sqrt x) with ((a - x) / (sqrt a + sqrt x)).
    2:{ assert (D : a - x = (sqrt a - sqrt x) * (sqrt a + sqrt x)) by (pose proof (sqrt_sqrt a ltac:(lra)); pose proof (sqrt_sqrt x ltac:(lra)); nra). rewrite D. field. lra. }
    unfold Rdiv. rewrite Rabs_mult, Rabs_inv. rewrite (Rabs_pos_eq (sqrt a + sqrt x)) by lra. apply Rmult_le_compat; auto.
    + apply Rlt_le, Rinv_0_lt_compat. lra.
    + apply Rinv_le_contravar; lra.
Qed.
Lemma abs_near : forall a x e, Rabs (a - x) <= e -> Rabs a <= Rabs x + e.
Proof. intros a x e H. replace a with (x + (a - x)) by ring. eapply Rle_trans; [apply Rabs_triang|]. lra. Qed.
Lemma near_step : forall r p v e1 e2, Rabs (r - p) <= e2 -> Rabs (p - v) <= e1 -> Rabs (r - v) <= e1 + e2.
Proof. intros. replace (r - v) with ((r - p) + (p - v)) by ring. eapply Rle_trans; [apply Rabs_triang|]. lra. Qed.
Close Scope R_scope.

(** ** any type whose operations round as stated *)
Section Any.
Context {T : Type} (O : MixedOps T) (N : MixedNumSigned T) (A : MixedAbs T) (Q : nat -> MixedSqrt T) (val : T -> R) (ok : T -> Prop) (u : rounding) (top : R) (roots : Prop).
Hypothesis mono_sum : forall a b, (0 <= a <= b)%R -> (r_sum u a <= r_sum u b)%R.
Hypothesis mono_prod : forall a b, (0 <= a <= b)%R -> (r_prod u a <= r_prod u b)%R.
Hypothesis mono_root : forall a b, (0 <= a <= b)%R -> (r_root u a <= r_root u b)%R.
Hypothesis Hwhole : forall k, (Rabs (IZR k) + r_whole u (Rabs (IZR k)) <= top)%R -> exists r, o_of_i32 O k = Ok r /\ ok r /\ (Rabs (val r - IZR k) <= r_whole u (Rabs (IZR k)))%R.
Hypothesis Hadd : forall a b, ok a -> ok b -> (Rabs (val a + val b) + r_sum u (Rabs (val a + val b)) <= top)%R ->
  exists r, o_add O a b = Ok r /\ ok r /\ (Rabs (val r - (val a + val b)) <= r_sum u (Rabs (val a + val b)))%R.
Hypothesis Hsub : forall a b, ok a -> ok b -> (Rabs (val a - val b) + r_sum u (Rabs (val a - val b)) <= top)%R ->
  exists r, o_sub O a b = Ok r /\ ok r /\ (Rabs (val r - (val a - val b)) <= r_sum u (Rabs (val a - val b)))%R.
Hypothesis Hmul : forall a b, ok a -> ok b -> (Rabs (val a * val b) + r_prod u (Rabs (val a * val b)) <= top)%R ->
  exists r, o_mul O a b = Ok r /\ ok r /\ (Rabs (val r - val a * val b) <= r_prod u (Rabs (val a * val b)))%R.
Hypothesis Hdiv : forall a b, ok a -> ok b -> val b <> 0%R -> (Rabs (val a / val b) + r_prod u (Rabs (val a / val b)) <= top)%R ->
  exists r, o_div O a b = Ok r /\ ok r /\ (Rabs (val r - val a / val b) <= r_prod u (Rabs (val a / val b)))%R.
Hypothesis Hneg : forall a, ok a -> (Rabs (val a) <= top)%R -> exists r, o_neg N a = Ok r /\ ok r /\ val r = (- val a)%R.
Hypothesis Habs : forall a, ok a -> (Rabs (val a) <= top)%R -> exists r, mixed_abs A a = Ok r /\ ok r /\ val r = Rabs (val a).
Hypothesis Hroot : roots -> forall a, ok a -> (0 <= val a)%R -> exists r, returns (fun fuel => mixed_sqrt (Q fuel) a) r /\ ok r /\ (Rabs (val r - sqrt (val a)) <= r_root u (sqrt (val a)))%R.
Variables (env : nat -> T) (x d : nat -> R).
Hypothesis Henv : forall i, ok (env i) /\ (Rabs (val (env i) - x i) <= d i)%R.

Lemma ret : forall (r : res T) a, r = Ok a -> returns (fun _ => r) a.
Proof. intros r a H. exists 0%nat. auto. Qed.
Theorem compute_near : forall e, (rootless e = false -> roots) -> safe x u d top e ->
  exists r, returns (fun fuel => compute O N A (Q fuel) env e) r /\ ok r /\ (Rabs (val r - value x e) <= slack x u d e)%R.
Proof using All.
  assert (Bin : forall b1 b2, (rootless (Plus b1 b2) = false -> roots) -> (rootless b1 = false -> roots) /\ (rootless b2 = false -> roots)).
  { intros b1 b2 H. cbn in H. split; intros E; apply H; rewrite E; auto using andb_false_r. }
  induction e as [i|k|a IHa b IHb|a IHa b IHb|a IHa b IHb|a IHa b IHb|a IHa|a IHa|a IHa]; intros HR HS; cbn [safe] in HS.
  - destruct (Henv i) as [V E]. exists (env i). split; [exists 0%nat; reflexivity|]. auto.
  - destruct (Hwhole k HS) as (r & E & V & B). exists r. split; [exists 0%nat; intros; exact E|]. auto.
  - destruct HS as (Sa & Sb & Sv). destruct (Bin a b HR) as [Ra Rb]. destruct (IHa Ra Sa) as (r & Er & Vr & Br). destruct (IHb Rb Sb) as (s & Es & Vs & Bs).
    cbn [value slack] in Sv |- *. set (p := (slack x u d a + slack x u d b)%R) in *.
    assert (P : (Rabs (val r + val s - (value x a + value x b)) <= p)%R). { replace (val r + val s - (value x a + value x b))%R with ((val r - value x a) + (val s - value x b))%R by ring. eapply Rle_trans; [apply Rabs_triang|]. unfold p. lra. }
    pose proof (abs_near _ _ _ P) as AP. pose proof (mono_sum _ _ (conj (Rabs_pos _) AP)) as MP.
    destruct (Hadd r s Vr Vs) as (q & Eq & Vq & Bq); [lra|]. exists q. split; [|split; [exact Vq|]].
    + cbn [compute]. eapply returns_bind2; [exact Er|]. eapply returns_bind2; [exact Es|]. apply ret, Eq.
    + eapply near_step; [|exact P]. lra.
  - destruct HS as (Sa & Sb & Sv). destruct (Bin a b HR) as [Ra Rb]. destruct (IHa Ra Sa) as (r & Er & Vr & Br). destruct (IHb Rb Sb) as (s & Es & Vs & Bs).
    cbn [value slack] in Sv |- *. set (p := (slack x u d a + slack x u d b)%R) in *.
    assert (P : (Rabs (val r - val s - (value x a - value x b)) <= p)%R). { replace (val r - val s - (value x a - value x b))%R with ((val r - value x a) + - (val s - value x b))%R by ring. eapply Rle_trans; [apply Rabs_triang|]. rewrite Rabs_Ropp. unfold p. lra. }
    pose proof (abs_near _ _ _ P) as AP. pose proof (mono_sum _ _ (conj (Rabs_pos _) AP)) as MP.
    destruct (Hsub r s Vr Vs) as (q & Eq & Vq & Bq); [lra|]. exists q. split; [|split; [exact Vq|]].
    + cbn [compute]. eapply returns_bind2; [exact Er|]. eapply returns_bind2; [exact Es|]. apply ret, Eq.
    + eapply near_step; [|exact P]. lra.
  - destruct HS as (Sa & Sb & Sv). destruct (Bin a b HR) as [Ra Rb]. destruct (IHa Ra Sa) as (r & Er & Vr & Br). destruct (IHb Rb Sb) as (s & Es & Vs & Bs).
    cbn [value slack] in Sv |- *. pose proof (near_mul _ _ _ _ _ _ Br Bs) as P. set (p := (Rabs (value x a) * slack x u d b + Rabs (value x b) * slack x u d a + slack x u d a * slack x u d b)%R) in *.
    pose proof (abs_near _ _ _ P) as AP. pose proof (mono_prod _ _ (conj (Rabs_pos _) AP)) as MP.
    destruct (Hmul r s Vr Vs) as (q & Eq & Vq & Bq); [lra|]. exists q. split; [|split; [exact Vq|]].
    + cbn [compute]. eapply returns_bind2; [exact Er|]. eapply returns_bind2; [exact Es|]. apply ret, Eq.
    + eapply near_step; [|exact P]. lra.
  - destruct HS as (Sa & Sb & Sd & Sv). destruct (Bin a b HR) as [Ra Rb]. destruct (IHa Ra Sa) as (r & Er & Vr & Br). destruct (IHb Rb Sb) as (s & Es & Vs & Bs).
    cbn [value slack] in Sv |- *. destruct (near_div _ _ _ _ _ _ Br Bs Sd) as [NZ P]. set (p := ((slack x u d a + Rabs (value x a / value x b) * slack x u d b) / (Rabs (value x b) - slack x u d b))%R) in *.
    pose proof (abs_near _ _ _ P) as AP. pose proof (mono_prod _ _ (conj (Rabs_pos _) AP)) as MP.
    destruct (Hdiv r s Vr Vs NZ) as (q & Eq & Vq & Bq); [lra|]. exists q. split; [|split; [exact Vq|]].
    + cbn [compute]. eapply returns_bind2; [exact Er|]. eapply returns_bind2; [exact Es|]. apply ret, Eq.
    + eapply near_step; [|exact P]. lra.
  - destruct HS as (Sa & Sv). destruct (IHa HR Sa) as (r & Er & Vr & Br). pose proof (abs_near _ _ _ Br) as AP. destruct (Hneg r Vr) as (q & Eq & Vq & Bq); [lra|].
    exists q. split; [|split; [exact Vq|]].
    + cbn [compute]. eapply returns_bind2; [exact Er|]. apply ret, Eq.
    + cbn [value slack]. rewrite Bq. replace (- val r - - value x a)%R with (- (val r - value x a))%R by ring. rewrite Rabs_Ropp. exact Br.
  - destruct HS as (Sa & Sv). destruct (IHa HR Sa) as (r & Er & Vr & Br). pose proof (abs_near _ _ _ Br) as AP. destruct (Habs r Vr) as (q & Eq & Vq & Bq); [lra|].
    exists q. split; [|split; [exact Vq|]].
    + cbn [compute]. eapply returns_bind2; [exact Er|]. apply ret, Eq.
    + cbn [value slack]. rewrite Bq. eapply Rle_trans; [apply Rabs_triang_inv2|exact Br].
  - destruct HS as (Sa & Sv). assert (RT : roots) by (apply HR; reflexivity). destruct (IHa (fun _ => RT) Sa) as (r & Er & Vr & Br).
    destruct (near_root _ _ _ Br Sv) as [P0 P]. cbn [value slack]. set (p := (slack x u d a / sqrt (value x a))%R) in *.
    pose proof (abs_near _ _ _ P) as AP. rewrite !(Rabs_pos_eq (sqrt _)) in AP by apply sqrt_pos. pose proof (mono_root _ _ (conj (sqrt_pos _) AP)) as MP.
    destruct (Hroot RT r Vr P0) as (q & Eq & Vq & Bq). exists q. split; [|split; [exact Vq|]].
    + cbn [compute]. eapply returns_bind2; [exact Er|]. exact Eq.
    + eapply near_step; [|exact P]. lra.
Qed.
End Any.

(** ** fixed point *)
Section Fixed.
Variables (m : mode) (f : fty).
Hypotheses (Hf : supported f = true) (Sg : fsigned f = true).
Let W : fwf f := supported_fwf f Hf.
Lemma in_room : forall v, (Rabs (fval f v) <= fval f (fmax f))%R -> fvalid f v.
Proof using Hf Sg. intros v H. apply in_rangeb_spec. apply fval_inj_range; auto. Qed.
Lemma fin_room : forall v, (Rabs (fval f v) <= fval f (fmax f))%R -> fx_fin m f v = Ok v.
Proof using Hf Sg. intros v H. unfold fx_fin, fin. rewrite fval_inj_range; auto. Qed.
Theorem formula_fixed : forall env x d, (forall i, fvalid f (env i) /\ (Rabs (fval f (env i) - x i) <= d i)%R) ->
  forall e, (rootless e = false -> 2 <= ffrac f <= fwidth f - 4) -> safe x (round_fixed (ulp f)) d (fval f (fmax f)) e ->
  exists r, returns (fun fuel => compute (fixed_ops m f) (fixed_signed m f) (fixed_abs m f) (fixed_sqrt m f fuel) env e) r /\ fvalid f r /\
  (Rabs (fval f r - value x e) <= slack x (round_fixed (ulp f)) d e)%R.
Proof using Hf Sg.
  intros env x d HE e HR HS. assert (U : (0 < ulp f)%R) by apply bpow_gt_0.
  refine (compute_near (fixed_ops m f) (fixed_signed m f) (fixed_abs m f) (fixed_sqrt m f) (fval f) (fvalid f) (round_fixed (ulp f)) (fval f (fmax f)) (2 <= ffrac f <= fwidth f - 4)
    _ _ _ _ _ _ _ _ _ _ _ env x d HE e HR HS); cbn [r_sum r_prod r_root r_whole round_fixed].
  - intros; lra.
  - intros; lra.
  - intros a b H. apply Rplus_le_compat_r, Rmult_le_compat_l; lra.
  - intros k H. assert (V : fval f (k * fone f) = IZR k). { rewrite fval_eq by apply W. rewrite mult_IZR. field. pose proof (fone_IZR_pos f (proj1 W)); lra. }
    exists (k * fone f). cbn [o_of_i32 fixed_ops]. unfold fx_of_int. rewrite V, Rminus_eq_0, Rabs_R0. split; [apply fin_room; rewrite V; lra|]. split; [apply in_room; rewrite V; lra|lra].
  - intros a b _ _ H. exists (a + b). cbn [o_add fixed_ops]. unfold fx_add. rewrite fval_add, Rminus_eq_0, Rabs_R0. split; [apply fin_room; rewrite fval_add; lra|]. split; [apply in_room; rewrite fval_add; lra|lra].
  - intros a b _ _ H. assert (V : fval f (a - b) = (fval f a - fval f b)%R) by (unfold fval; rewrite minus_IZR; ring). exists (a - b). cbn [o_sub fixed_ops]. unfold fx_sub. rewrite V, Rminus_eq_0, Rabs_R0. split; [apply fin_room; rewrite V; lra|]. split; [apply in_room; rewrite V; lra|lra].
  - intros a b _ _ H. destruct (fmul_ok m f a b W Sg) as [E B]; [lra|]. exists (a * b / fone f). split; [exact E|]. split; [|lra]. apply in_room. pose proof (abs_near _ _ _ (Rlt_le _ _ B)). lra.
  - intros a b _ _ NZ H. destruct (div_fixed_near m f Hf Sg a b) as (r & E & B & C); [intros ->; apply NZ; unfold fval; rewrite Rmult_0_l; reflexivity|lra|]. exists r. split; [exact E|]. split; [|lra]. apply in_room. lra.
  - intros a _ H. assert (V : fval f (- a) = (- fval f a)%R) by (unfold fval; rewrite opp_IZR; ring). exists (- a). cbn [o_neg fixed_signed]. unfold fx_neg. split; [apply fin_room; rewrite V, Rabs_Ropp; lra|]. split; [apply in_room; rewrite V, Rabs_Ropp; lra|exact V].
  - intros a _ H. assert (V : fval f (Z.abs a) = Rabs (fval f a)) by (unfold fval; rewrite abs_IZR, Rabs_mult, (Rabs_pos_eq (bpow _ _)) by apply bpow_ge_0; reflexivity). exists (Z.abs a). cbn [mixed_abs fixed_abs]. rewrite Sg. unfold fx_abs. split; [apply fin_room; rewrite V, Rabs_Rabsolu; lra|]. split; [apply in_room; rewrite V, Rabs_Rabsolu; lra|exact V].
  - intros FF a Va A0. destruct (sqrt_fixed_api m f Hf Sg FF a Va) as (r & E & _ & B).
    { apply fval_le with (f := f); [apply W|]. unfold fval at 1. rewrite Rmult_0_l. exact A0. }
    exists r. split; [exact E|]. split; [|exact B]. apply in_room. pose proof (fmax_seven f Hf Sg (proj2 FF)) as M7.
    assert (U4 : (ulp f <= / 4)%R). { unfold ulp. change (/ 4)%R with (bpow radix2 (-2)). apply bpow_le. lia. }
    assert (AM : (fval f a <= fval f (fmax f))%R). { apply fval_le; [apply W|]. destruct Va as [_ L]. exact L. }
    pose proof (abs_near _ _ _ B) as AB. pose proof (sqrt_pos (fval f a)) as S0. rewrite (Rabs_pos_eq (sqrt _)) in AB by auto. pose proof (sqrt_sqrt (fval f a) A0) as SS.
    assert (S6 : (sqrt (fval f a) <= fval f (fmax f) / 6 + 3 / 2)%R) by (pose proof (pow2_ge_0 (sqrt (fval f a) - 3)); nra).
    assert ((/ 1000 + 5 * ulp f) * sqrt (fval f a) <= (/ 1000 + 5 * / 4) * sqrt (fval f a))%R by (apply Rmult_le_compat_r; lra). lra.
Qed.
End Fixed.

(** ** floats *)
Section Flt.
Context {prec emax : Z} {Hp : Prec_gt_0 prec} {He : Prec_lt_emax prec emax}.
Notation float := (binary_float prec emax).
Notation rnd := (round radix2 (SpecFloat.fexp prec emax) ZnearestE).
Notation u := (bpow radix2 (- prec)).
Notation eta := (bpow radix2 (3 - emax - prec)).
Notation top := (bpow radix2 emax - bpow radix2 (emax - prec))%R.
Hypotheses (P24 : 24 <= prec) (E128 : 128 <= emax).
Variables (m : mode) (sq : float -> float).
Hypothesis Hsq : forall x, sq x = Bsqrt mode_NE x.
Lemma rnd_top : forall v, (Rabs v + (u * Rabs v + / 2 * eta) <= top)%R -> (Rabs (rnd v) < bpow radix2 emax)%R /\ (Rabs (rnd v - v) <= u * Rabs v + / 2 * eta)%R.
Proof using Hp.
  intros v H. pose proof (MagProofs.rnd_rel (prec:=prec) (emax:=emax) v) as R. split; [|exact R]. pose proof (abs_near _ _ _ R) as B. pose proof (bpow_gt_0 radix2 (emax - prec)). lra.
Qed.
Theorem formula_float : forall (env : nat -> float) x d, (forall i, is_finite (env i) = true /\ (Rabs (B2R (env i) - x i) <= d i)%R) ->
  forall e, safe x (round_float u eta) d top e ->
  exists r, (forall fuel, compute float_ops float_signed float_abs (float_sqrt m sq fuel) env e = Ok r) /\ is_finite r = true /\
  (Rabs (B2R r - value x e) <= slack x (round_float u eta) d e)%R.
Proof using P24 E128 Hsq.
  intros env x d HE e HS. assert (U : (0 < u)%R) by apply bpow_gt_0. assert (N : (0 < eta)%R) by apply bpow_gt_0.
  assert (K : exists r, returns (fun fuel => compute float_ops float_signed float_abs (float_sqrt m sq fuel) env e) r /\ is_finite r = true /\ (Rabs (B2R r - value x e) <= slack x (round_float u eta) d e)%R).
  2:{ destruct K as (r & [n0 E] & F). exists r. split; [|exact F]. intros fuel.
      assert (Same : forall fuel', compute float_ops float_signed float_abs (float_sqrt m sq fuel) env e = compute float_ops float_signed float_abs (float_sqrt m sq fuel') env e).
      { intros fuel'. clear. induction e; cbn [compute]; try reflexivity; repeat match goal with H : _ = _ |- _ => rewrite H; clear H end; reflexivity. }
      rewrite (Same n0). apply E. auto. }
  refine (compute_near float_ops float_signed float_abs (float_sqrt m sq) B2R (fun r => is_finite r = true) (round_float u eta) top True
    _ _ _ _ _ _ _ _ _ _ _ env x d HE e (fun _ => I) HS); cbn [r_sum r_prod r_root r_whole round_float].
  - intros a b H. apply Rplus_le_compat_r, Rmult_le_compat_l; lra.
  - intros a b H. apply Rplus_le_compat_r, Rmult_le_compat_l; lra.
  - intros a b H. apply Rmult_le_compat_l; lra.
  - intros k H. destruct (rnd_top _ H) as [L B]. destruct (float_of_Z_correct k L) as (V & F & _). exists (float_of_Z prec emax k). split; [reflexivity|]. split; [exact F|]. rewrite V. exact B.
  - intros a b Fa Fb H. destruct (rnd_top _ H) as [L B]. destruct (plus_ok a b Fa Fb L) as [F V]. exists (Bplus mode_NE a b). split; [reflexivity|]. split; [exact F|]. rewrite V. exact B.
  - intros a b Fa Fb H. destruct (rnd_top _ H) as [L B]. destruct (minus_ok a b Fa Fb L) as [F V]. exists (Bminus mode_NE a b). split; [reflexivity|]. split; [exact F|]. rewrite V. exact B.
  - intros a b Fa Fb H. destruct (rnd_top _ H) as [L B]. pose proof (Bmult_correct prec emax _ _ mode_NE a b) as C. cbn [round_mode] in C. rewrite Rlt_bool_true in C by exact L. destruct C as (V & F & _). rewrite Fa, Fb in F. exists (Bmult mode_NE a b). split; [reflexivity|]. split; [exact F|]. rewrite V. exact B.
  - intros a b Fa Fb NZ H. destruct (rnd_top _ H) as [L B]. pose proof (Bdiv_correct prec emax _ _ mode_NE a b NZ) as C. cbn [round_mode] in C. rewrite Rlt_bool_true in C by exact L. destruct C as (V & F & _). rewrite Fa in F. exists (Bdiv mode_NE a b). split; [reflexivity|]. split; [exact F|]. rewrite V. exact B.
  - intros a Fa _. exists (Bopp a). split; [reflexivity|]. split; [rewrite is_finite_Bopp; exact Fa|]. apply B2R_Bopp.
  - intros a Fa _. exists (Babs a). split; [reflexivity|]. split; [rewrite is_finite_Babs; exact Fa|]. apply B2R_Babs.
  - intros _ a Fa A0. destruct (sqrt_all P24 E128 a Fa A0) as [F B]. exists (Bsqrt mode_NE a). split; [exists 0%nat; intros; cbn [mixed_sqrt float_sqrt]; rewrite Hsq; reflexivity|]. split; auto.
Qed.
End Flt.

(** ** the same formula on two types *)
Theorem formula_agree : forall m f, supported f = true -> fsigned f = true -> forall p e {Hp : Prec_gt_0 p} {He : Prec_lt_emax p e}, 24 <= p -> 128 <= e ->
  forall m' sq, (forall x, sq x = Bsqrt mode_NE x) -> forall env (env' : nat -> binary_float p e) x d d',
  (forall i, fvalid f (env i) /\ (Rabs (fval f (env i) - x i) <= d i)%R) -> (forall i, is_finite (env' i) = true /\ (Rabs (B2R (env' i) - x i) <= d' i)%R) ->
  forall e0, (rootless e0 = false -> 2 <= ffrac f <= fwidth f - 4) -> let u := round_fixed (ulp f) in let u' := round_float (bpow radix2 (- p)) (bpow radix2 (3 - e - p)) in
  safe x u d (fval f (fmax f)) e0 -> safe x u' d' (bpow radix2 e - bpow radix2 (e - p)) e0 ->
  exists r s, returns (fun fuel => compute (fixed_ops m f) (fixed_signed m f) (fixed_abs m f) (fixed_sqrt m f fuel) env e0) r /\
  (forall fuel, compute float_ops float_signed float_abs (float_sqrt m' sq fuel) env' e0 = Ok s) /\ (Rabs (fval f r - B2R s) <= slack x u d e0 + slack x u' d' e0)%R.
Proof.
  intros m f Hf Sg p e Hp He P E m' sq Hsq env env' x d d' H1 H2 e0 HR u u' S1 S2.
  destruct (formula_fixed m f Hf Sg env x d H1 e0 HR S1) as (r & Er & _ & Br). destruct (formula_float P E m' sq Hsq env' x d' H2 e0 S2) as (s & Es & _ & Bs).
  exists r, s. split; [exact Er|]. split; [exact Es|]. fold u in Br. fold u' in Bs. apply Rabs_le_inv in Br. apply Rabs_le_inv in Bs. apply Rabs_le. lra.
Qed.

(** ** wider types and release builds return the same *)
Lemma compute_ref : forall T (D R : MixedOps T) Dn Rn Da Ra Dq Rq env, ref_ops D R -> ref_neg Dn Rn -> ref_abs Da Ra -> ref_sqrt Dq Rq ->
  forall e, refines (compute D Dn Da Dq env e) (compute R Rn Ra Rq env e).
Proof.
  intros T D R Dn Rn Da Ra Dq Rq env O N A Q. destruct O as [O1 O2 O3 O4 _ O5 _].
  induction e; cbn [compute]; auto using ref_refl; repeat (apply ref_bind; [assumption|intro]); auto.
Qed.
Theorem formula_wide : forall m f g, supported f = true -> fsigned g = fsigned f -> ffrac g = ffrac f -> fwidth f <= fwidth g -> forall fuel env e,
  refines (compute (fixed_ops Debug f) (fixed_signed Debug f) (fixed_abs Debug f) (fixed_sqrt Debug f fuel) env e)
    (compute (fixed_ops m g) (fixed_signed m g) (fixed_abs m g) (fixed_sqrt m g fuel) env e).
Proof.
  intros m f g Hf SG FR WD fuel env e. assert (W : 0 < fwidth f <= fwidth g) by (split; [apply wide_width; exact Hf|exact WD]).
  apply compute_ref; [apply wide_ops|apply wide_neg|apply wide_abs|apply wide_sqrt]; assumption.
Qed.

(** ** integers *)
Lemma int_width : forall t, In t int_types -> 1 <= iwidth t /\ in_range t 0.
Proof. intros t H. unfold int_types in H. repeat (destruct H as [<-|H]; [split; [discriminate|split; discriminate]|]). destruct H. Qed.
Theorem formula_int_release : forall t, In t int_types -> forall Q env, (forall i, in_range t (env i)) -> forall e, ring_only e = true ->
  compute (int_ops Release t) (int_signed Release t) (int_abs Release t) Q env e = Ok (wrap t (zvalue env e)).
Proof.
  intros t Ht Q env HE. destruct (int_width t Ht) as [W _].
  induction e; cbn [ring_only]; intros R; try discriminate; try (apply andb_prop in R; destruct R as [R1 R2]); cbn [compute zvalue];
    rewrite ?IHe1, ?IHe2, ?IHe by assumption; cbn [bind int_ops int_signed o_add o_sub o_mul o_neg o_of_i32]; rewrite ?fin_release by exact W; try reflexivity.
  - rewrite wrap_id; auto.
  - rewrite wrap_add_l, wrap_add_r by exact W. reflexivity.
  - rewrite wrap_sub_l, wrap_sub_r by exact W. reflexivity.
  - rewrite wrap_mul_l, wrap_mul_r by exact W. reflexivity.
  - rewrite wrap_opp by exact W. reflexivity.
Qed.
Lemma fin_debug_iff : forall t z r, fin Debug t z = Ok r <-> in_range t z /\ r = z.
Proof. intros. split; [intros H; apply fin_debug_inv in H; tauto|]. intros [H ->]. apply fin_ok. exact H. Qed.
Lemma bind_ok_iff : forall A B (x : res A) (k : A -> res B) r, bind x k = Ok r <-> exists a, x = Ok a /\ k a = Ok r.
Proof. intros. split. - destruct x; cbn; intros H; try discriminate. eauto. - intros (a & -> & H). exact H. Qed.
Theorem formula_int_debug : forall t, In t int_types -> forall Q env, (forall i, in_range t (env i)) -> forall e, rootless e = true -> literals t e -> forall r,
  compute (int_ops Debug t) (int_signed Debug t) (int_abs Debug t) Q env e = Ok r <-> zfits env t e /\ r = zvalue env e.
Proof.
  intros t Ht Q env HE. destruct (int_width t Ht) as [W T0].
  induction e; cbn [rootless literals]; intros R L r; try discriminate; try (apply andb_prop in R; destruct R as [R1 R2]; destruct L as [L1 L2]); cbn [compute zvalue zfits].
  - split; [intros E; injection E as <-; auto|]. intros [_ ->]. reflexivity.
  - cbn [o_of_i32 int_ops]. rewrite wrap_id by assumption. split; [intros E; injection E as <-; auto|]. intros [_ ->]. reflexivity.
  - rewrite bind_ok_iff. cbn [o_add int_ops]. split.
    + intros (a & Ea & H). apply bind_ok_iff in H as (b & Eb & H). apply IHe1 in Ea as [Fa ->]; auto. apply IHe2 in Eb as [Fb ->]; auto. apply fin_debug_iff in H. tauto.
    + intros [(H & Fa & Fb) ->]. exists (zvalue env e1). split; [apply IHe1; auto|]. apply bind_ok_iff. exists (zvalue env e2). split; [apply IHe2; auto|]. apply fin_debug_iff. auto.
  - rewrite bind_ok_iff. cbn [o_sub int_ops]. split.
    + intros (a & Ea & H). apply bind_ok_iff in H as (b & Eb & H). apply IHe1 in Ea as [Fa ->]; auto. apply IHe2 in Eb as [Fb ->]; auto. apply fin_debug_iff in H. tauto.
    + intros [(H & Fa & Fb) ->]. exists (zvalue env e1). split; [apply IHe1; auto|]. apply bind_ok_iff. exists (zvalue env e2). split; [apply IHe2; auto|]. apply fin_debug_iff. auto.
  - rewrite bind_ok_iff. cbn [o_mul int_ops]. split.
    + intros (a & Ea & H). apply bind_ok_iff in H as (b & Eb & H). apply IHe1 in Ea as [Fa ->]; auto. apply IHe2 in Eb as [Fb ->]; auto. apply fin_debug_iff in H. tauto.
    + intros [(H & Fa & Fb) ->]. exists (zvalue env e1). split; [apply IHe1; auto|]. apply bind_ok_iff. exists (zvalue env e2). split; [apply IHe2; auto|]. apply fin_debug_iff. auto.
  - rewrite bind_ok_iff. cbn [o_div int_ops]. unfold int_div. split.
    + intros (a & Ea & H). apply bind_ok_iff in H as (b & Eb & H). apply IHe1 in Ea as [Fa ->]; auto. apply IHe2 in Eb as [Fb ->]; auto.
      destruct (Z.eqb_spec (zvalue env e2) 0); [discriminate|]. destruct (in_rangeb t (Z.quot (zvalue env e1) (zvalue env e2))) eqn:E; [|discriminate]. apply in_rangeb_spec in E. injection H as <-. tauto.
    + intros [(H & Fa & Fb & NZ) ->]. exists (zvalue env e1). split; [apply IHe1; auto|]. apply bind_ok_iff. exists (zvalue env e2). split; [apply IHe2; auto|].
      destruct (Z.eqb_spec (zvalue env e2) 0); [contradiction|]. apply in_rangeb_spec in H. rewrite H. reflexivity.
  - rewrite bind_ok_iff. cbn [o_neg int_signed]. split.
    + intros (a & Ea & H). apply IHe in Ea as [Fa ->]; auto. apply fin_debug_iff in H. tauto.
    + intros [(H & Fa) ->]. exists (zvalue env e). split; [apply IHe; auto|]. apply fin_debug_iff. auto.
  - assert (AB : forall a, in_range t a -> forall r, mixed_abs (int_abs Debug t) a = Ok r <-> in_range t (Z.abs a) /\ r = Z.abs a).
    { intros a Ra s. cbn [mixed_abs int_abs o_neg int_signed]. destruct (isigned t) eqn:St.
      - destruct (Z.leb_spec 0 a).
        + rewrite Z.abs_eq by lia. split; [intros E; injection E as <-; auto|intros [_ ->]; reflexivity].
        + rewrite Z.abs_neq by lia. apply fin_debug_iff.
      - assert (0 <= a) by (unfold in_range, imin in Ra; rewrite St in Ra; lia). rewrite Z.abs_eq by lia. split; [intros E; injection E as <-; auto|intros [_ ->]; reflexivity]. }
    assert (FR : forall e, zfits env t e -> in_range t (zvalue env e)) by (intros []; cbn [zfits]; tauto).
    rewrite bind_ok_iff. split.
    + intros (a & Ea & H). apply IHe in Ea as [Fa ->]; auto. apply AB in H; auto. tauto.
    + intros [(H & Fa) ->]. exists (zvalue env e). split; [apply IHe; auto|]. apply AB; auto.
Qed.

(** ** rewriting a formula *)
Theorem formula_rewrite : forall m f, supported f = true -> fsigned f = true ->
  forall env x d, (forall i, fvalid f (env i) /\ (Rabs (fval f (env i) - x i) <= d i)%R) ->
  forall e e', (rootless e = false \/ rootless e' = false -> 2 <= ffrac f <= fwidth f - 4) -> value x e = value x e' -> let u := round_fixed (ulp f) in
  safe x u d (fval f (fmax f)) e -> safe x u d (fval f (fmax f)) e' -> let C fuel := compute (fixed_ops m f) (fixed_signed m f) (fixed_abs m f) (fixed_sqrt m f fuel) env in
  exists r s, returns (fun fuel => C fuel e) r /\ returns (fun fuel => C fuel e') s /\ (Rabs (fval f r - fval f s) <= slack x u d e + slack x u d e')%R.
Proof.
  intros m f Hf Sg env x d H1 e e' HR EQ u S1 S2 C. destruct (formula_fixed m f Hf Sg env x d H1 e (fun K => HR (or_introl K)) S1) as (r & Er & _ & Br).
  destruct (formula_fixed m f Hf Sg env x d H1 e' (fun K => HR (or_intror K)) S2) as (s & Es & _ & Bs). exists r, s. split; [exact Er|]. split; [exact Es|].
  fold u in Br, Bs. rewrite EQ in Br. apply Rabs_le_inv in Br. apply Rabs_le_inv in Bs. apply Rabs_le. lra.
Qed.
