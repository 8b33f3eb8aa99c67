(** * Proofs about formulas that mix real and complex operations. *)

From Coq Require Import ZArith Reals Lia Lra List Bool.
From Flocq Require Import Core.Core IEEE754.BinarySingleNaN.
From Verif Require Import Base FloatBase Traits FixedPrim FixedImpl FloatImpl Complex Spec SpecFilter SpecRotor SpecFourier SpecPhase SpecFormula SpecUFormula SpecTwoSort
  ScalarProofs ScalarProofs2 ProdProofs FloatProofs NiirfFixed2 PolarProofs FormulaProofs UFormulaProofs.
Import ListNotations.
Open Scope Z_scope.

Scheme rform_mut := Induction for rform Sort Prop with zform_mut := Induction for zform Sort Prop.
Combined Scheme two_ind from rform_mut, zform_mut.

(** ** one step of the definitions *)
Lemma rexact_eq : forall x e, rexact x e = (match e with
  | RInput i => x i
  | RWhole k => IZR k
  | RRe c => fst (zexact x c)
  | RIm c => snd (zexact x c)
  | RMag c => cabs (zexact x c)
  | RPlus a b => rexact x a + rexact x b
  | RMinus a b => rexact x a - rexact x b
  | RTimes a b => rexact x a * rexact x b
  | ROver a b => rexact x a / rexact x b
  | RNegated a => - rexact x a
  | RAbsolute a => Rabs (rexact x a)
  | RRoot a => sqrt (rexact x a)
  end)%R.
Proof. destruct e; reflexivity. Qed.
Lemma zexact_eq : forall x e, zexact x e = match e with
  | ZNew a b => (rexact x a, rexact x b)
  | ZAdd c d => cadd (zexact x c) (zexact x d)
  | ZSub c d => csub (zexact x c) (zexact x d)
  | ZMul c d => cmul (zexact x c) (zexact x d)
  | ZConj c => cconj (zexact x c)
  end.
Proof. destruct e; reflexivity. Qed.
Lemma reval_eq : forall {T} O N A Q W (env : nat -> T) e, reval O N A Q W env e = match e with
  | RInput i => Ok (env i)
  | RWhole k => o_of_i32 O k
  | RRe c => z <- zeval O N A Q W env c ;; Ok (re z)
  | RIm c => z <- zeval O N A Q W env c ;; Ok (im z)
  | RMag c => z <- zeval O N A Q W env c ;; cartesian_mag O Q W z
  | RPlus a b => x <- reval O N A Q W env a ;; y <- reval O N A Q W env b ;; o_add O x y
  | RMinus a b => x <- reval O N A Q W env a ;; y <- reval O N A Q W env b ;; o_sub O x y
  | RTimes a b => x <- reval O N A Q W env a ;; y <- reval O N A Q W env b ;; o_mul O x y
  | ROver a b => x <- reval O N A Q W env a ;; y <- reval O N A Q W env b ;; o_div O x y
  | RNegated a => x <- reval O N A Q W env a ;; o_neg N x
  | RAbsolute a => x <- reval O N A Q W env a ;; mixed_abs A x
  | RRoot a => x <- reval O N A Q W env a ;; mixed_sqrt Q x
  end.
Proof. destruct e; reflexivity. Qed.
Lemma zeval_eq : forall {T} O N A Q W (env : nat -> T) e, zeval O N A Q W env e = match e with
  | ZNew a b => x <- reval O N A Q W env a ;; y <- reval O N A Q W env b ;; Ok (mkC x y)
  | ZAdd c d => z <- zeval O N A Q W env c ;; w <- zeval O N A Q W env d ;; cartesian_add O z w
  | ZSub c d => z <- zeval O N A Q W env c ;; w <- zeval O N A Q W env d ;; cartesian_sub O z w
  | ZMul c d => z <- zeval O N A Q W env c ;; w <- zeval O N A Q W env d ;; cartesian_mul O z w
  | ZConj c => z <- zeval O N A Q W env c ;; cartesian_conj N z
  end.
Proof. destruct e; reflexivity. Qed.

(** ** the school formulas denote the same numbers *)
Lemma parts_exact : forall x, (forall a, value x (rpart a) = rexact x a) /\ (forall c, (value x (fst (zparts c)), value x (snd (zparts c))) = zexact x c).
Proof.
  intros x. apply two_ind; intros; first [rewrite rexact_eq|rewrite zexact_eq]; cbn [rpart zparts value];
    repeat match goal with H : _ = rexact x _ |- _ => rewrite <- H; clear H | H : _ = zexact x _ |- _ => rewrite <- H; clear H end;
    repeat match goal with |- context [zparts ?c] => destruct (zparts c) end; reflexivity.
Qed.

(** ** the program computes the school formulas *)
Section Link.
Context {T : Type} (O : MixedOps T) (N : MixedNumSigned T) (A : MixedAbs T) (Q : MixedSqrt T) (W : MixedPowi T) (env : nat -> T).
Hypothesis sq : forall x, mixed_powi W x 2 = o_mul O x x.
Notation comp := (compute O N A Q env).
Notation fine := (Forall (fun g => exists r, comp g = Ok r)).
Lemma link : (forall a, fine (rneeds a) -> reval O N A Q W env a = comp (rpart a)) /\
  (forall c, fine (zneeds c) -> exists r i, comp (fst (zparts c)) = Ok r /\ comp (snd (zparts c)) = Ok i /\ zeval O N A Q W env c = Ok (mkC r i)).
Proof using sq.
  apply two_ind; [intros i; rewrite reval_eq|intros k; rewrite reval_eq|..].
  - reflexivity.
  - reflexivity.
  - intros c IH H. rewrite reval_eq. inversion H as [|? ? _ H']; subst. destruct (IH H') as (r & i & E1 & E2 & E). rewrite E. symmetry. exact E1.
  - intros c IH H. rewrite reval_eq. inversion H as [|? ? _ H']; subst. destruct (IH H') as (r & i & E1 & E2 & E). rewrite E. symmetry. exact E2.
  - intros c IH H. rewrite reval_eq. inversion H as [|? ? _ H']; subst. destruct (IH H') as (r & i & E1 & E2 & E). rewrite E. clear H H' IH E. change (rpart (RMag c)) with (let (a, b) := zparts c in Root (Plus (Times a a) (Times b b))). destruct (zparts c) as [a b]. cbn [fst snd] in E1, E2.
    cbn [bind compute]. unfold cartesian_mag. cbn [re im]. rewrite !sq, E1, E2. cbn [bind]. destruct (o_mul O r r); cbn [bind]; try reflexivity. destruct (o_mul O i i); cbn [bind]; reflexivity.
  - intros a IHa b IHb H. rewrite reval_eq. inversion H as [|? ? _ H']; subst. apply Forall_app in H' as [Ha Hb]. cbn [compute]. rewrite IHa, IHb by assumption. reflexivity.
  - intros a IHa b IHb H. rewrite reval_eq. inversion H as [|? ? _ H']; subst. apply Forall_app in H' as [Ha Hb]. cbn [compute]. rewrite IHa, IHb by assumption. reflexivity.
  - intros a IHa b IHb H. rewrite reval_eq. inversion H as [|? ? _ H']; subst. apply Forall_app in H' as [Ha Hb]. cbn [compute]. rewrite IHa, IHb by assumption. reflexivity.
  - intros a IHa b IHb H. rewrite reval_eq. inversion H as [|? ? _ H']; subst. apply Forall_app in H' as [Ha Hb]. cbn [compute]. rewrite IHa, IHb by assumption. reflexivity.
  - intros a IHa H. rewrite reval_eq. inversion H as [|? ? _ H']; subst. cbn [compute]. rewrite IHa by assumption. reflexivity.
  - intros a IHa H. rewrite reval_eq. inversion H as [|? ? _ H']; subst. cbn [compute]. rewrite IHa by assumption. reflexivity.
  - intros a IHa H. rewrite reval_eq. inversion H as [|? ? _ H']; subst. cbn [compute]. rewrite IHa by assumption. reflexivity.
  - intros a IHa b IHb H. inversion H as [|? ? (r & Er) H1]; subst. inversion H1 as [|? ? (i & Ei) H2]; subst. apply Forall_app in H2 as [Ha Hb]. exists r, i. split; [exact Er|]. split; [exact Ei|].
    rewrite zeval_eq, IHa, IHb by assumption. cbn [zparts fst snd] in Er, Ei. rewrite Er, Ei. reflexivity.
  - intros c IHc d IHd H. inversion H as [|? ? (r & Er) H1]; subst. inversion H1 as [|? ? (i & Ei) H2]; subst. apply Forall_app in H2 as [Hc Hd]. exists r, i. split; [exact Er|]. split; [exact Ei|]. clear H H1.
    destruct (IHc Hc) as (a & b & A1 & A2 & A3). destruct (IHd Hd) as (a' & b' & B1 & B2 & B3). rewrite zeval_eq, A3, B3. cbn [bind]. unfold cartesian_add, ops_add. cbn [re im zparts] in Er, Ei |- *.
    destruct (zparts c), (zparts d). cbn [fst snd compute] in Er, Ei, A1, A2, B1, B2. rewrite A1, B1 in Er. rewrite A2, B2 in Ei. cbn [bind] in Er, Ei. rewrite Er, Ei. reflexivity.
  - intros c IHc d IHd H. inversion H as [|? ? (r & Er) H1]; subst. inversion H1 as [|? ? (i & Ei) H2]; subst. apply Forall_app in H2 as [Hc Hd]. exists r, i. split; [exact Er|]. split; [exact Ei|]. clear H H1.
    destruct (IHc Hc) as (a & b & A1 & A2 & A3). destruct (IHd Hd) as (a' & b' & B1 & B2 & B3). rewrite zeval_eq, A3, B3. cbn [bind]. unfold cartesian_sub, ops_sub. cbn [re im zparts] in Er, Ei |- *.
    destruct (zparts c), (zparts d). cbn [fst snd compute] in Er, Ei, A1, A2, B1, B2. rewrite A1, B1 in Er. rewrite A2, B2 in Ei. cbn [bind] in Er, Ei. rewrite Er, Ei. reflexivity.
  - intros c IHc d IHd H. inversion H as [|? ? (r & Er) H1]; subst. inversion H1 as [|? ? (i & Ei) H2]; subst. apply Forall_app in H2 as [Hc Hd]. exists r, i. split; [exact Er|]. split; [exact Ei|]. clear H H1.
    destruct (IHc Hc) as (a & b & A1 & A2 & A3). destruct (IHd Hd) as (a' & b' & B1 & B2 & B3). rewrite zeval_eq, A3, B3. cbn [bind]. unfold cartesian_mul, ops_mul_cartesian. cbn [re im zparts] in Er, Ei |- *.
    destruct (zparts c), (zparts d). cbn [fst snd compute] in Er, Ei, A1, A2, B1, B2. rewrite A1, B1, A2, B2 in Er, Ei. cbn [bind] in Er, Ei.
    destruct (o_mul O a a'); cbn [bind] in Er |- *; try discriminate. destruct (o_mul O b b'); cbn [bind] in Er |- *; try discriminate. rewrite Er. cbn [bind].
    destruct (o_mul O a b'); cbn [bind] in Ei |- *; try discriminate. destruct (o_mul O b a'); cbn [bind] in Ei |- *; try discriminate. rewrite Ei. reflexivity.
  - intros c IHc H. inversion H as [|? ? (r & Er) H1]; subst. inversion H1 as [|? ? (i & Ei) H2]; subst. exists r, i. split; [exact Er|]. split; [exact Ei|]. clear H H1.
    destruct (IHc H2) as (a & b & A1 & A2 & A3). rewrite zeval_eq, A3. cbn [bind]. unfold cartesian_conj. cbn [re im zparts] in Er, Ei |- *.
    destruct (zparts c). cbn [fst snd compute] in Er, Ei, A1, A2. rewrite A2 in Ei. cbn [bind] in Ei. rewrite Ei. cbn [bind]. congruence.
Qed.
End Link.

(** ** with fuel *)
Section Fuel.
Context {T : Type} (O : MixedOps T) (N : MixedNumSigned T) (A : MixedAbs T) (Q : nat -> MixedSqrt T) (W : MixedPowi T) (env : nat -> T) (P : T -> formula -> Prop).
Hypothesis sq : forall x, mixed_powi W x 2 = o_mul O x x.
Notation comp n := (compute O N A (Q n) env).
Lemma all_return : forall gs, Forall (fun g => exists r, returns (fun n => comp n g) r /\ P r g) gs -> exists n0, forall n, (n0 <= n)%nat -> Forall (fun g => exists r, comp n g = Ok r) gs.
Proof using.
  induction 1 as [|g gs (r & (n1 & H1) & _) _ (n2 & H2)]; [exists 0%nat; constructor|]. exists (n1 + n2)%nat. intros n Hn. constructor; [exists r; apply H1; lia|apply H2; lia].
Qed.
Lemma two_r : forall a, Forall (fun g => exists r, returns (fun n => comp n g) r /\ P r g) (rneeds a) -> exists r, returns (fun n => reval O N A (Q n) W env a) r /\ P r (rpart a).
Proof using sq.
  intros a H. destruct (all_return _ H) as (n0 & H0). assert (X : exists r, returns (fun n => comp n (rpart a)) r /\ P r (rpart a)) by (destruct a; cbn [rneeds] in H; inversion H; assumption).
  destruct X as (r & (n1 & H1) & HP). exists r. split; [|exact HP]. exists (n0 + n1)%nat. intros n Hn. rewrite (proj1 (link O N A (Q n) W env sq)); [apply H1; lia|apply H0; lia].
Qed.
Lemma two_z : forall c, Forall (fun g => exists r, returns (fun n => comp n g) r /\ P r g) (zneeds c) -> exists z, returns (fun n => zeval O N A (Q n) W env c) z /\ P (re z) (fst (zparts c)) /\ P (im z) (snd (zparts c)).
Proof using sq.
  intros c H. destruct (all_return _ H) as (n0 & H0).
  assert (X : (exists r, returns (fun n => comp n (fst (zparts c))) r /\ P r (fst (zparts c))) /\ (exists r, returns (fun n => comp n (snd (zparts c))) r /\ P r (snd (zparts c)))).
  { destruct c; cbn [zneeds] in H; inversion H as [|? ? X H']; subst; inversion H' as [|? ? Y H'']; subst; split; assumption. }
  destruct X as ((r & (n1 & H1) & P1) & (i & (n2 & H2) & P2)). exists (mkC r i). split; [|split; assumption]. exists (n0 + n1 + n2)%nat. intros n Hn.
  destruct (proj2 (link O N A (Q n) W env sq) c) as (r' & i' & E1 & E2 & E3); [apply H0; lia|]. rewrite H1 in E1 by lia. rewrite H2 in E2 by lia. congruence.
Qed.
End Fuel.

(** ** fixed point *)
Lemma sq_fixed : forall m f x, mixed_powi (fixed_powi m f) x 2 = o_mul (fixed_ops m f) x x.
Proof. intros. apply sq_eq. Qed.
Section Fixed.
Variables (m : mode) (f : fty).
Hypotheses (Hf : supported f = true).
Variables (env : nat -> Z) (x d : nat -> R).
Hypothesis Henv : forall i, fvalid f (env i) /\ (Rabs (fval f (env i) - x i) <= d i)%R.
Notation u := (round_fixed (ulp f)).
Notation top := (fval f (fmax f)).
Notation R fuel := (reval (fixed_ops m f) (fixed_signed m f) (fixed_abs m f) (fixed_sqrt m f fuel) (fixed_powi m f) env).
Notation Zv fuel := (zeval (fixed_ops m f) (fixed_signed m f) (fixed_abs m f) (fixed_sqrt m f fuel) (fixed_powi m f) env).
Lemma fits_near : forall g, fits f x d g -> exists r, returns (fun fuel => compute (fixed_ops m f) (fixed_signed m f) (fixed_abs m f) (fixed_sqrt m f fuel) env g) r /\ fvalid f r /\ (Rabs (fval f r - value x g) <= slack x u d g)%R.
Proof using Hf Henv.
  intros g. unfold fits. destruct (fsigned f) eqn:S; intros H.
  - apply formula_fixed; try assumption; tauto.
  - destruct (uformula m f Hf S (fixed_sqrt m f) env x d Henv g H 0%nat) as (r & E & V & B). exists r. split; [|auto]. exists 0%nat. intros n _.
    destruct (uformula m f Hf S (fixed_sqrt m f) env x d Henv g H n) as (r' & E' & _). rewrite E'. clear B V.
    assert (NR : compute (fixed_ops m f) (fixed_signed m f) (fixed_abs m f) (fixed_sqrt m f n) env g = compute (fixed_ops m f) (fixed_signed m f) (fixed_abs m f) (fixed_sqrt m f 0) env g).
    { clear E E'. induction g; cbn [usafe] in H; try contradiction; cbn [compute]; try reflexivity.
      1-4: destruct H as (H1 & H2 & _); rewrite IHg1, IHg2 by assumption; reflexivity.
      rewrite IHg by assumption. reflexivity. }
    congruence.
Qed.
Theorem two_fixed_r : forall a, Forall (fits f x d) (rneeds a) -> exists r, returns (fun fuel => R fuel a) r /\ fvalid f r /\ (Rabs (fval f r - rexact x a) <= slack x u d (rpart a))%R.
Proof using Hf Henv.
  intros a H. rewrite <- (proj1 (parts_exact x)). apply (two_r (fixed_ops m f) (fixed_signed m f) (fixed_abs m f) (fixed_sqrt m f) (fixed_powi m f) env (fun r g => fvalid f r /\ (Rabs (fval f r - value x g) <= slack x u d g)%R) (sq_fixed m f)).
  eapply Forall_impl; [|exact H]. exact fits_near.
Qed.
Theorem two_fixed_z : forall c, Forall (fits f x d) (zneeds c) -> exists z, returns (fun fuel => Zv fuel c) z /\ (fvalid f (re z) /\ fvalid f (im z)) /\
  (Rabs (fval f (re z) - fst (zexact x c)) <= slack x u d (fst (zparts c)))%R /\ (Rabs (fval f (im z) - snd (zexact x c)) <= slack x u d (snd (zparts c)))%R.
Proof using Hf Henv.
  intros c H. rewrite <- (proj2 (parts_exact x)). cbn [fst snd].
  destruct (two_z (fixed_ops m f) (fixed_signed m f) (fixed_abs m f) (fixed_sqrt m f) (fixed_powi m f) env (fun r g => fvalid f r /\ (Rabs (fval f r - value x g) <= slack x u d g)%R) (sq_fixed m f) c) as (z & E & (V1 & B1) & V2 & B2).
  - eapply Forall_impl; [|exact H]. exact fits_near.
  - exists z. auto.
Qed.
End Fixed.

(** ** floats *)
Section Flt.
Context {p e : Z} {Hp : Prec_gt_0 p} {He : Prec_lt_emax p e}.
Hypotheses (Pp : 24 <= p) (Pe : 128 <= e).
Variables (m : mode) (sqf : binary_float p e -> binary_float p e).
Hypothesis Hsq : forall x, sqf x = Bsqrt mode_NE x.
Variables (env : nat -> binary_float p e) (x d : nat -> R).
Hypothesis Henv : forall i, is_finite (env i) = true /\ (Rabs (B2R (env i) - x i) <= d i)%R.
Notation u := (round_float (bpow radix2 (- p)) (bpow radix2 (3 - e - p))).
Notation top := (bpow radix2 e - bpow radix2 (e - p))%R.
Lemma sq_float : forall x : binary_float p e, mixed_powi float_powi x 2 = o_mul float_ops x x.
Proof using. intros y. apply (powi_small y). Qed.
Lemma flt_near : forall g, safe x u d top g -> exists r, returns (fun fuel => compute float_ops float_signed float_abs (float_sqrt m sqf fuel) env g) r /\ is_finite r = true /\ (Rabs (B2R r - value x g) <= slack x u d g)%R.
Proof using Pp Pe Hsq Henv. intros g H. destruct (formula_float Pp Pe m sqf Hsq env x d Henv g H) as (r & E & F). exists r. split; [exists 0%nat; intros; apply E|exact F]. Qed.
Theorem two_float_r : forall a, Forall (safe x u d top) (rneeds a) -> exists r, returns (fun fuel => reval float_ops float_signed float_abs (float_sqrt m sqf fuel) float_powi env a) r /\
  is_finite r = true /\ (Rabs (B2R r - rexact x a) <= slack x u d (rpart a))%R.
Proof using Pp Pe Hsq Henv.
  intros a H. rewrite <- (proj1 (parts_exact x)). apply (two_r float_ops float_signed float_abs (float_sqrt m sqf) float_powi env (fun r g => is_finite r = true /\ (Rabs (B2R r - value x g) <= slack x u d g)%R) sq_float).
  eapply Forall_impl; [|exact H]. exact flt_near.
Qed.
Theorem two_float_z : forall c, Forall (safe x u d top) (zneeds c) -> exists z, returns (fun fuel => zeval float_ops float_signed float_abs (float_sqrt m sqf fuel) float_powi env c) z /\
  (is_finite (re z) = true /\ is_finite (im z) = true) /\ (Rabs (B2R (re z) - fst (zexact x c)) <= slack x u d (fst (zparts c)))%R /\ (Rabs (B2R (im z) - snd (zexact x c)) <= slack x u d (snd (zparts c)))%R.
Proof using Pp Pe Hsq Henv.
  intros c H. rewrite <- (proj2 (parts_exact x)). cbn [fst snd].
  destruct (two_z float_ops float_signed float_abs (float_sqrt m sqf) float_powi env (fun r g => is_finite r = true /\ (Rabs (B2R r - value x g) <= slack x u d g)%R) sq_float c) as (z & E & (V1 & B1) & V2 & B2).
  - eapply Forall_impl; [|exact H]. exact flt_near.
  - exists z. auto.
Qed.
End Flt.
