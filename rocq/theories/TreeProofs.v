(** * Proofs: products in any order. *)

From Coq Require Import ZArith Reals Lia Lra Psatz Bool List.
From Flocq Require Import Core.Core IEEE754.BinarySingleNaN.
From Verif Require Import Base FloatBase Literals Traits Trig IntImpl FixedPrim FixedImpl FloatImpl Complex Spec SpecFilter SpecRotor SpecPhase SpecTree
  Lemmas FloatLemmas FloatKit ScalarProofs ScalarProofs2 FilterProofs FloatArith FloatFilter RotorProofs FourierProofs AngleProofs ComplexProofs ComplexProofs3.
Import ListNotations.
Open Scope Z_scope.

Section Real.
Open Scope R_scope.
Lemma ceq : forall z w : R * R, fst z = fst w -> snd z = snd w -> z = w.
Proof. intros [a b] [c d] H1 H2. cbn in *. subst. reflexivity. Qed.
Lemma cmul_1 : forall z, cmul (1, 0) z = z. Proof. intros. apply ceq; unfold cmul; cbn [fst snd]; ring. Qed.
Lemma cprod_app : forall a b, cprod (a ++ b) = cmul (cprod a) (cprod b).
Proof.
  induction a as [|x a IH]; intros b; cbn [app cprod fold_right]; [symmetry; apply cmul_1|]. fold (cprod (a ++ b)). fold (cprod a). rewrite IH. apply ceq; unfold cmul; cbn [fst snd]; ring.
Qed.
Lemma cprod_le : forall l, (forall z, In z l -> cabs z <= 1) -> cabs (cprod l) <= 1.
Proof.
  induction l as [|x l IH]; intros H; cbn [cprod fold_right].
  - unfold cabs. cbn [fst snd]. rewrite Rmult_0_l, Rplus_0_r, Rmult_1_l, sqrt_1. lra.
  - fold (cprod l). rewrite cabs_cmul. pose proof (H x (or_introl eq_refl)). assert (cabs (cprod l) <= 1) by (apply IH; intros; apply H; right; auto).
    pose proof (cabs_pos x). pose proof (cabs_pos (cprod l)). replace 1 with (1 * 1) by ring. apply Rmult_le_compat; auto.
Qed.
Lemma pow_split : forall q a b, (0 < a)%nat -> (0 < b)%nat -> q * (q ^ (a - 1) * q ^ (b - 1)) = q ^ (a + b - 1).
Proof. intros q a b A B. rewrite <- pow_add. replace (a + b - 1)%nat with (S (a - 1 + (b - 1))) by lia. reflexivity. Qed.
(** two factors with errors *)
Lemma cmul_err : forall x y X Y, cabs (csub (cmul x y) (cmul X Y)) <= cabs (csub x X) * cabs Y + cabs x * cabs (csub y Y).
Proof.
  intros x y X Y. replace (csub (cmul x y) (cmul X Y)) with (csub (cmul x (csub y Y)) (cmul (csub X x) Y)) by (apply ceq; unfold csub, cmul; cbn [fst snd]; ring).
  eapply Rle_trans; [apply (csub_tri _ (0, 0))|]. rewrite (csub_sym (0, 0)).
  assert (Z : forall z, csub z (0, 0) = z) by (intros z; apply ceq; unfold csub; cbn [fst snd]; ring). rewrite !Z, !cabs_cmul, (csub_sym X x). lra.
Qed.
End Real.
Lemma leaves_pos : forall A (t : tree A), (0 < length (leaves t))%nat.
Proof. induction t; cbn [leaves]; [cbn; lia|]. rewrite app_length. lia. Qed.
Lemma parts_self : forall A (t : tree A), In t (parts t). Proof. intros A []; left; reflexivity. Qed.

(** ** fixed *)
Section Fixed.
Variables (m : mode) (f : fty).
Hypotheses (F : supported f = true) (Sg : fsigned f = true).
Notation g := (224 / 100 * ulp f)%R.
Notation val := (fun t => cprod (map (cval f) (leaves t))).
Lemma tree_fixed : forall t, (forall z, In z (leaves t) -> (cabs (cval f z) <= 1)%R) -> ((1 + g) ^ (length (leaves t) - 1) <= fval f (fmax f))%R ->
  exists r, multiply (fixed_ops m f) t = Ok r /\ (cabs (csub (cval f r) (val t)) <= (1 + g) ^ (length (leaves t) - 1) - 1)%R.
Proof using F Sg.
  assert (U : (0 < ulp f)%R) by apply bpow_gt_0.
  induction t as [z|l IHl r IHr]; intros H B.
  - exists z. split; [reflexivity|]. cbn [leaves map length cprod fold_right]. cbn [Nat.sub pow]. replace (cmul (cval f z) (1, 0)%R) with (cval f z) by (apply ceq; unfold cmul; cbn [fst snd]; ring). rewrite csub_self. lra.
  - cbn [leaves] in *. rewrite app_length in *. pose proof (leaves_pos _ l) as Ll. pose proof (leaves_pos _ r) as Lr.
    rewrite <- pow_split in * by auto. set (a := ((1 + g) ^ (length (leaves l) - 1))%R) in *. set (b := ((1 + g) ^ (length (leaves r) - 1))%R) in *.
    assert (A1 : (1 <= a)%R) by (apply pow_R1_Rle; lra). assert (B1 : (1 <= b)%R) by (apply pow_R1_Rle; lra). assert (AB : (1 <= a * b)%R) by nra.
    assert (GA : (g <= g * (a * b))%R) by nra.
    destruct IHl as (x & Ex & Nx). { intros; apply H; apply in_or_app; auto. } { nra. }
    destruct IHr as (y & Ey & Ny). { intros; apply H; apply in_or_app; auto. } { nra. }
    assert (Hl : (cabs (val l) <= 1)%R). { apply cprod_le. intros z I. apply in_map_iff in I. destruct I as (v & <- & I). apply H, in_or_app; auto. }
    assert (Hr : (cabs (val r) <= 1)%R). { apply cprod_le. intros z I. apply in_map_iff in I. destruct I as (v & <- & I). apply H, in_or_app; auto. }
    cbv beta in Hl, Hr. set (X := cprod (map (cval f) (leaves l))) in *. set (Y := cprod (map (cval f) (leaves r))) in *.
    assert (Ax : (cabs (cval f x) <= a)%R) by (pose proof (cabs_via (cval f x) X); lra). assert (Ay : (cabs (cval f y) <= b)%R) by (pose proof (cabs_via (cval f y) Y); lra).
    pose proof (cabs_pos (cval f x)) as px. pose proof (cabs_pos (cval f y)) as py. pose proof (cabs_pos Y) as pY. pose proof (cabs_pos (csub (cval f x) X)) as pd. pose proof (cabs_pos (csub (cval f y) Y)) as pe.
    assert (XY : (cabs (cval f x) * cabs (cval f y) <= a * b)%R) by (apply Rmult_le_compat; auto).
    destruct (fixed_mul_near m f F Sg x y ltac:(lra)) as (p & Ep & Np).
    exists p. split; [cbn [multiply]; rewrite Ex; cbn [bind]; rewrite Ey; exact Ep|]. rewrite map_app, cprod_app. fold X Y.
    eapply Rle_trans; [apply (csub_tri _ (cmul (cval f x) (cval f y)))|]. pose proof (cmul_err (cval f x) (cval f y) X Y) as CE.
    assert (T1 : (cabs (csub (cval f x) X) * cabs Y <= (a - 1) * 1)%R) by (apply Rmult_le_compat; auto). assert (T2 : (cabs (cval f x) * cabs (csub (cval f y) Y) <= a * (b - 1))%R) by (apply Rmult_le_compat; auto).
    lra.
Qed.
End Fixed.

(** ** programs as trees *)
Section Prog.
Context {T : Type} (P : MixedOps T).
Fixpoint chain (z : Cartesian T) (n : nat) (acc : tree (Cartesian T)) : tree (Cartesian T) := match n with O => acc | S n => chain z n (Node acc (Leaf z)) end.
Fixpoint fast (z : Cartesian T) (n : positive) : tree (Cartesian T) := match n with xH => Leaf z | xO p => Node (fast z p) (fast z p) | xI p => Node (Node (fast z p) (fast z p)) (Leaf z) end.
Lemma chain_eval : forall z n acc, multiply P (chain z n acc) = (a <- multiply P acc ;; power_loop P z n a).
Proof.
  intros z. induction n; intros acc; cbn [chain power_loop]; [destruct (multiply P acc); reflexivity|]. rewrite IHn. cbn [multiply]. destruct (multiply P acc); reflexivity.
Qed.
Lemma fast_eval : forall z n, multiply P (fast z n) = power_fast P z n.
Proof.
  intros z. induction n; cbn [fast multiply power_fast]; auto; rewrite IHn; destruct (power_fast P z n); reflexivity.
Qed.
Lemma chain_leaves : forall z n acc, leaves (chain z n acc) = leaves acc ++ repeat z n.
Proof. intros z. induction n; intros acc; cbn [chain repeat]; [rewrite app_nil_r; reflexivity|]. rewrite IHn. cbn [leaves]. rewrite <- app_assoc. reflexivity. Qed.
Lemma fast_leaves : forall z n, leaves (fast z n) = repeat z (Pos.to_nat n).
Proof.
  intros z. induction n; cbn [fast leaves]; [..|reflexivity]; rewrite IHn, <- repeat_app.
  - rewrite Pos2Nat.inj_xI. change [z] with (repeat z 1). rewrite <- repeat_app. f_equal. lia.
  - rewrite Pos2Nat.inj_xO. f_equal. lia.
Qed.
End Prog.
Lemma cprod_repeat : forall z n, cprod (repeat z n) = Nat.iter n (cmul z) (1, 0)%R.
Proof. intros z. induction n; cbn [repeat Nat.iter cprod fold_right]; auto. fold (cprod (repeat z n)). rewrite IHn. reflexivity. Qed.
Lemma map_repeat : forall A B (h : A -> B) z n, map h (repeat z n) = repeat (h z) n.
Proof. intros A B h z. induction n; cbn; [|rewrite IHn]; reflexivity. Qed.
Notation zpow z n := (Nat.iter n (cmul z) (1, 0)%R).
Lemma powers_fixed : forall m f, supported f = true -> fsigned f = true -> forall z n, let q := (1 + 224 / 100 * ulp f)%R in
  (cabs (cval f z) <= 1)%R -> (q ^ (Pos.to_nat n - 1) <= fval f (fmax f))%R ->
  exists r s, power_loop (fixed_ops m f) z (Pos.to_nat n - 1) z = Ok r /\ power_fast (fixed_ops m f) z n = Ok s /\
  (cabs (csub (cval f r) (zpow (cval f z) (Pos.to_nat n))) <= q ^ (Pos.to_nat n - 1) - 1)%R /\ (cabs (csub (cval f s) (zpow (cval f z) (Pos.to_nat n))) <= q ^ (Pos.to_nat n - 1) - 1)%R.
Proof.
  intros m f F Sg z n q Z B. pose proof (Pos2Nat.is_pos n) as NP.
  assert (L1 : leaves (chain z (Pos.to_nat n - 1) (Leaf z)) = repeat z (Pos.to_nat n)). { rewrite chain_leaves. cbn [leaves app]. change (z :: repeat z (Pos.to_nat n - 1)) with (repeat z (S (Pos.to_nat n - 1))). f_equal. lia. }
  assert (IN : forall w, In w (repeat z (Pos.to_nat n)) -> (cabs (cval f w) <= 1)%R) by (intros w I; apply repeat_spec in I; subst; auto).
  destruct (tree_fixed m f F Sg (chain z (Pos.to_nat n - 1) (Leaf z))) as (r & Er & Nr). { rewrite L1. exact IN. } { rewrite L1, repeat_length. exact B. }
  destruct (tree_fixed m f F Sg (fast z n)) as (s & Es & Ns). { rewrite fast_leaves. exact IN. } { rewrite fast_leaves, repeat_length. exact B. }
  rewrite L1, map_repeat, cprod_repeat, repeat_length in Nr. rewrite fast_leaves, map_repeat, cprod_repeat, repeat_length in Ns. rewrite fast_eval in Es. rewrite chain_eval in Er. cbn [multiply bind] in Er.
  exists r, s. repeat (split; [assumption|]). assumption.
Qed.

(** ** integers *)
Lemma gprod_app : forall a b, gprod (a ++ b) = gauss_mul (gprod a) (gprod b).
Proof.
  induction a as [|x a IH]; intros b; cbn [app gprod fold_right].
  - fold (gprod b). unfold gauss_mul. destruct (gprod b) as [p q]. cbn [re im]. f_equal; ring.
  - fold (gprod (a ++ b)). fold (gprod a). rewrite IH. unfold gauss_mul. cbn [re im]. f_equal; ring.
Qed.
Lemma tree_int : forall t, In t int_types -> forall e, (forall z, In z (leaves e) -> cvalid t z) ->
  multiply (int_ops Release t) e = Ok (cwrap t (gprod (leaves e))) /\ (forall r, multiply (int_ops Debug t) e = Ok r -> r = gprod (leaves e) /\ cvalid t r).
Proof.
  intros t Ht. pose proof (int_types_width t Ht) as W. induction e as [z|l IHl r IHr]; intros V.
  - cbn [multiply leaves gprod fold_right]. assert (E : gauss_mul z (mkC 1 0) = z) by (unfold gauss_mul; destruct z as [p q]; cbn [re im]; f_equal; ring). rewrite E.
    destruct (V z (or_introl eq_refl)) as [V1 V2]. split; [|intros r H; injection H as <-; split; auto; split; auto].
    unfold cwrap. rewrite !wrap_id by (auto; lia). destruct z; reflexivity.
  - cbn [leaves] in *. destruct IHl as [Rl Dl]. { intros; apply V, in_or_app; auto. } destruct IHr as [Rr Dr]. { intros; apply V, in_or_app; auto. }
    rewrite gprod_app. split.
    + cbn [multiply]. rewrite Rl. cbn [bind]. rewrite Rr. cbn [bind]. rewrite cmul_release by (auto; lia). fold (gauss_mul (cwrap t (gprod (leaves l))) (cwrap t (gprod (leaves r)))).
      change (Ok (cwrap t (gauss_mul (cwrap t (gprod (leaves l))) (cwrap t (gprod (leaves r))))) = Ok (cwrap t (gauss_mul (gprod (leaves l)) (gprod (leaves r))))).
      rewrite cwrap_mul_l, cwrap_mul_r by lia. reflexivity.
    + intros p. cbn [multiply]. destruct (multiply (int_ops Debug t) l) as [x| |] eqn:El; cbn [bind]; try discriminate. destruct (multiply (int_ops Debug t) r) as [y| |] eqn:Er; cbn [bind]; try discriminate.
      intros H. destruct (Dl _ eq_refl) as [-> _]. destruct (Dr _ eq_refl) as [-> _]. pose proof (cmul_returns Debug t ltac:(lia) _ _ _ H) as [C1 C2]. split; [apply C2; reflexivity|]. rewrite C1. split; apply wrap_range; lia.
Qed.
Lemma order_int : forall t, In t int_types -> forall e e', leaves e = leaves e' -> (forall z, In z (leaves e) -> cvalid t z) ->
  multiply (int_ops Release t) e = multiply (int_ops Release t) e'.
Proof. intros t Ht e e' E V. rewrite (proj1 (tree_int t Ht e V)). rewrite E in V. rewrite (proj1 (tree_int t Ht e' V)). rewrite E. reflexivity. Qed.

Lemma parts_leaves : forall A (t s : tree A), In s (parts t) -> (forall z, In z (leaves s) -> In z (leaves t)) /\ (length (leaves s) <= length (leaves t))%nat.
Proof.
  intros A. induction t as [z|l IHl r IHr]; intros s I; destruct I as [<-|I]; auto; [destruct I|]. cbn [leaves]. rewrite app_length.
  apply in_app_or in I. destruct I as [I|I]; [destruct (IHl _ I) as [H1 H2]|destruct (IHr _ I) as [H1 H2]]; (split; [intros; apply in_or_app; auto|lia]).
Qed.
Lemma zpow_abs : forall z n, cabs (zpow z n) = (cabs z ^ n)%R.
Proof.
  intros z. induction n; [change (zpow z 0) with (1, 0)%R|change (zpow z (S n)) with (cmul z (zpow z n))]; cbn [pow].
  - unfold cabs. cbn [fst snd]. replace (1 * 1 + 0 * 0)%R with 1%R by ring. apply sqrt_1.
  - rewrite cabs_cmul, IHn. reflexivity.
Qed.
Lemma pow_le_small : forall x a b, (0 <= x <= 1)%R -> (a <= b)%nat -> (x ^ b <= x ^ a)%R.
Proof.
  intros x a b X L. replace b with (a + (b - a))%nat by lia. rewrite pow_add. pose proof (pow_incr x 1 (b - a) ltac:(lra)) as P. rewrite pow1 in P. pose proof (pow_le x a ltac:(lra)). nra.
Qed.

(** ** floats *)
Section Float.
Context {prec emax : Z} {Hp : Prec_gt_0 prec} {He : Prec_lt_emax prec emax}.
Notation float := (binary_float prec emax).
Notation u := (bpow radix2 (- prec)).
Notation fv := (@cvalf prec emax).
Hypotheses (P24 : 24 <= prec) (E40 : 40 <= emax).
Notation h := (emax / 2).
Notation q := (1 + 4 * u)%R.
Notation val := (fun t => cprod (map fv (leaves t))).
Lemma tree_float : forall t, (forall z, In z (leaves t) -> cfin z) -> (forall s, In s (parts t) -> bpow radix2 (7 - h) <= cabs (val s) <= bpow radix2 (h - 5))%R ->
  (q ^ (length (leaves t) - 1) <= 3 / 2)%R ->
  exists r, multiply float_ops t = Ok r /\ cfin r /\ (cabs (csub (fv r) (val t)) <= (q ^ (length (leaves t) - 1) - 1) * cabs (val t))%R.
Proof using P24 E40.
  assert (U : (0 < u)%R) by apply bpow_gt_0.
  induction t as [z|l IHl r IHr]; intros FI H B.
  - exists z. split; [reflexivity|]. split; [apply FI; left; reflexivity|]. cbn [leaves map length cprod fold_right Nat.sub pow]. replace (cmul (fv z) (1, 0)%R) with (fv z) by (apply ceq; unfold cmul; cbn [fst snd]; ring). rewrite csub_self. lra.
  - pose proof (H _ (parts_self _ _)) as HH. cbn [parts] in H. cbn [leaves] in *. rewrite app_length in *. pose proof (leaves_pos _ l) as Ll. pose proof (leaves_pos _ r) as Lr.
    rewrite <- pow_split in * by auto. set (a := (q ^ (length (leaves l) - 1))%R) in *. set (b := (q ^ (length (leaves r) - 1))%R) in *.
    assert (A1 : (1 <= a)%R) by (apply pow_R1_Rle; lra). assert (B1 : (1 <= b)%R) by (apply pow_R1_Rle; lra). assert (AB : (1 <= a * b)%R) by nra.
    assert (U4 : (0 <= 4 * u * (a * b))%R) by (apply Rmult_le_pos; lra). assert (AB2 : (a * b <= 3 / 2)%R) by lra.
    assert (A2 : (a <= 3 / 2)%R) by nra. assert (B2 : (b <= 3 / 2)%R) by nra.
    destruct IHl as (x & Ex & Fx & Nx); auto. { intros; apply FI; apply in_or_app; auto. } { intros; apply H; right; apply in_or_app; auto. }
    destruct IHr as (y & Ey & Fy & Ny); auto. { intros; apply FI; apply in_or_app; auto. } { intros; apply H; right; apply in_or_app; auto. }
    pose proof (H l ltac:(right; apply in_or_app; left; apply parts_self)) as Hl. pose proof (H r ltac:(right; apply in_or_app; right; apply parts_self)) as Hr.
    rewrite map_app, cprod_app in *. cbv beta in Hl, Hr. set (X := cprod (map fv (leaves l))) in *. set (Y := cprod (map fv (leaves r))) in *. rewrite cabs_cmul in *.
    pose proof (cabs_pos (fv x)) as px. pose proof (cabs_pos (fv y)) as py. pose proof (cabs_pos X) as pX. pose proof (cabs_pos Y) as pY. pose proof (cabs_pos (csub (fv x) X)) as pd. pose proof (cabs_pos (csub (fv y) Y)) as pe.
    assert (Ax : (cabs (fv x) <= a * cabs X)%R) by (pose proof (cabs_via (fv x) X); lra). assert (Ay : (cabs (fv y) <= b * cabs Y)%R) by (pose proof (cabs_via (fv y) Y); lra).
    assert (Lx : (/ 2 * cabs X <= cabs (fv x))%R). { pose proof (cabs_via X (fv x)) as V. rewrite csub_sym in V. assert ((a - 1) * cabs X <= / 2 * cabs X)%R by (apply Rmult_le_compat_r; lra). lra. }
    assert (Ly : (/ 2 * cabs Y <= cabs (fv y))%R). { pose proof (cabs_via Y (fv y)) as V. rewrite csub_sym in V. assert ((b - 1) * cabs Y <= / 2 * cabs Y)%R by (apply Rmult_le_compat_r; lra). lra. }
    assert (P2 : (bpow radix2 (h - 4) = 2 * bpow radix2 (h - 5))%R). { change 2%R with (bpow radix2 1). rewrite <- bpow_plus. f_equal. lia. }
    assert (P3 : (bpow radix2 (7 - h) = 4 * bpow radix2 (5 - h))%R). { change 4%R with (bpow radix2 2). rewrite <- bpow_plus. f_equal. lia. }
    assert (Mx : (cabs (fv x) <= bpow radix2 (h - 4))%R). { assert (a * cabs X <= 3 / 2 * bpow radix2 (h - 5))%R by (apply Rmult_le_compat; lra). lra. }
    assert (My : (cabs (fv y) <= bpow radix2 (h - 4))%R). { assert (b * cabs Y <= 3 / 2 * bpow radix2 (h - 5))%R by (apply Rmult_le_compat; lra). lra. }
    assert (LP : (bpow radix2 (5 - h) <= cabs (fv x) * cabs (fv y))%R). { assert ((/ 2 * cabs X) * (/ 2 * cabs Y) <= cabs (fv x) * cabs (fv y))%R by (apply Rmult_le_compat; lra). lra. }
    destruct (mul_float_u P24 E40 x y Fx Fy Mx My LP) as (p & Ep & Fp & Np).
    exists p. split; [cbn [multiply]; rewrite Ex; cbn [bind]; rewrite Ey; exact Ep|]. split; auto.
    eapply Rle_trans; [apply (csub_tri _ (cmul (fv x) (fv y)))|]. pose proof (cmul_err (fv x) (fv y) X Y) as CE.
    assert (T0 : (cabs (fv x) * cabs (fv y) <= (a * cabs X) * (b * cabs Y))%R) by (apply Rmult_le_compat; auto).
    assert (T1 : (cabs (csub (fv x) X) * cabs Y <= ((a - 1) * cabs X) * cabs Y)%R) by (apply Rmult_le_compat_r; auto). assert (T2 : (cabs (fv x) * cabs (csub (fv y) Y) <= (a * cabs X) * ((b - 1) * cabs Y))%R) by (apply Rmult_le_compat; auto).
    assert (T3 : (4 * u * (cabs (fv x) * cabs (fv y)) <= 4 * u * ((a * cabs X) * (b * cabs Y)))%R) by (apply Rmult_le_compat_l; lra).
    lra.
Qed.
Lemma powers_float : forall (z : Cartesian float) n, cfin z -> (bpow radix2 (7 - h) <= cabs (fv z) ^ Pos.to_nat n <= bpow radix2 (h - 5))%R -> (q ^ (Pos.to_nat n - 1) <= 3 / 2)%R ->
  exists r s, power_loop float_ops z (Pos.to_nat n - 1) z = Ok r /\ power_fast float_ops z n = Ok s /\ cfin r /\ cfin s /\
  (cabs (csub (fv r) (zpow (fv z) (Pos.to_nat n))) <= (q ^ (Pos.to_nat n - 1) - 1) * cabs (fv z) ^ Pos.to_nat n)%R /\ (cabs (csub (fv s) (zpow (fv z) (Pos.to_nat n))) <= (q ^ (Pos.to_nat n - 1) - 1) * cabs (fv z) ^ Pos.to_nat n)%R.
Proof using P24 E40.
  intros z n Z H B. pose proof (Pos2Nat.is_pos n) as NP.
  assert (L1 : leaves (chain z (Pos.to_nat n - 1) (Leaf z)) = repeat z (Pos.to_nat n)). { rewrite chain_leaves. cbn [leaves app]. change (z :: repeat z (Pos.to_nat n - 1)) with (repeat z (S (Pos.to_nat n - 1))). f_equal. lia. }
  assert (IN : forall w, In w (repeat z (Pos.to_nat n)) -> cfin w) by (intros w I; apply repeat_spec in I; subst; auto).
  assert (HB : (bpow radix2 (7 - h) <= 1 <= bpow radix2 (h - 5))%R). { pose proof (Z.div_mod emax 2 ltac:(lia)) as D. pose proof (Z.mod_pos_bound emax 2 ltac:(lia)). change 1%R with (bpow radix2 0). split; apply bpow_le; lia. }
  assert (PT : forall t, leaves t = repeat z (Pos.to_nat n) -> forall s, In s (parts t) -> (bpow radix2 (7 - h) <= cabs (val s) <= bpow radix2 (h - 5))%R).
  { intros t E s I. destruct (parts_leaves _ _ _ I) as [SUB LE]. rewrite E, repeat_length in LE.
    assert (R : leaves s = repeat z (length (leaves s))). { apply Forall_eq_repeat. rewrite E in SUB. apply Forall_forall. intros w W. symmetry. apply (repeat_spec (Pos.to_nat n)). auto. }
    rewrite R, map_repeat, cprod_repeat, zpow_abs. set (k := length (leaves s)) in *. pose proof (cabs_pos (fv z)) as C0. destruct (Rle_lt_dec (cabs (fv z)) 1) as [C|C].
    - pose proof (pow_le_small (cabs (fv z)) k (Pos.to_nat n) ltac:(lra) LE). pose proof (pow_incr (cabs (fv z)) 1 k ltac:(lra)) as PI. rewrite pow1 in PI. lra.
    - pose proof (Rle_pow (cabs (fv z)) k (Pos.to_nat n) ltac:(lra) LE). pose proof (pow_R1_Rle (cabs (fv z)) k ltac:(lra)). lra. }
  destruct (tree_float (chain z (Pos.to_nat n - 1) (Leaf z))) as (r & Er & Fr & Nr). { rewrite L1. exact IN. } { apply PT, L1. } { rewrite L1, repeat_length. exact B. }
  destruct (tree_float (fast z n)) as (s & Es & Fs & Ns). { rewrite fast_leaves. exact IN. } { apply PT, fast_leaves. } { rewrite fast_leaves, repeat_length. exact B. }
  rewrite L1, map_repeat, cprod_repeat, repeat_length, zpow_abs in Nr. rewrite fast_leaves, map_repeat, cprod_repeat, repeat_length, zpow_abs in Ns. rewrite fast_eval in Es. rewrite chain_eval in Er. cbn [multiply bind] in Er.
  exists r, s. do 4 (split; [assumption|]). split; assumption.
Qed.
End Float.
