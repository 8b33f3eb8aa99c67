(** * Proofs about the signs of the parts of a product (C178). *)

From Coq Require Import ZArith Reals Lia Lra List Bool Psatz.
From Flocq Require Import Core.Core IEEE754.BinarySingleNaN Plus_error.
From Verif Require Import Base FloatBase Traits IntImpl FixedPrim FixedImpl FloatImpl Complex Spec SpecSign Lemmas ScalarProofs ScalarProofs2 FloatLemmas FloatArith FloatKit MagProofs SqrtInv MagOrder.
Import ListNotations.
Open Scope Z_scope.

Section Flt.
Context {prec emax : Z} {Hp : Prec_gt_0 prec} {He : Prec_lt_emax prec emax}.
Notation float := (binary_float prec emax).
Notation fexp := (SpecFloat.fexp prec emax).
Notation rnd := (round radix2 fexp ZnearestE).
Let Vx : Valid_exp fexp := fexp_correct prec emax Hp.
Let Vm : Monotone_exp fexp := fexp_monotone prec emax.

Lemma minus_fin : forall a b : float, is_finite (Bminus mode_NE a b) = true -> is_finite a = true /\ is_finite b = true.
Proof using Type. intros [[]|[]| |[] ? ? ?] [[]|[]| |[] ? ? ?]; cbn; auto; discriminate. Qed.
Lemma minus_val : forall a b : float, is_finite (Bminus mode_NE a b) = true -> B2R (Bminus mode_NE a b) = rnd (B2R a - B2R b).
Proof using Type.
  intros a b F. destruct (minus_fin a b F) as [Fa Fb]. pose proof (Bminus_correct prec emax _ _ mode_NE a b Fa Fb) as K. destruct (Rlt_bool _ _); [apply K|].
  destruct K as [K _]. destruct (Bminus mode_NE a b); try discriminate; cbn in K; discriminate.
Qed.
Lemma rnd_side : forall x y : R, same_side (rnd (rnd x - rnd y)) (x - y).
Proof using Vx.
  intros x y. assert (Vn : Valid_rnd ZnearestE) by apply valid_rnd_N. split; intros H.
  - apply round_ge_generic; auto; [apply generic_format_0|]. assert (rnd y <= rnd x)%R by (apply round_le; auto; lra). lra.
  - apply round_le_generic; auto; [apply generic_format_0|]. assert (rnd x <= rnd y)%R by (apply round_le; auto; lra). lra.
Qed.
Lemma rnd_zero : forall x y : R, rnd (rnd x - rnd y) = 0%R <-> rnd x = rnd y.
Proof using Vx Vm.
  intros x y. assert (Vn : Valid_rnd ZnearestE) by apply valid_rnd_N. split; intros H.
  - assert (NF : Exp_not_FTZ fexp) by (apply monotone_exp_not_FTZ; auto). unfold Rminus in H. apply round_plus_eq_0 in H; auto; [lra|apply generic_format_round; auto|apply generic_format_opp, generic_format_round; auto].
  - rewrite H, Rminus_eq_0. apply round_0. auto.
Qed.
Theorem product_side_float : forall z w r : Cartesian float, cartesian_mul float_ops z w = Ok r ->
  let a := B2R (re z) in let b := B2R (im z) in let c := B2R (re w) in let d := B2R (im w) in
  (is_finite (re r) = true -> same_side (B2R (re r)) (a * c - b * d) /\ (B2R (re r) = 0 <-> rnd (a * c) = rnd (b * d))%R) /\
  (is_finite (im r) = true -> same_side (B2R (im r)) (a * d + b * c) /\ (B2R (im r) = 0 <-> rnd (a * d) = - rnd (b * c))%R).
Proof using Vx Vm.
  intros z w r E. cbv zeta. unfold cartesian_mul, ops_mul_cartesian in E. cbn [o_mul o_sub o_add float_ops bind] in E. injection E as <-. cbn [re im].
  assert (RN : forall v, rnd (- v) = (- rnd v)%R) by (intros v; apply round_NE_opp).
  split; intros F.
  - destruct (minus_fin _ _ F) as [F1 F2]. rewrite (minus_val _ _ F), (mult_fin _ _ F1), (mult_fin _ _ F2). split; [apply rnd_side|apply rnd_zero].
  - destruct (plus_fin _ _ F) as [F1 F2]. rewrite (plus_val _ _ F), (mult_fin _ _ F1), (mult_fin _ _ F2).
    set (x := (B2R (re z) * B2R (im w))%R). set (y := (B2R (im z) * B2R (re w))%R). replace (x + y)%R with (x - (- y))%R by ring.
    replace (rnd x + rnd y)%R with (rnd x - rnd (- y))%R by (rewrite RN; ring). rewrite <- RN. split; [apply rnd_side|apply rnd_zero].
Qed.
(** conj(z) w: the imaginary part is the cross product *)
Theorem turn_side_float : forall z w q r : Cartesian float, cartesian_conj float_signed z = Ok q -> cartesian_mul float_ops q w = Ok r -> is_finite (im r) = true ->
  let a := B2R (re z) in let b := B2R (im z) in let c := B2R (re w) in let d := B2R (im w) in
  same_side (B2R (im r)) (a * d - b * c) /\ (B2R (im r) = 0 <-> rnd (a * d) = rnd (b * c))%R.
Proof using Vx Vm.
  intros z w q r Eq E F. cbv zeta. unfold cartesian_conj in Eq. cbn [o_neg float_signed bind] in Eq. injection Eq as <-.
  destruct (product_side_float _ _ _ E) as [_ H]. specialize (H F). cbn [re im] in H. rewrite B2R_Bopp in H.
  replace (- B2R (im z) * B2R (re w))%R with (- (B2R (im z) * B2R (re w)))%R in H by ring. rewrite round_NE_opp, Ropp_involutive in H. exact H.
Qed.
End Flt.

(** ** fixed point *)
Lemma floor_sum : forall o x y, 0 < o -> (x + y < 0 -> x / o + y / o < 0) /\ (0 <= x + y -> -1 <= x / o + y / o) /\ (o <= x + y -> 0 <= x / o + y / o) /\ (x / o + y / o) * o <= x + y.
Proof. intros o x y O. pose proof (Z.div_mod x o ltac:(lia)). pose proof (Z.div_mod y o ltac:(lia)). pose proof (Z.mod_pos_bound x o O). pose proof (Z.mod_pos_bound y o O). nia. Qed.
Lemma fixed_parts : forall f z w r, cartesian_mul (fixed_ops Debug f) z w = Ok r ->
  re r = re z * re w / fone f - im z * im w / fone f /\ im r = re z * im w / fone f + im z * re w / fone f.
Proof.
  intros f z w r E. unfold cartesian_mul, ops_mul_cartesian in E. cbn [o_mul o_sub o_add fixed_ops] in E. unfold fx_mul, fx_sub, fx_add, fx_fin in E.
  destruct (fin Debug (fity f) (re z * re w / fone f)) as [x1| |] eqn:E1; cbn [bind] in E; try discriminate. apply fin_debug_inv in E1 as [-> _].
  destruct (fin Debug (fity f) (im z * im w / fone f)) as [x1| |] eqn:E1; cbn [bind] in E; try discriminate. apply fin_debug_inv in E1 as [-> _].
  destruct (fin Debug (fity f) (re z * re w / fone f - _)) as [x1| |] eqn:E1; cbn [bind] in E; try discriminate. apply fin_debug_inv in E1 as [-> _].
  destruct (fin Debug (fity f) (re z * im w / fone f)) as [x1| |] eqn:E1; cbn [bind] in E; try discriminate. apply fin_debug_inv in E1 as [-> _].
  destruct (fin Debug (fity f) (im z * re w / fone f)) as [x1| |] eqn:E1; cbn [bind] in E; try discriminate. apply fin_debug_inv in E1 as [-> _].
  destruct (fin Debug (fity f) (re z * im w / fone f + _)) as [x1| |] eqn:E1; cbn [bind] in E; try discriminate. apply fin_debug_inv in E1 as [-> _].
  injection E as <-. auto.
Qed.
Theorem product_side_fixed : forall f, supported f = true -> forall z w r, cartesian_mul (fixed_ops Debug f) z w = Ok r ->
  let a := re z in let b := im z in let c := re w in let d := im w in
  (b * d <= a * c -> 0 <= re r) /\ (a * c <= b * d -> re r <= 0) /\
  (a * d + b * c < 0 -> im r < 0) /\ (0 <= a * d + b * c -> -1 <= im r) /\ (fone f <= a * d + b * c -> 0 <= im r).
Proof.
  intros f Hf z w r E. cbv zeta. destruct (fixed_parts f z w r E) as [-> ->]. pose proof (fone_pos f (proj1 (supported_fwf f Hf))) as O.
  destruct (floor_sum (fone f) (re z * im w) (im z * re w) O) as (A & B & C & _).
  split; [|split; [|auto]]; intros H; apply (Z.div_le_mono _ _ (fone f) O) in H; lia.
Qed.
Theorem turn_fixed : forall f, supported f = true -> forall z w q r, cartesian_conj (fixed_signed Debug f) z = Ok q -> cartesian_mul (fixed_ops Debug f) q w = Ok r ->
  let a := re z in let b := im z in let c := re w in let d := im w in
  (a * d - b * c < 0 -> im r < 0) /\ (0 <= a * d - b * c -> -1 <= im r) /\ (fone f <= a * d - b * c -> 0 <= im r).
Proof.
  intros f Hf z w q r Eq E. cbv zeta. unfold cartesian_conj in Eq. cbn [o_neg fixed_signed] in Eq. unfold fx_neg, fx_fin in Eq.
  destruct (fin Debug (fity f) _) as [x| |] eqn:E1; cbn [bind] in Eq; try discriminate. apply fin_debug_inv in E1 as [-> _]. injection Eq as <-.
  destruct (product_side_fixed f Hf _ _ _ E) as (_ & _ & A & B & C). cbn [re im] in *. rewrite Z.mul_opp_l in *. auto.
Qed.
Theorem turn_wrong : forall m f, supported f = true -> fsigned f = true -> 1 <= ffrac f -> let z := mkC 1 1 in
  exists q r, cartesian_conj (fixed_signed m f) z = Ok q /\ cartesian_mul (fixed_ops m f) q z = Ok r /\ im r = -1.
Proof.
  intros m f Hf Sf Fr. cbv zeta. assert (W : 1 <= iwidth (fity f)) by (apply fwf_width, supported_fwf; exact Hf).
  pose proof (supported_fwf f Hf) as [F0 F1]. assert (O : 2 <= fone f) by (unfold fone; replace 2 with (2 ^ 1) at 1 by reflexivity; apply Z.pow_le_mono_r; lia).
  assert (P : 4 <= 2 ^ (fwidth f - 1)) by (replace 4 with (2 ^ 2) by reflexivity; apply Z.pow_le_mono_r; lia).
  assert (R : forall x, -2 <= x <= 2 -> in_range (fity f) x) by (intros x X; unfold in_range, imin, imax, fity; cbn [isigned iwidth]; rewrite Sf; lia).
  assert (D1 : 1 / fone f = 0) by (apply Z.div_small; lia). assert (D2 : -1 / fone f = -1). { symmetry. apply (Z.div_unique_pos (-1) (fone f) (-1) (fone f - 1)); lia. }
  exists (mkC 1 (-1)), (mkC 1 (-1)). split; [|split; [|reflexivity]].
  - unfold cartesian_conj. cbn [o_neg fixed_signed re im]. unfold fx_neg, fx_fin. change (- (1)) with (-1). rewrite fin_ok by (apply R; lia). reflexivity.
  - unfold cartesian_mul, ops_mul_cartesian. cbn [o_mul o_sub o_add fixed_ops re im]. unfold fx_mul, fx_sub, fx_add, fx_fin. cbn [Z.mul Pos.mul]. rewrite D1, D2.
    rewrite !(fin_ok m (fity f)) by (apply R; lia). cbn [bind]. rewrite !(fin_ok m (fity f)) by (apply R; cbn; lia). reflexivity.
Qed.

Lemma floor_sign_add : forall o x y, 0 < o -> (x / o + y / o < 0 <-> x + y < x mod o) /\ (0 < x / o + y / o <-> o + x mod o <= x + y).
Proof.
  intros o x y O. pose proof (Z.div_mod x o ltac:(lia)). pose proof (Z.div_mod y o ltac:(lia)). pose proof (Z.mod_pos_bound x o O). pose proof (Z.mod_pos_bound y o O).
  split; split; intros G; nia.
Qed.
Lemma floor_sign_sub : forall o x y, 0 < o -> (x / o - y / o < 0 <-> x - y <= x mod o - o) /\ (0 < x / o - y / o <-> x mod o < x - y).
Proof.
  intros o x y O. pose proof (Z.div_mod x o ltac:(lia)). pose proof (Z.div_mod y o ltac:(lia)). pose proof (Z.mod_pos_bound x o O). pose proof (Z.mod_pos_bound y o O).
  split; split; intros G; nia.
Qed.
Theorem product_sign_iff : forall f, supported f = true -> forall z w r, cartesian_mul (fixed_ops Debug f) z w = Ok r ->
  let a := re z in let b := im z in let c := re w in let d := im w in let o := fone f in
  (0 < re r <-> (a * c) mod o < a * c - b * d) /\ (re r < 0 <-> a * c - b * d <= (a * c) mod o - o) /\
  (0 < im r <-> o + (a * d) mod o <= a * d + b * c) /\ (im r < 0 <-> a * d + b * c < (a * d) mod o).
Proof.
  intros f Hf z w r E. cbv zeta. destruct (fixed_parts f z w r E) as [-> ->]. pose proof (fone_pos f (proj1 (supported_fwf f Hf))) as O.
  destruct (floor_sign_sub (fone f) (re z * re w) (im z * im w) O), (floor_sign_add (fone f) (re z * im w) (im z * re w) O). auto.
Qed.
