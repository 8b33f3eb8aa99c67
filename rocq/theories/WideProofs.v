(** * A wider type with the same fractional bits returns what the narrow one returned (proofs for C122). *)

From Coq Require Import ZArith NArith List Bool Lia.
From Flocq Require Import IEEE754.BinarySingleNaN.
From Verif Require Import Base FloatBase Literals Traits Trig IntImpl FixedPrim FixedImpl FloatImpl Complex Display Spec SpecProfile Lemmas ScalarProofs ScalarProofs2 ProfileProofs.
Open Scope Z_scope.

Definition within (t u : ity) : Prop := forall z, in_range t z -> in_range u z.

Lemma fin_wide : forall m t u z, within t u -> refines (fin Debug t z) (fin m u z).
Proof.
  intros m t u z H r. unfold fin. destruct (in_rangeb t z) eqn:E; [|discriminate]. intros K. apply in_rangeb_spec in E. apply H in E. apply in_rangeb_spec in E. rewrite E. exact K.
Qed.
Lemma fin_any : forall m t z, refines (fin Debug t z) (fin m t z).
Proof. intros m t z. apply fin_wide. intros x X. exact X. Qed.

(** the square root, between any two builds *)
Lemma niirf_any : forall T (D R : MixedOps T), ref_ops D R -> forall Da Ra Dz Rz Dw Rw, ref_abs Da Ra -> ref_zero Dz Rz -> ref_powi Dw Rw ->
  forall m fuel x it, refines (niirf D Dz Da Dw Debug fuel x it) (niirf R Rz Ra Rw m fuel x it).
Proof.
  intros T D R H Da Ra Dz Rz Dw Rw Ha Hz Hw [] fuel x it; [|apply ref_niirf; auto].
  unfold niirf. apply ref_bind; [leaf|intro]. cmps. apply ref_if; [leaf|]. apply ref_bind; [leaf|intro].
  apply ref_bind; [unfold niirf_normalize; walk|intro]. apply ref_bind; [|intro; apply ref_bind; [unfold niirf_denormalize; walk|intro; apply ref_refl]].
  unfold niirf_iterate. repeat (first [leaf | apply ref_beta; exact H | apply ref_bind; [|intro] | apply ref_for; intro]).
Qed.

Section Wide.
Variables (m : mode) (f g : fty).
Hypothesis SG : fsigned g = fsigned f.
Hypothesis FR : ffrac g = ffrac f.
Hypothesis WD : 0 < fwidth f <= fwidth g.

Lemma wide_range : within (fity f) (fity g).
Proof using SG WD.
  intros z. unfold in_range, imin, imax, fity. cbn [isigned iwidth]. rewrite SG. destruct (fsigned f).
  - assert (2 ^ (fwidth f - 1) <= 2 ^ (fwidth g - 1)) by (apply Z.pow_le_mono_r; lia). lia.
  - assert (2 ^ fwidth f <= 2 ^ fwidth g) by (apply Z.pow_le_mono_r; lia). lia.
Qed.
Lemma wide_one : fone g = fone f.
Proof using FR. unfold fone. rewrite FR. reflexivity. Qed.
Lemma wide_fin : forall z, refines (fx_fin Debug f z) (fx_fin m g z).
Proof using SG WD. intros z. apply fin_wide, wide_range. Qed.
Lemma wide_of_float : forall p e (x : binary_float p e), refines (fx_of_float Debug f x) (fx_of_float m g x).
Proof using SG FR WD. intros. unfold fx_of_float. rewrite FR. destruct x; try apply ref_refl. apply wide_fin. Qed.
Lemma wide_ops : ref_ops (fixed_ops Debug f) (fixed_ops m g).
Proof using SG FR WD.
  constructor; intros; cbn; unfold fx_add, fx_sub, fx_mul, fx_div, fx_of_int; rewrite ?wide_one; try reflexivity; try apply wide_fin; try apply wide_of_float.
  destruct (b =? 0); [apply ref_refl|apply wide_fin].
Qed.
Lemma wide_neg : ref_neg (fixed_signed Debug f) (fixed_signed m g).
Proof using SG WD. intros a. apply wide_fin. Qed.
Lemma wide_pi : ref_pi (fixed_pi Debug f) (fixed_pi m g).
Proof using SG FR WD. split; apply wide_of_float. Qed.
Lemma wide_zero : ref_zero (fixed_zero Debug f) (fixed_zero m g).
Proof using SG FR WD. unfold ref_zero. cbn. unfold fx_of_int. rewrite wide_one. apply wide_fin. Qed.
Lemma wide_fone : ref_one (fixed_one Debug f) (fixed_one m g).
Proof using SG FR WD. unfold ref_one. cbn [mixed_one fixed_one]. unfold fx_of_int. rewrite wide_one. apply wide_fin. Qed.
Lemma wide_abs : ref_abs (fixed_abs Debug f) (fixed_abs m g).
Proof using SG WD. intros a. cbn. rewrite SG. apply ref_if; [apply wide_fin|apply ref_refl]. Qed.
Lemma wide_powi : ref_powi (fixed_powi Debug f) (fixed_powi m g).
Proof using SG FR WD. intros a e. apply ref_tpowi. apply wide_ops. Qed.
Lemma wide_sqrt : forall fuel, ref_sqrt (fixed_sqrt Debug f fuel) (fixed_sqrt m g fuel).
Proof using SG FR WD. intros fuel a. cbn [mixed_sqrt fixed_sqrt]. apply niirf_any; auto using wide_ops, wide_zero, wide_abs, wide_powi. Qed.
Lemma wide_wrap : forall fuel, ref_wrap (fixed_wrap_phase Debug f fuel) (fixed_wrap_phase m g fuel).
Proof using SG FR WD. intros fuel a. cbn [mixed_wrap_phase fixed_wrap_phase]. apply ref_wrap_phase; auto using wide_ops, wide_neg, wide_pi. Qed.
(** the predicates of the wide type with the bounds of the narrow one, which [atan2] does not consult *)
Definition mid : MixedReal Z := {| mixed_max_value := fmax f; mixed_min_value := fmin f; mixed_sign := sign (fixed_ops m g);
  mixed_is_positive := fun x => if fsigned g then 0 <? x else true; mixed_is_negative := fun x => if fsigned g then x <? 0 else false |}.
Lemma wide_mid : ref_real (fixed_real Debug f) mid.
Proof using SG FR WD. constructor; try reflexivity; cbn; intros; rewrite ?SG; try reflexivity. apply ref_sign, wide_ops. Qed.

Lemma wide_scalar : forall a b e fuel it, let D := fixed_ops Debug f in let R := fixed_ops m g in
  refines (o_add D a b) (o_add R a b) /\ refines (o_sub D a b) (o_sub R a b) /\ refines (o_mul D a b) (o_mul R a b) /\ refines (o_div D a b) (o_div R a b) /\
  refines (o_neg (fixed_signed Debug f) a) (o_neg (fixed_signed m g) a) /\ refines (mixed_abs (fixed_abs Debug f) a) (mixed_abs (fixed_abs m g) a) /\
  refines (mixed_sign (fixed_real Debug f) a) (mixed_sign (fixed_real m g) a) /\ refines (mixed_powi (fixed_powi Debug f) a e) (mixed_powi (fixed_powi m g) a e) /\
  refines (mixed_sqrt (fixed_sqrt Debug f fuel) a) (mixed_sqrt (fixed_sqrt m g fuel) a) /\
  refines (niirf D (fixed_zero Debug f) (fixed_abs Debug f) (fixed_powi Debug f) Debug fuel a it) (niirf R (fixed_zero m g) (fixed_abs m g) (fixed_powi m g) m fuel a it) /\
  refines (mixed_wrap_phase (fixed_wrap_phase Debug f fuel) a) (mixed_wrap_phase (fixed_wrap_phase m g fuel) a) /\
  refines (Trig.sin D (fixed_signed Debug f) (fixed_pi Debug f) (fixed_powi Debug f) a) (Trig.sin R (fixed_signed m g) (fixed_pi m g) (fixed_powi m g) a) /\
  refines (Trig.cos D (fixed_signed Debug f) (fixed_pi Debug f) (fixed_powi Debug f) fuel a) (Trig.cos R (fixed_signed m g) (fixed_pi m g) (fixed_powi m g) fuel a) /\
  refines (fixed_atan2_poly Debug f a b) (fixed_atan2_poly m g a b) /\
  refines (atan D (fixed_signed Debug f) (fixed_powi Debug f) (fixed_real Debug f) (fixed_zero Debug f) (fixed_pi Debug f) (fixed_abs Debug f) (fixed_one Debug f) a)
    (atan R (fixed_signed m g) (fixed_powi m g) (fixed_real m g) (fixed_zero m g) (fixed_pi m g) (fixed_abs m g) (fixed_one m g) a).
Proof using SG FR WD.
  intros. pose proof wide_ops as [? ? ? ? _ _ _]. do 4 (split; [auto|]). split; [apply wide_neg|]. split; [apply wide_abs|]. split; [apply ref_sign, wide_ops|].
  split; [apply wide_powi|]. split; [apply wide_sqrt|]. split; [apply niirf_any; auto using wide_ops, wide_zero, wide_abs, wide_powi|]. split; [apply wide_wrap|].
  split; [apply ref_sin; auto using wide_ops, wide_neg, wide_pi, wide_powi|]. split; [apply ref_cos; auto using wide_ops, wide_neg, wide_pi, wide_powi|].
  split; [change (fixed_atan2_poly m g a b) with (atan2 R (fixed_signed m g) (fixed_powi m g) mid (fixed_zero m g) (fixed_pi m g) (fixed_abs m g) a b);
          apply ref_atan2; auto using wide_ops, wide_neg, wide_pi, wide_powi, wide_mid, wide_zero, wide_abs|].
  change (atan R (fixed_signed m g) (fixed_powi m g) (fixed_real m g) (fixed_zero m g) (fixed_pi m g) (fixed_abs m g) (fixed_one m g) a)
    with (atan R (fixed_signed m g) (fixed_powi m g) mid (fixed_zero m g) (fixed_pi m g) (fixed_abs m g) (fixed_one m g) a).
  apply ref_atan; auto using wide_ops, wide_neg, wide_pi, wide_powi, wide_mid, wide_zero, wide_abs, wide_fone.
Qed.

Lemma wide_conv_int : forall t1, ref_conv (fixed_conv_int Debug f t1) (fixed_conv_int m g t1).
Proof using SG FR WD.
  intros t1. split; intros a; cbn; unfold fx_of_int, fx_to_int; rewrite wide_one; [apply wide_fin|apply fin_any].
Qed.
Lemma wide_convs : forall t1 a (x : f32) (y : f64),
  refines (mixed_from_num (fixed_conv_int Debug f t1) a) (mixed_from_num (fixed_conv_int m g t1) a) /\
  refines (mixed_to_num (fixed_conv_int Debug f t1) a) (mixed_to_num (fixed_conv_int m g t1) a) /\
  refines (mixed_from_num (fixed_conv_f32 Debug f) x) (mixed_from_num (fixed_conv_f32 m g) x) /\
  refines (mixed_from_num (fixed_conv_f64 Debug f) y) (mixed_from_num (fixed_conv_f64 m g) y) /\
  mixed_to_num (fixed_conv_f32 Debug f) a = mixed_to_num (fixed_conv_f32 m g) a /\
  mixed_to_num (fixed_conv_f64 Debug f) a = mixed_to_num (fixed_conv_f64 m g) a.
Proof using SG FR WD.
  intros. destruct (wide_conv_int t1) as [A B]. split; [apply A|]. split; [apply B|]. split; [apply wide_of_float|]. split; [apply wide_of_float|].
  split; cbn; unfold fx_to_f32, fx_to_f64; rewrite FR; reflexivity.
Qed.

Lemma wide_complex : forall z w p k s t1 fuel show std sp pre, let D := fixed_ops Debug f in let R := fixed_ops m g in
  refines (cartesian_add D z w) (cartesian_add R z w) /\ refines (cartesian_sub D z w) (cartesian_sub R z w) /\ refines (cartesian_mul D z w) (cartesian_mul R z w) /\
  refines (cartesian_add_assign D z w) (cartesian_add_assign R z w) /\ refines (cartesian_sub_assign D z w) (cartesian_sub_assign R z w) /\
  refines (cartesian_div D (fixed_powi Debug f) z w) (cartesian_div R (fixed_powi m g) z w) /\
  refines (cartesian_conj (fixed_signed Debug f) z) (cartesian_conj (fixed_signed m g) z) /\ refines (polar_conj (fixed_signed Debug f) p) (polar_conj (fixed_signed m g) p) /\
  refines (polar_mul D p k) (polar_mul R p k) /\ refines (polar_mul_real D p s) (polar_mul_real R p s) /\
  refines (cartesian_mag D (fixed_sqrt Debug f fuel) (fixed_powi Debug f) z) (cartesian_mag R (fixed_sqrt m g fuel) (fixed_powi m g) z) /\
  refines (write_complex D (fixed_zero Debug f) show std sp pre z) (write_complex R (fixed_zero m g) show std sp pre z) /\
  let C := fixed_conv_int Debug f t1 in let C' := fixed_conv_int m g t1 in
  refines (cartesian_add_scalar D C z s) (cartesian_add_scalar R C' z s) /\ refines (cartesian_sub_scalar D C z s) (cartesian_sub_scalar R C' z s) /\
  refines (cartesian_mul_scalar D C z s) (cartesian_mul_scalar R C' z s) /\
  (In t1 int_types -> s <> 0 -> refines (cartesian_div_scalar (int_ops Debug t1) D C (int_zero t1) (fixed_real Debug f) z s) (cartesian_div_scalar (int_ops m t1) R C' (int_zero t1) (fixed_real m g) z s)).
Proof using SG FR WD.
  intros z w p k s t1 fuel show std sp pre D R.
  destruct (ref_cadd D R wide_ops z w) as (A1 & A2 & A3 & A4 & A5).
  destruct (ref_cdiv D R wide_ops _ _ wide_powi z w) as (B1 & _).
  destruct (ref_conj _ _ wide_neg z p) as (C1 & C2).
  destruct (ref_preal D R wide_ops _ _ _ _ wide_zero wide_mid p s) as (E1 & _).
  pose proof (ref_pmul D R wide_ops p k) as G.
  pose proof (ref_mag D R wide_ops _ _ _ _ wide_powi (wide_sqrt fuel) z) as M.
  pose proof (ref_write D R wide_ops _ _ wide_zero show std sp pre z) as W.
  cbv zeta. repeat (split; [assumption|]). destruct (wide_conv_int t1) as [CF _].
  repeat split.
  - unfold cartesian_add_scalar. pose proof wide_ops as WO. repeat (first [apply CF | leaf | apply ref_refl | apply ref_bind; [|intro]]).
  - unfold cartesian_sub_scalar. pose proof wide_ops as WO. repeat (first [apply CF | leaf | apply ref_refl | apply ref_bind; [|intro]]).
  - unfold cartesian_mul_scalar. pose proof wide_ops as WO. repeat (first [apply CF | leaf | apply ref_refl | apply ref_bind; [|intro]]).
  - intros I S0. unfold cartesian_div_scalar. pose proof wide_ops as WO.
    change (mixed_zero (int_zero t1)) with (Ok (wrap t1 0)). cbn [bind]. unfold o_eq. cbn [o_cmp int_ops].
    rewrite wrap_id by (try apply zero_in_range; pose proof (int_types_width t1 I); lia). 
    destruct (Z.compare_spec s 0); [contradiction| |]; repeat (first [apply CF | leaf | apply ref_refl | apply ref_bind; [|intro]]).
Qed.

(** with external routines that behave alike on the two types *)
Lemma wide_external : forall A A' S S' E E',
  (forall y x, refines (mixed_atan2 A y x) (mixed_atan2 A' y x)) -> (forall x, refines (mixed_sincos S x) (mixed_sincos S' x)) -> (forall x, refines (mixed_exp E x) (mixed_exp E' x)) ->
  forall z p n fuel, let D := fixed_ops Debug f in let R := fixed_ops m g in
  let Q := fixed_sqrt Debug f fuel in let Q' := fixed_sqrt m g fuel in let W := fixed_powi Debug f in let W' := fixed_powi m g in
  let H := fixed_wrap_phase Debug f fuel in let H' := fixed_wrap_phase m g fuel in
  refines (cartesian_to_polar D Q W A z) (cartesian_to_polar R Q' W' A' z) /\
  refines (polar_to_cartesian D H S p) (polar_to_cartesian R H' S' p) /\
  refines (ops_powi D Q W A S (fx_of_int Debug f) z n) (ops_powi R Q' W' A' S' (fx_of_int m g) z n) /\
  refines (cartesian_exp D S E z) (cartesian_exp R S' E' z) /\
  refines (cartesian_mul_polar D H S z p) (cartesian_mul_polar R H' S' z p) /\
  refines (polar_mul_cartesian D Q W A p z) (polar_mul_cartesian R Q' W' A' p z).
Proof using SG FR WD.
  intros A A' S S' E E' HA HS HE z p n fuel D R Q Q' W W' H H'.
  pose proof wide_ops as WO. pose proof wide_powi as WP. pose proof (wide_sqrt fuel) as WQ. pose proof (wide_wrap fuel) as WW.
  split; [apply ref_to_polar; auto|]. split; [apply ref_to_cart; auto|].
  split; [apply ref_cpowi; auto; intros k; unfold fx_of_int; rewrite wide_one; apply wide_fin|].
  split; [apply ref_cexp; auto|]. split; [apply (ref_mul_polar _ _ WO _ _ WW _ _ HS)|apply ref_pmul_cart; auto].
Qed.
End Wide.

(** ** integers *)
Section WideInt.
Variables (m : mode) (t u : ity).
Hypothesis IN : within t u.
Hypothesis WT : 0 < iwidth t.
Hypothesis WU : 0 < iwidth u.
Hypothesis T1 : in_range t 1.
Hypothesis T0 : in_range t 0.

(** the narrow operations with literals that panic instead of wrapping *)
Definition strict : MixedOps Z := {| o_add := o_add (int_ops Debug t); o_sub := o_sub (int_ops Debug t); o_mul := o_mul (int_ops Debug t); o_div := o_div (int_ops Debug t);
  o_cmp := o_cmp (int_ops Debug t); o_of_i32 := fin Debug t; o_of_f64 := fun _ => Panic POverflow |}.
Lemma strict_ops : ref_ops strict (int_ops m u).
Proof using IN WT WU.
  constructor; intros; cbn; try reflexivity; try (apply fin_wide; exact IN).
  - unfold int_div. destruct (b =? 0); [apply ref_refl|]. intros r. destruct (in_rangeb t (Z.quot a b)) eqn:E; [|discriminate].
    apply in_rangeb_spec, IN, in_rangeb_spec in E. rewrite E. auto.
  - intros r K. unfold fin in K. destruct (in_rangeb t z) eqn:E; [|discriminate]. injection K as <-. f_equal. apply wrap_id; [lia|]. apply IN, in_rangeb_spec, E.
  - intros r K. discriminate.
Qed.
Lemma strict_powi : forall x n, powi strict x n = powi (int_ops Debug t) x n.
Proof using T1 WT. intros. unfold powi. cbn [o_of_i32 o_mul strict int_ops]. unfold fin at 1. apply in_rangeb_spec in T1. rewrite T1. rewrite wrap_id; [reflexivity|lia|apply in_rangeb_spec; exact T1]. Qed.
Lemma wide_int_powi : ref_powi (int_powi Debug t) (int_powi m u).
Proof using IN WT WU T1. intros a e. cbn [mixed_powi int_powi]. rewrite <- strict_powi. apply ref_tpowi. apply strict_ops. Qed.

Lemma wide_int : forall a b e z w p k s, let D := int_ops Debug t in let R := int_ops m u in
  refines (o_add D a b) (o_add R a b) /\ refines (o_sub D a b) (o_sub R a b) /\ refines (o_mul D a b) (o_mul R a b) /\ refines (o_div D a b) (o_div R a b) /\
  refines (o_neg (int_signed Debug t) a) (o_neg (int_signed m u) a) /\
  (in_range t a -> refines (mixed_abs (int_abs Debug t) a) (mixed_abs (int_abs m u) a)) /\
  refines (mixed_powi (int_powi Debug t) a e) (mixed_powi (int_powi m u) a e) /\
  refines (cartesian_add D z w) (cartesian_add R z w) /\ refines (cartesian_sub D z w) (cartesian_sub R z w) /\ refines (cartesian_mul D z w) (cartesian_mul R z w) /\
  refines (cartesian_add_assign D z w) (cartesian_add_assign R z w) /\ refines (cartesian_sub_assign D z w) (cartesian_sub_assign R z w) /\
  refines (cartesian_div D (int_powi Debug t) z w) (cartesian_div R (int_powi m u) z w) /\
  refines (cartesian_conj (int_signed Debug t) z) (cartesian_conj (int_signed m u) z) /\
  refines (polar_mul D p k) (polar_mul R p k) /\ refines (polar_mul_real D p s) (polar_mul_real R p s).
Proof using IN WT WU T1 T0.
  intros a b e z w p k s D R. pose proof strict_ops as SO.
  destruct (ref_cadd strict R SO z w) as (A1 & A2 & A3 & A4 & A5).
  destruct (ref_cdiv strict R SO _ _ wide_int_powi z w) as (B1 & _).
  pose proof (ref_pmul strict R SO p k) as G. pose proof SO as [K1 K2 K3 K4 _ _ _].
  cbv zeta. split; [apply K1|]. split; [apply K2|]. split; [apply K3|]. split; [apply K4|]. split; [apply fin_wide; exact IN|].
  split.
  { intros Ra. cbn. pose proof (IN _ T0) as U0. destruct (isigned t) eqn:St.
    - destruct (Z.leb_spec 0 a).
      + destruct (isigned u); apply ref_refl.
      + destruct (isigned u) eqn:Su; [apply fin_wide; exact IN|]. exfalso. pose proof (IN _ Ra) as X. unfold in_range, imin in X. rewrite Su in X. lia.
    - unfold in_range, imin in Ra. rewrite St in Ra. destruct (isigned u); [|apply ref_refl]. destruct (Z.leb_spec 0 a); [apply ref_refl|lia]. }
  split; [apply wide_int_powi|]. repeat (split; [assumption|]).
  split; [unfold cartesian_conj; apply ref_bind; [apply fin_wide; exact IN|intro; apply ref_refl]|].
  split.
  - assert (EQ : polar_mul strict p k = polar_mul D p k).
    { unfold polar_mul, ops_mul_polar. cbn [o_of_i32 strict D int_ops]. unfold fin. apply in_rangeb_spec in T0. rewrite T0. rewrite wrap_id; [reflexivity|lia|apply in_rangeb_spec; exact T0]. }
    rewrite <- EQ. exact G.
  - unfold polar_mul_real. apply ref_bind; [apply K3|intro; apply ref_refl].
Qed.
End WideInt.

(** ** as stated *)
Lemma wide_width : forall f, supported f = true -> 0 < fwidth f.
Proof. intros f H. pose proof (supported_fwf f H) as [? ?]. lia. Qed.
Lemma wide_int_api : forall m t u, In t int_types -> In u int_types -> imin u <= imin t -> imax t <= imax u ->
  forall a b e z w p k s, let D := int_ops Debug t in let R := int_ops m u in
  refines (o_add D a b) (o_add R a b) /\ refines (o_sub D a b) (o_sub R a b) /\ refines (o_mul D a b) (o_mul R a b) /\ refines (o_div D a b) (o_div R a b) /\
  refines (o_neg (int_signed Debug t) a) (o_neg (int_signed m u) a) /\
  (in_range t a -> refines (mixed_abs (int_abs Debug t) a) (mixed_abs (int_abs m u) a)) /\
  refines (mixed_powi (int_powi Debug t) a e) (mixed_powi (int_powi m u) a e) /\
  refines (cartesian_add D z w) (cartesian_add R z w) /\ refines (cartesian_sub D z w) (cartesian_sub R z w) /\ refines (cartesian_mul D z w) (cartesian_mul R z w) /\
  refines (cartesian_add_assign D z w) (cartesian_add_assign R z w) /\ refines (cartesian_sub_assign D z w) (cartesian_sub_assign R z w) /\
  refines (cartesian_div D (int_powi Debug t) z w) (cartesian_div R (int_powi m u) z w) /\
  refines (cartesian_conj (int_signed Debug t) z) (cartesian_conj (int_signed m u) z) /\
  refines (polar_mul D p k) (polar_mul R p k) /\ refines (polar_mul_real D p s) (polar_mul_real R p s).
Proof.
  intros m t u It Iu Mn Mx. pose proof (int_types_width t It) as Wt. pose proof (int_types_width u Iu) as Wu.
  apply wide_int; try lia.
  - intros x X. unfold in_range in *. lia.
  - simpl in It. repeat destruct It as [<- | It]; try contradiction; split; vm_compute; discriminate.
  - apply zero_in_range. lia.
Qed.
