(** * What a debug build returns, a release build returns. *)

From Coq Require Import ZArith NArith List Bool Lia.
From Flocq Require Import IEEE754.BinarySingleNaN.
From Verif Require Import Base FloatBase Literals Traits Trig IntImpl FixedPrim FixedImpl FloatImpl Complex Display Spec SpecProfile Lemmas ScalarProofs.
Open Scope Z_scope.

Lemma ref_refl : forall A (x : res A), refines x x.
Proof. intros A x r H. exact H. Qed.
Lemma ref_bind : forall A B (x y : res A) (f g : A -> res B), refines x y -> (forall a, refines (f a) (g a)) -> refines (bind x f) (bind y g).
Proof.
  intros A B x y f g H K r E. destruct x as [a| |]; try discriminate. rewrite (H a eq_refl). cbn [bind] in *. apply K. exact E.
Qed.
Lemma ref_if : forall A (b : bool) (x y x' y' : res A), refines x y -> refines x' y' -> refines (if b then x else x') (if b then y else y').
Proof. intros A [] *; auto. Qed.
Lemma ref_while : forall S fuel (c c' : S -> res bool) (b b' : S -> res S) s, (forall s, refines (c s) (c' s)) -> (forall s, refines (b s) (b' s)) ->
  refines (while fuel c b s) (while fuel c' b' s).
Proof.
  intros S fuel c c' b b' s Hc Hb. revert s. induction fuel as [|n IH]; intros s; [intros r E; discriminate|].
  cbn [while]. apply ref_bind; [apply Hc|]. intros []; [|apply ref_refl]. apply ref_bind; auto.
Qed.
Lemma ref_for : forall S n (b b' : S -> res S) s, (forall s, refines (b s) (b' s)) -> refines (for_n n b s) (for_n n b' s).
Proof.
  intros S n b b' s H. unfold for_n. rewrite !N2Nat.inj_iter. induction (N.to_nat n) as [|k IH]; [apply ref_refl|]. cbn. apply ref_bind; auto.
Qed.
Lemma ref_fin : forall t z, refines (fin Debug t z) (fin Release t z).
Proof. intros t z r. unfold fin. destruct (in_rangeb t z); auto. discriminate. Qed.
#[local] Hint Resolve ref_refl ref_bind ref_if ref_while ref_for ref_fin : core.

(** one record of operations refines another *)
Record ref_ops {T} (D R : MixedOps T) : Prop := {
  r_add : forall a b, refines (o_add D a b) (o_add R a b);
  r_sub : forall a b, refines (o_sub D a b) (o_sub R a b);
  r_mul : forall a b, refines (o_mul D a b) (o_mul R a b);
  r_div : forall a b, refines (o_div D a b) (o_div R a b);
  r_cmp : forall a b, o_cmp D a b = o_cmp R a b;
  r_i32 : forall z, refines (o_of_i32 D z) (o_of_i32 R z);
  r_f64 : forall x, refines (o_of_f64 D x) (o_of_f64 R x)
}.
Definition ref_neg {T} (D R : MixedNumSigned T) := forall a, refines (o_neg D a) (o_neg R a).
Definition ref_abs {T} (D R : MixedAbs T) := forall a, refines (mixed_abs D a) (mixed_abs R a).
Definition ref_zero {T} (D R : MixedZero T) := refines (mixed_zero D) (mixed_zero R).
Definition ref_one {T} (D R : MixedOne T) := refines (mixed_one D) (mixed_one R).
Definition ref_pi {T} (D R : MixedPi T) := refines (mixed_pi D) (mixed_pi R) /\ refines (mixed_tau D) (mixed_tau R).
Definition ref_powi {T} (D R : MixedPowi T) := forall a e, refines (mixed_powi D a e) (mixed_powi R a e).
Definition ref_sqrt {T} (D R : MixedSqrt T) := forall a, refines (mixed_sqrt D a) (mixed_sqrt R a).
Definition ref_wrap {T} (D R : MixedWrapPhase T) := forall a, refines (mixed_wrap_phase D a) (mixed_wrap_phase R a).
Definition ref_conv {T1 T2} (D R : MixedNumConversion T1 T2) := (forall a, refines (mixed_from_num D a) (mixed_from_num R a)) /\ (forall a, refines (mixed_to_num D a) (mixed_to_num R a)).
Definition ref_atan_rec {T} (D R : MixedAtan T) := forall a b, refines (mixed_atan2 D a b) (mixed_atan2 R a b).
Definition ref_sincos {T} (D R : MixedSin T) := forall a, refines (mixed_sincos D a) (mixed_sincos R a).
Definition ref_exp {T} (D R : MixedExp T) := forall a, refines (mixed_exp D a) (mixed_exp R a).
Record ref_real {T} (D R : MixedReal T) : Prop := {
  r_max : mixed_max_value D = mixed_max_value R;
  r_min : mixed_min_value D = mixed_min_value R;
  r_sgn : forall a, refines (mixed_sign D a) (mixed_sign R a);
  r_pos : forall a, mixed_is_positive D a = mixed_is_positive R a;
  r_ng : forall a, mixed_is_negative D a = mixed_is_negative R a
}.

Lemma ref_lt : forall T (D R : MixedOps T), ref_ops D R -> forall a b, o_lt D a b = o_lt R a b.
Proof. intros T D R H a b. unfold o_lt. rewrite (r_cmp _ _ H). reflexivity. Qed.
Lemma ref_le : forall T (D R : MixedOps T), ref_ops D R -> forall a b, o_le D a b = o_le R a b.
Proof. intros T D R H a b. unfold o_le. rewrite (r_cmp _ _ H). reflexivity. Qed.
Lemma ref_eq : forall T (D R : MixedOps T), ref_ops D R -> forall a b, o_eq D a b = o_eq R a b.
Proof. intros T D R H a b. unfold o_eq. rewrite (r_cmp _ _ H). reflexivity. Qed.

(** walks two copies of the same program *)
Ltac cmps := repeat match goal with H : ref_ops ?D ?R |- _ => progress rewrite ?(ref_lt _ D R H), ?(ref_le _ D R H), ?(ref_eq _ D R H) end;
  repeat match goal with H : ref_real ?D ?R |- _ => progress rewrite ?(r_max D R H), ?(r_min D R H), ?(r_pos D R H), ?(r_ng D R H) end.
Ltac leaf := match goal with
  | H : ref_ops _ _ |- _ => first [apply (r_add _ _ H) | apply (r_sub _ _ H) | apply (r_mul _ _ H) | apply (r_div _ _ H) | apply (r_i32 _ _ H) | apply (r_f64 _ _ H)]
  | H : ref_neg _ _ |- _ => apply H | H : ref_abs _ _ |- _ => apply H | H : ref_zero _ _ |- _ => apply H | H : ref_one _ _ |- _ => apply H
  | H : ref_pi _ _ |- _ => apply (proj1 H) | H : ref_pi _ _ |- _ => apply (proj2 H)
  | H : ref_powi _ _ |- _ => apply H | H : ref_sqrt _ _ |- _ => apply H | H : ref_wrap _ _ |- _ => apply H
  | H : ref_conv _ _ |- _ => apply (proj1 H) | H : ref_conv _ _ |- _ => apply (proj2 H)
  | H : ref_sincos _ _ |- _ => apply H | H : ref_exp _ _ |- _ => apply H | H : ref_atan_rec _ _ |- _ => apply H
  | H : ref_real _ _ |- _ => apply (r_sgn _ _ H)
  | |- refines (fin Debug _ _) _ => apply ref_fin
  | |- refines (Ok _) (Ok _) => apply ref_refl
  end.
Ltac walk := cmps; repeat (cmps; first
  [ leaf | apply ref_refl
  | apply ref_bind; [|intro]
  | apply ref_while; [intro|intro]
  | apply ref_for; intro
  | apply ref_if ]).

Section Generic.
Context {T : Type}.
Variables (D R : MixedOps T).
Hypothesis H : ref_ops D R.
Variables (Dn Rn : MixedNumSigned T) (Da Ra : MixedAbs T) (Dz Rz : MixedZero T) (D1 R1 : MixedOne T) (Dp Rp : MixedPi T)
  (Dw Rw : MixedPowi T) (Dr Rr : MixedReal T) (Dq Rq : MixedSqrt T) (Dh Rh : MixedWrapPhase T).
Hypothesis Hn : ref_neg Dn Rn.
Hypothesis Ha : ref_abs Da Ra.
Hypothesis Hz : ref_zero Dz Rz.
Hypothesis H1 : ref_one D1 R1.
Hypothesis Hp : ref_pi Dp Rp.
Hypothesis Hw : ref_powi Dw Rw.
Hypothesis Hr : ref_real Dr Rr.
Hypothesis Hq : ref_sqrt Dq Rq.
Hypothesis Hh : ref_wrap Dh Rh.

Lemma ref_sign : forall x, refines (sign D x) (sign R x).
Proof using H. intros. unfold sign. walk. Qed.
Lemma ref_tpowi : forall x n, refines (powi D x n) (powi R x n).
Proof using H. intros. unfold powi. walk. Qed.
Lemma ref_wrap_phase : forall fuel x, refines (wrap_phase D Dn Dp fuel x) (wrap_phase R Rn Rp fuel x).
Proof using H Hn Hp. intros. unfold wrap_phase. walk. Qed.
Lemma ref_sin : forall x, refines (Trig.sin D Dn Dp Dw x) (Trig.sin R Rn Rp Rw x).
Proof using H Hn Hp Hw. intros. unfold Trig.sin. walk. Qed.
Lemma ref_cos : forall fuel x, refines (Trig.cos D Dn Dp Dw fuel x) (Trig.cos R Rn Rp Rw fuel x).
Proof using H Hn Hp Hw. intros. unfold Trig.cos. do 4 (apply ref_bind; [leaf|intro]). apply ref_bind; [apply ref_wrap_phase|intro; apply ref_sin]. Qed.
Lemma ref_p1 : forall y x, refines (atan_poly_1 D Dw y x) (atan_poly_1 R Rw y x).
Proof using H Hw. intros. unfold atan_poly_1. walk. Qed.
Lemma ref_p2 : forall y x, refines (atan_poly_2 D Dw y x) (atan_poly_2 R Rw y x).
Proof using H Hw. intros. unfold atan_poly_2. walk. Qed.
Lemma ref_atan2 : forall y x, refines (atan2 D Dn Dw Dr Dz Dp Da y x) (atan2 R Rn Rw Rr Rz Rp Ra y x).
Proof using H Hn Hw Hr Hz Hp Ha. intros. unfold atan2. repeat (cmps; first [apply ref_p1 | apply ref_p2 | leaf | apply ref_refl | apply ref_bind; [|intro] | apply ref_if]). Qed.
Lemma ref_atan : forall x, refines (atan D Dn Dw Dr Dz Dp Da D1 x) (atan R Rn Rw Rr Rz Rp Ra R1 x).
Proof using H Hn Hw Hr Hz Hp Ha H1. intros. unfold atan. apply ref_bind; [leaf|]. intro. apply ref_atan2. Qed.
Lemma ref_beta : forall x, refines (beta D x) (beta R x).
Proof using H. intros. unfold beta. walk. Qed.
Lemma ref_niirf : forall fuel x it, refines (niirf D Dz Da Dw Debug fuel x it) (niirf R Rz Ra Rw Release fuel x it).
Proof using H Hz Ha Hw.
  intros. unfold niirf. apply ref_bind; [leaf|intro]. cmps. apply ref_if; [leaf|]. apply ref_bind; [leaf|intro].
  apply ref_bind; [unfold niirf_normalize; walk|intro]. apply ref_bind; [|intro; apply ref_bind; [unfold niirf_denormalize; walk|intro; apply ref_refl]].
  unfold niirf_iterate. repeat (first [leaf | apply ref_beta | apply ref_bind; [|intro] | apply ref_for; intro]).
Qed.

(** complex numbers *)
Lemma ref_cadd : forall z w, refines (cartesian_add D z w) (cartesian_add R z w) /\ refines (cartesian_sub D z w) (cartesian_sub R z w) /\
  refines (cartesian_add_assign D z w) (cartesian_add_assign R z w) /\ refines (cartesian_sub_assign D z w) (cartesian_sub_assign R z w) /\
  refines (cartesian_mul D z w) (cartesian_mul R z w).
Proof using H. intros. unfold cartesian_add, cartesian_sub, cartesian_add_assign, cartesian_sub_assign, cartesian_mul, ops_mul_cartesian. repeat split; walk. Qed.
Lemma ref_cdiv : forall z w, refines (cartesian_div D Dw z w) (cartesian_div R Rw z w) /\ refines (cartesian_div_assign D Dw z w) (cartesian_div_assign R Rw z w) /\
  refines (ops_div_cartesian D Dw z w) (ops_div_cartesian R Rw z w).
Proof using H Hw. intros. unfold cartesian_div, cartesian_div_assign, ops_div_cartesian. cbv zeta. repeat split; walk. Qed.
Lemma ref_conj : forall z p, refines (cartesian_conj Dn z) (cartesian_conj Rn z) /\ refines (polar_conj Dn p) (polar_conj Rn p).
Proof using Hn. intros. unfold cartesian_conj, polar_conj. split; walk. Qed.
Lemma ref_mag : forall z, refines (cartesian_mag D Dq Dw z) (cartesian_mag R Rq Rw z).
Proof using H Hw Hq. intros. unfold cartesian_mag. walk. Qed.
Lemma ref_mixed_abs : forall z, refines (cartesian_mixed_abs D Dq Dw Dz z) (cartesian_mixed_abs R Rq Rw Rz z).
Proof using H Hw Hq Hz. intros. unfold cartesian_mixed_abs, cartesian_mag. walk. Qed.
Lemma ref_pmul : forall p q, refines (polar_mul D p q) (polar_mul R p q).
Proof using H. intros. unfold polar_mul, ops_mul_polar. walk. Qed.
Lemma ref_preal : forall p s, refines (polar_mul_real D p s) (polar_mul_real R p s) /\ refines (polar_div_real D Dr Dz p s) (polar_div_real R Rr Rz p s).
Proof using H Hr Hz. intros. unfold polar_mul_real, polar_div_real. split; walk. Qed.
Lemma ref_write : forall show std f pre z, refines (write_complex D Dz show std f pre z) (write_complex R Rz show std f pre z).
Proof using H Hz. intros. unfold write_complex. walk. Qed.
Lemma ref_consts : forall x, refines (cartesian_zero Dz) (cartesian_zero Rz) /\ refines (cartesian_one Dz D1) (cartesian_one Rz R1) /\ refines (cartesian_mixed_to_complex Dz x) (cartesian_mixed_to_complex Rz x) /\
  refines (polar_zero Dz) (polar_zero Rz) /\ refines (polar_one Dz D1) (polar_one Rz R1) /\ refines (polar_mixed_to_complex Dz x) (polar_mixed_to_complex Rz x).
Proof using Hz H1.
  intros. unfold cartesian_zero, cartesian_one, cartesian_mixed_to_complex, polar_zero, polar_one, polar_mixed_to_complex. repeat split; walk.
Qed.

Variables (DA RA : MixedAtan T) (DS RS : MixedSin T) (DE RE : MixedExp T).
Hypothesis HA : ref_atan_rec DA RA.
Hypothesis HS : ref_sincos DS RS.
Hypothesis HE : ref_exp DE RE.
Lemma ref_to_polar : forall z, refines (ops_to_polar D Dq Dw DA z) (ops_to_polar R Rq Rw RA z).
Proof using H Hw Hq HA. intros. unfold ops_to_polar, ops_abs. walk. Qed.
Lemma ref_to_cart : forall q, refines (ops_to_cartesian D Dh DS q) (ops_to_cartesian R Rh RS q).
Proof using H Hh HS. intros. unfold ops_to_cartesian. walk. Qed.
Lemma ref_arg : forall z, refines (cartesian_arg DA z) (cartesian_arg RA z).
Proof using HA. intros. unfold cartesian_arg. walk. Qed.
Lemma ref_cpowi : forall of_d of_r z n, (forall k, refines (of_d k) (of_r k)) -> refines (ops_powi D Dq Dw DA DS of_d z n) (ops_powi R Rq Rw RA RS of_r z n).
Proof using H Hw Hq HA HS. intros of_d of_r z n K. unfold ops_powi. repeat (first [leaf | apply ref_refl | apply K | apply ref_bind; [|intro]]). Qed.
Lemma ref_cexp : forall z, refines (cartesian_exp D DS DE z) (cartesian_exp R RS RE z).
Proof using H HS HE. intros. unfold cartesian_exp. walk. Qed.
Lemma ref_mul_polar : forall z q, refines (cartesian_mul_polar D Dh DS z q) (cartesian_mul_polar R Rh RS z q) /\ refines (cartesian_mul_assign_polar D Dh DS z q) (cartesian_mul_assign_polar R Rh RS z q).
Proof using H Hh HS.
  intros. unfold cartesian_mul_polar, cartesian_mul_assign_polar. split; apply ref_bind; try apply ref_to_cart; intro; [|apply ref_bind; [|intro; apply ref_refl]]; apply ref_cadd.
Qed.
Lemma ref_pmul_cart : forall p z, refines (polar_mul_cartesian D Dq Dw DA p z) (polar_mul_cartesian R Rq Rw RA p z).
Proof using H Hw Hq HA. intros. unfold polar_mul_cartesian. apply ref_bind; [apply ref_to_polar|intro; apply ref_pmul]. Qed.
Lemma ref_conj2 : forall z p, refines (cartesian_conj_polar D Dn Dq Dw DA z) (cartesian_conj_polar R Rn Rq Rw RA z) /\ refines (polar_conj_cartesian D Dn Dh DS p) (polar_conj_cartesian R Rn Rh RS p).
Proof using H Hn Hw Hq Hh HA HS. intros. unfold cartesian_conj_polar, polar_conj_cartesian. split; (apply ref_bind; [leaf|intro]); [apply ref_to_polar|apply ref_to_cart]. Qed.

(** scalars of another type *)
Variables (T1 : Type) (D' R' : MixedOps T1) (Dz' Rz' : MixedZero T1) (Dc Rc : MixedNumConversion T1 T).
Hypothesis H' : ref_ops D' R'.
Hypothesis Hz' : ref_zero Dz' Rz'.
Hypothesis Hc : ref_conv Dc Rc.
Lemma ref_scalar : forall z s,
  refines (cartesian_add_scalar D Dc z s) (cartesian_add_scalar R Rc z s) /\ refines (cartesian_sub_scalar D Dc z s) (cartesian_sub_scalar R Rc z s) /\
  refines (cartesian_mul_scalar D Dc z s) (cartesian_mul_scalar R Rc z s) /\
  refines (cartesian_add_assign_scalar D Dc z s) (cartesian_add_assign_scalar R Rc z s) /\ refines (cartesian_sub_assign_scalar D Dc z s) (cartesian_sub_assign_scalar R Rc z s) /\
  refines (cartesian_div_scalar D' D Dc Dz' Dr z s) (cartesian_div_scalar R' R Rc Rz' Rr z s) /\
  refines (cartesian_div_assign_scalar D' D Dc Dz' Dr z s) (cartesian_div_assign_scalar R' R Rc Rz' Rr z s).
Proof using H Hr H' Hz' Hc.
  intros. unfold cartesian_add_scalar, cartesian_sub_scalar, cartesian_mul_scalar, cartesian_add_assign_scalar, cartesian_sub_assign_scalar, cartesian_div_scalar, cartesian_div_assign_scalar.
  cbv zeta. repeat split; walk.
Qed.
End Generic.

(** ** the instances *)
Lemma ref_int_ops : forall t, ref_ops (int_ops Debug t) (int_ops Release t).
Proof. intros t. constructor; intros; cbn; auto. Qed.
Lemma ref_fixed_ops : forall f, ref_ops (fixed_ops Debug f) (fixed_ops Release f).
Proof.
  intros f. constructor; intros; cbn; unfold fx_add, fx_sub, fx_mul, fx_div, fx_of_int, fx_fin; auto.
  unfold fx_of_float. destruct x; auto. apply ref_fin.
Qed.
Lemma ref_of_float : forall f p e (x : binary_float p e), refines (fx_of_float Debug f x) (fx_of_float Release f x).
Proof. intros. unfold fx_of_float. destruct x; auto. apply ref_fin. Qed.
Lemma ref_fixed_pi : forall f, ref_pi (fixed_pi Debug f) (fixed_pi Release f).
Proof. intros f. split; apply ref_of_float. Qed.
Lemma ref_fixed_neg : forall f, ref_neg (fixed_signed Debug f) (fixed_signed Release f).
Proof. intros f a. apply ref_fin. Qed.
Lemma ref_fixed_zero : forall f, ref_zero (fixed_zero Debug f) (fixed_zero Release f).
Proof. intros f. apply ref_fin. Qed.
Lemma ref_fixed_one : forall f, ref_one (fixed_one Debug f) (fixed_one Release f).
Proof. intros f. apply ref_fin. Qed.
Lemma ref_fixed_abs : forall f, ref_abs (fixed_abs Debug f) (fixed_abs Release f).
Proof. intros f a. cbn. apply ref_if; [apply ref_fin|auto]. Qed.
Lemma ref_fixed_powi : forall f, ref_powi (fixed_powi Debug f) (fixed_powi Release f).
Proof. intros f a e. apply ref_tpowi. apply ref_fixed_ops. Qed.
Lemma ref_fixed_real : forall f, ref_real (fixed_real Debug f) (fixed_real Release f).
Proof. intros f. constructor; try reflexivity. apply ref_sign. apply ref_fixed_ops. Qed.
Lemma ref_fixed_sqrt : forall f fuel, ref_sqrt (fixed_sqrt Debug f fuel) (fixed_sqrt Release f fuel).
Proof. intros f fuel a. cbn [mixed_sqrt fixed_sqrt]. apply ref_niirf; auto using ref_fixed_ops, ref_fixed_zero, ref_fixed_abs, ref_fixed_powi. Qed.
Lemma ref_fixed_wrap : forall f fuel, ref_wrap (fixed_wrap_phase Debug f fuel) (fixed_wrap_phase Release f fuel).
Proof. intros f fuel a. cbn [mixed_wrap_phase fixed_wrap_phase]. apply ref_wrap_phase; auto using ref_fixed_ops, ref_fixed_neg, ref_fixed_pi. Qed.
Lemma ref_int_powi : forall t, ref_powi (int_powi Debug t) (int_powi Release t).
Proof. intros t a e. apply ref_tpowi. apply ref_int_ops. Qed.
Lemma ref_int_neg : forall t, ref_neg (int_signed Debug t) (int_signed Release t).
Proof. intros t a. apply ref_fin. Qed.
Lemma ref_int_real : forall t, ref_real (int_real Debug t) (int_real Release t).
Proof. intros t. constructor; try reflexivity. apply ref_sign. apply ref_int_ops. Qed.
Lemma ref_int_abs : forall t, ref_abs (int_abs Debug t) (int_abs Release t).
Proof. intros t a. cbn. destruct (isigned t), (0 <=? a); auto. Qed.
Lemma ref_int_conv : forall t t2, ref_conv (int_conv_int t t2) (int_conv_int t t2).
Proof. intros. split; intros; apply ref_refl. Qed.
Lemma ref_fixed_conv : forall f t2, ref_conv (fixed_conv_int Debug f t2) (fixed_conv_int Release f t2).
Proof. intros. split; intros; apply ref_fin. Qed.
Lemma ref_int_zero : forall t, ref_zero (int_zero t) (int_zero t).
Proof. intros. apply ref_refl. Qed.
Lemma ref_int_one : forall t, ref_one (int_one t) (int_one t).
Proof. intros. apply ref_refl. Qed.

#[local] Hint Resolve ref_int_ops ref_int_powi ref_int_neg ref_int_real ref_int_abs ref_int_conv ref_int_zero ref_int_one ref_fixed_ops ref_fixed_pi ref_fixed_neg
  ref_fixed_zero ref_fixed_one ref_fixed_abs ref_fixed_powi ref_fixed_real ref_fixed_sqrt ref_fixed_wrap ref_fixed_conv : rr.

Lemma profile_scalar_int : forall t a b e,
  refines (o_add (int_ops Debug t) a b) (o_add (int_ops Release t) a b) /\ refines (o_sub (int_ops Debug t) a b) (o_sub (int_ops Release t) a b) /\
  refines (o_mul (int_ops Debug t) a b) (o_mul (int_ops Release t) a b) /\ refines (o_div (int_ops Debug t) a b) (o_div (int_ops Release t) a b) /\
  refines (o_neg (int_signed Debug t) a) (o_neg (int_signed Release t) a) /\ refines (mixed_abs (int_abs Debug t) a) (mixed_abs (int_abs Release t) a) /\
  refines (mixed_sign (int_real Debug t) a) (mixed_sign (int_real Release t) a) /\ refines (mixed_powi (int_powi Debug t) a e) (mixed_powi (int_powi Release t) a e).
Proof.
  intros. pose proof (ref_int_ops t) as [? ? ? ? _ _ _]. do 4 (split; [auto|]). split; [apply ref_int_neg|]. split; [apply ref_int_abs|]. split; [apply (ref_int_real t) | apply ref_int_powi].
Qed.
Lemma profile_scalar_fixed : forall f a b e fuel,
  refines (o_add (fixed_ops Debug f) a b) (o_add (fixed_ops Release f) a b) /\ refines (o_sub (fixed_ops Debug f) a b) (o_sub (fixed_ops Release f) a b) /\
  refines (o_mul (fixed_ops Debug f) a b) (o_mul (fixed_ops Release f) a b) /\ refines (o_div (fixed_ops Debug f) a b) (o_div (fixed_ops Release f) a b) /\
  refines (o_neg (fixed_signed Debug f) a) (o_neg (fixed_signed Release f) a) /\ refines (mixed_abs (fixed_abs Debug f) a) (mixed_abs (fixed_abs Release f) a) /\
  refines (mixed_sign (fixed_real Debug f) a) (mixed_sign (fixed_real Release f) a) /\ refines (mixed_powi (fixed_powi Debug f) a e) (mixed_powi (fixed_powi Release f) a e) /\
  refines (mixed_sqrt (fixed_sqrt Debug f fuel) a) (mixed_sqrt (fixed_sqrt Release f fuel) a) /\
  refines (mixed_wrap_phase (fixed_wrap_phase Debug f fuel) a) (mixed_wrap_phase (fixed_wrap_phase Release f fuel) a) /\
  refines (Trig.sin (fixed_ops Debug f) (fixed_signed Debug f) (fixed_pi Debug f) (fixed_powi Debug f) a)
    (Trig.sin (fixed_ops Release f) (fixed_signed Release f) (fixed_pi Release f) (fixed_powi Release f) a) /\
  refines (Trig.cos (fixed_ops Debug f) (fixed_signed Debug f) (fixed_pi Debug f) (fixed_powi Debug f) fuel a)
    (Trig.cos (fixed_ops Release f) (fixed_signed Release f) (fixed_pi Release f) (fixed_powi Release f) fuel a) /\
  refines (fixed_atan2_poly Debug f a b) (fixed_atan2_poly Release f a b) /\
  refines (atan (fixed_ops Debug f) (fixed_signed Debug f) (fixed_powi Debug f) (fixed_real Debug f) (fixed_zero Debug f) (fixed_pi Debug f) (fixed_abs Debug f) (fixed_one Debug f) a)
    (atan (fixed_ops Release f) (fixed_signed Release f) (fixed_powi Release f) (fixed_real Release f) (fixed_zero Release f) (fixed_pi Release f) (fixed_abs Release f) (fixed_one Release f) a).
Proof.
  intros. pose proof (ref_fixed_ops f) as [? ? ? ? _ _ _]. do 4 (split; [auto|]). split; [apply ref_fixed_neg|]. split; [apply ref_fixed_abs|]. split; [apply (ref_fixed_real f)|].
  split; [apply ref_fixed_powi|]. split; [apply ref_fixed_sqrt|]. split; [apply ref_fixed_wrap|].
  split; [apply ref_sin; auto with rr|]. split; [apply ref_cos; auto with rr|]. split; [apply ref_atan2; auto with rr|apply ref_atan; auto with rr].
Qed.
Lemma profile_niirf_all : forall f fuel a it, refines (niirf (fixed_ops Debug f) (fixed_zero Debug f) (fixed_abs Debug f) (fixed_powi Debug f) Debug fuel a it)
  (niirf (fixed_ops Release f) (fixed_zero Release f) (fixed_abs Release f) (fixed_powi Release f) Release fuel a it).
Proof. intros. apply ref_niirf; auto with rr. Qed.

Lemma profile_complex_int : forall t t1 z w p s k, let D := int_ops Debug t in let R := int_ops Release t in
  refines (cartesian_add D z w) (cartesian_add R z w) /\ refines (cartesian_sub D z w) (cartesian_sub R z w) /\
  refines (cartesian_add_assign D z w) (cartesian_add_assign R z w) /\ refines (cartesian_sub_assign D z w) (cartesian_sub_assign R z w) /\
  refines (cartesian_mul D z w) (cartesian_mul R z w) /\
  refines (cartesian_div D (int_powi Debug t) z w) (cartesian_div R (int_powi Release t) z w) /\
  refines (cartesian_div_assign D (int_powi Debug t) z w) (cartesian_div_assign R (int_powi Release t) z w) /\
  refines (cartesian_conj (int_signed Debug t) z) (cartesian_conj (int_signed Release t) z) /\
  refines (polar_conj (int_signed Debug t) p) (polar_conj (int_signed Release t) p) /\
  refines (polar_mul D p k) (polar_mul R p k) /\ refines (polar_mul_real D p s) (polar_mul_real R p s) /\
  refines (polar_div_real D (int_real Debug t) (int_zero t) p s) (polar_div_real R (int_real Release t) (int_zero t) p s) /\
  let C := int_conv_int t t1 in
  refines (cartesian_add_scalar D C z s) (cartesian_add_scalar R C z s) /\ refines (cartesian_sub_scalar D C z s) (cartesian_sub_scalar R C z s) /\
  refines (cartesian_mul_scalar D C z s) (cartesian_mul_scalar R C z s) /\
  refines (cartesian_div_scalar (int_ops Debug t1) D C (int_zero t1) (int_real Debug t) z s) (cartesian_div_scalar (int_ops Release t1) R C (int_zero t1) (int_real Release t) z s) /\
  refines (cartesian_div_assign_scalar (int_ops Debug t1) D C (int_zero t1) (int_real Debug t) z s) (cartesian_div_assign_scalar (int_ops Release t1) R C (int_zero t1) (int_real Release t) z s).
Proof.
  intros t t1 z w p s k D R.
  destruct (ref_cadd D R (ref_int_ops t) z w) as (A1 & A2 & A3 & A4 & A5).
  destruct (ref_cdiv D R (ref_int_ops t) _ _ (ref_int_powi t) z w) as (B1 & B2 & _).
  destruct (ref_conj _ _ (ref_int_neg t) z p) as (C1 & C2).
  destruct (ref_preal D R (ref_int_ops t) _ _ _ _ (ref_int_zero t) (ref_int_real t) p s) as (E1 & E2).
  destruct (ref_scalar D R (ref_int_ops t) _ _ (ref_int_real t) Z _ _ _ _ _ _ (ref_int_ops t1) (ref_int_zero t1) (ref_int_conv t t1) z s) as (F1 & F2 & F3 & _ & _ & F4 & F5).
  pose proof (ref_pmul D R (ref_int_ops t) p k) as G. cbv zeta. repeat (split; [assumption|]). assumption.
Qed.

Lemma profile_complex_fixed : forall f t1 z w p k s fuel, let D := fixed_ops Debug f in let R := fixed_ops Release f in
  refines (cartesian_add D z w) (cartesian_add R z w) /\ refines (cartesian_sub D z w) (cartesian_sub R z w) /\
  refines (cartesian_add_assign D z w) (cartesian_add_assign R z w) /\ refines (cartesian_sub_assign D z w) (cartesian_sub_assign R z w) /\
  refines (cartesian_mul D z w) (cartesian_mul R z w) /\
  refines (cartesian_div D (fixed_powi Debug f) z w) (cartesian_div R (fixed_powi Release f) z w) /\
  refines (cartesian_div_assign D (fixed_powi Debug f) z w) (cartesian_div_assign R (fixed_powi Release f) z w) /\
  refines (cartesian_conj (fixed_signed Debug f) z) (cartesian_conj (fixed_signed Release f) z) /\
  refines (polar_conj (fixed_signed Debug f) p) (polar_conj (fixed_signed Release f) p) /\
  refines (polar_mul D p k) (polar_mul R p k) /\ refines (polar_mul_real D p s) (polar_mul_real R p s) /\
  refines (polar_div_real D (fixed_real Debug f) (fixed_zero Debug f) p s) (polar_div_real R (fixed_real Release f) (fixed_zero Release f) p s) /\
  refines (cartesian_mag D (fixed_sqrt Debug f fuel) (fixed_powi Debug f) z) (cartesian_mag R (fixed_sqrt Release f fuel) (fixed_powi Release f) z) /\
  let C := fixed_conv_int Debug f t1 in let C' := fixed_conv_int Release f t1 in
  refines (cartesian_add_scalar D C z s) (cartesian_add_scalar R C' z s) /\ refines (cartesian_sub_scalar D C z s) (cartesian_sub_scalar R C' z s) /\
  refines (cartesian_mul_scalar D C z s) (cartesian_mul_scalar R C' z s) /\
  refines (cartesian_div_scalar (int_ops Debug t1) D C (int_zero t1) (fixed_real Debug f) z s) (cartesian_div_scalar (int_ops Release t1) R C' (int_zero t1) (fixed_real Release f) z s) /\
  refines (cartesian_div_assign_scalar (int_ops Debug t1) D C (int_zero t1) (fixed_real Debug f) z s) (cartesian_div_assign_scalar (int_ops Release t1) R C' (int_zero t1) (fixed_real Release f) z s).
Proof.
  intros f t1 z w p k s fuel D R.
  destruct (ref_cadd D R (ref_fixed_ops f) z w) as (A1 & A2 & A3 & A4 & A5).
  destruct (ref_cdiv D R (ref_fixed_ops f) _ _ (ref_fixed_powi f) z w) as (B1 & B2 & _).
  destruct (ref_conj _ _ (ref_fixed_neg f) z p) as (C1 & C2).
  destruct (ref_preal D R (ref_fixed_ops f) _ _ _ _ (ref_fixed_zero f) (ref_fixed_real f) p s) as (E1 & E2).
  destruct (ref_scalar D R (ref_fixed_ops f) _ _ (ref_fixed_real f) Z _ _ _ _ _ _ (ref_int_ops t1) (ref_int_zero t1) (ref_fixed_conv f t1) z s) as (F1 & F2 & F3 & _ & _ & F4 & F5).
  pose proof (ref_pmul D R (ref_fixed_ops f) p k) as G.
  pose proof (ref_mag D R (ref_fixed_ops f) _ _ _ _ (ref_fixed_powi f) (ref_fixed_sqrt f fuel) z) as M. cbv zeta. repeat (split; [assumption|]). assumption.
Qed.

(** with external routines whose own debug build refines into their release build *)
Lemma profile_oracle_fixed : forall f A A' S S' E E',
  (forall y x, refines (mixed_atan2 A y x) (mixed_atan2 A' y x)) -> (forall x, refines (mixed_sincos S x) (mixed_sincos S' x)) -> (forall x, refines (mixed_exp E x) (mixed_exp E' x)) ->
  forall z p n fuel, let D := fixed_ops Debug f in let R := fixed_ops Release f in
  let Q := fixed_sqrt Debug f fuel in let Q' := fixed_sqrt Release f fuel in let W := fixed_powi Debug f in let W' := fixed_powi Release f in
  let H := fixed_wrap_phase Debug f fuel in let H' := fixed_wrap_phase Release f fuel in
  refines (cartesian_to_polar D Q W A z) (cartesian_to_polar R Q' W' A' z) /\
  refines (polar_to_cartesian D H S p) (polar_to_cartesian R H' S' p) /\
  refines (cartesian_arg A z) (cartesian_arg A' z) /\
  refines (ops_powi D Q W A S (fx_of_int Debug f) z n) (ops_powi R Q' W' A' S' (fx_of_int Release f) z n) /\
  refines (cartesian_exp D S E z) (cartesian_exp R S' E' z) /\
  refines (cartesian_mul_polar D H S z p) (cartesian_mul_polar R H' S' z p) /\
  refines (cartesian_mul_assign_polar D H S z p) (cartesian_mul_assign_polar R H' S' z p) /\
  refines (polar_mul_cartesian D Q W A p z) (polar_mul_cartesian R Q' W' A' p z) /\
  refines (cartesian_conj_polar D (fixed_signed Debug f) Q W A z) (cartesian_conj_polar R (fixed_signed Release f) Q' W' A' z) /\
  refines (polar_conj_cartesian D (fixed_signed Debug f) H S p) (polar_conj_cartesian R (fixed_signed Release f) H' S' p).
Proof.
  intros f A A' S S' E E' HA HS HE z p n fuel D R Q Q' W W' K K'.
  pose proof (ref_to_polar D R (ref_fixed_ops f) _ _ _ _ (ref_fixed_powi f) (ref_fixed_sqrt f fuel) _ _ HA) as P1.
  pose proof (ref_to_cart D R (ref_fixed_ops f) _ _ (ref_fixed_wrap f fuel) _ _ HS) as P2.
  pose proof (ref_cexp D R (ref_fixed_ops f) _ _ _ _ HS HE z) as P3.
  destruct (ref_mul_polar D R (ref_fixed_ops f) _ _ (ref_fixed_wrap f fuel) _ _ HS z p) as (P4 & P5).
  pose proof (ref_pmul_cart D R (ref_fixed_ops f) _ _ _ _ (ref_fixed_powi f) (ref_fixed_sqrt f fuel) _ _ HA p z) as P6.
  destruct (ref_conj2 D R (ref_fixed_ops f) _ _ _ _ _ _ _ _ (ref_fixed_neg f) (ref_fixed_powi f) (ref_fixed_sqrt f fuel) (ref_fixed_wrap f fuel) _ _ _ _ HA HS z p) as (P7 & P8).
  pose proof (ref_cpowi D R (ref_fixed_ops f) _ _ _ _ (ref_fixed_powi f) (ref_fixed_sqrt f fuel) _ _ _ _ HA HS (fx_of_int Debug f) (fx_of_int Release f) z n (fun k => ref_fin (fity f) _)) as P9.
  split; [apply P1|]. split; [apply P2|]. split; [apply HA|]. repeat (split; [assumption|]). assumption.
Qed.

Lemma profile_display : forall show std sp pre z,
  (forall t, refines (write_complex (int_ops Debug t) (int_zero t) show std sp pre z) (write_complex (int_ops Release t) (int_zero t) show std sp pre z)) /\
  (forall f, refines (write_complex (fixed_ops Debug f) (fixed_zero Debug f) show std sp pre z) (write_complex (fixed_ops Release f) (fixed_zero Release f) show std sp pre z)).
Proof.
  intros. split; intros; [exact (ref_write _ _ (ref_int_ops t) _ _ (ref_int_zero t) show std sp pre z) | exact (ref_write _ _ (ref_fixed_ops f) _ _ (ref_fixed_zero f) show std sp pre z)].
Qed.
Lemma profile_converse : exists z w r, cartesian_mul (int_ops Release i8) z w = Ok r /\
  cartesian_mul (int_ops Debug i8) z w = Panic POverflow /\ re r = re z * re w - im z * im w /\ im r = re z * im w + im z * re w.
Proof. exists (mkC 12 1), (mkC 11 5), (mkC 127 71). repeat split; reflexivity. Qed.
