(** * Two spellings of the same operation (proofs for C99). *)

From Coq Require Import ZArith Reals Lia Bool List.
From Flocq Require Import Core.Core IEEE754.BinarySingleNaN.
From Verif Require Import Base FloatBase Traits IntImpl FixedPrim FixedImpl FloatImpl Complex Spec Lemmas ScalarProofs ScalarProofs2 ComplexProofs ComplexProofs3.
Import ListNotations.
Open Scope Z_scope.

Lemma spell_generic : forall T (O : MixedOps T),
  (forall z w, ops_add O z w = cartesian_add O z w /\ ops_sub O z w = cartesian_sub O z w /\ ops_mul_cartesian O z w = cartesian_mul O z w) /\
  (forall p q, ops_mul_polar O p q = polar_mul O p q) /\
  (forall Wr Sn (m a : T) (p : Polar T), cartesian_new_from_polar O Wr Sn m a = polar_to_cartesian O Wr Sn (polar_new_from_polar m a) /\
     polar_mag (polar_new_from_polar m a) = m /\ polar_abs (polar_new_from_polar m a) = m /\ polar_arg (polar_new_from_polar m a) = a /\ polar_ang (polar_new_from_polar m a) = a /\
     polar_to_polar p = p /\ polar_new_from_polar (polar_mag p) (polar_ang p) = p) /\
  (forall Q W A z, polar_new_from_cartesian O Q W A (re z) (im z) = cartesian_to_polar O Q W A z /\ cartesian_to_cartesian z = z) /\
  (forall S Q W A z, cartesian_conj_polar O S Q W A z = (c <- cartesian_conj S z ;; cartesian_to_polar O Q W A c)) /\
  (forall S Wr Sn p, polar_conj_cartesian O S Wr Sn p = (c <- polar_conj S p ;; polar_to_cartesian O Wr Sn c)) /\
  (forall Wr Sn z p, cartesian_mul_polar O Wr Sn z p = (w <- polar_to_cartesian O Wr Sn p ;; cartesian_mul O z w) /\
     cartesian_mul_assign_polar O Wr Sn z p = cartesian_mul_polar O Wr Sn z p) /\
  (forall Q W A p z, polar_mul_cartesian O Q W A p z = (q <- cartesian_to_polar O Q W A z ;; polar_mul O p q)).
Proof.
  intros T O. repeat split; intros; try reflexivity.
  - destruct p; reflexivity.
  - unfold cartesian_conj_polar, cartesian_conj. destruct (o_neg S (im z)); reflexivity.
  - unfold polar_conj_cartesian, polar_conj. destruct (o_neg S (ang p)); reflexivity.
  - unfold cartesian_mul_assign_polar, cartesian_mul_polar. destruct (ops_to_cartesian O Wr Sn p); cbn [bind]; try reflexivity.
    fold (cartesian_mul O z a). destruct (cartesian_mul O z a) as [[x y]| |]; reflexivity.
Qed.

Lemma spell_eq : forall m t O, word_arith m t O -> forall p q, polar_eq O p q = true <-> p = q.
Proof.
  intros m t O H [a b] [c d]. unfold polar_eq, o_eq. cbn [mag ang]. rewrite !(word_cmp _ _ _ H).
  destruct (Z.compare_spec a c); destruct (Z.compare_spec b d); cbn [andb]; split; intros E; try congruence; try (injection E; lia).
Qed.

Lemma spell_div_int : forall m t, In t int_types -> forall z b, in_range t b ->
  cartesian_div_scalar (int_ops m t) (int_ops m t) (int_conv_int t t) (int_zero t) (int_real m t) z b = ops_div_scalar_cartesian (int_ops m t) (int_real m t) z b.
Proof.
  intros m t Ht z b Hb. pose proof (int_types_width t Ht) as Wd. unfold cartesian_div_scalar, ops_div_scalar_cartesian.
  change (mixed_zero (int_zero t)) with (Ok (wrap t 0)). change (o_of_i32 (int_ops m t) 0) with (Ok (wrap t 0)). cbn [bind].
  change (mixed_from_num (int_conv_int t t) b) with (Ok (wrap t b)). replace (wrap t b) with b by (symmetry; apply wrap_id; [lia | exact Hb]). cbn [bind]. reflexivity.
Qed.
