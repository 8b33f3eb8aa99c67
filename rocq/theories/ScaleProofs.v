(** * Scaling by powers of two: the crate's types. *)

From Coq Require Import ZArith Reals Lia Lra List.
From Flocq Require Import Core.Core IEEE754.BinarySingleNaN.
From Verif Require Import Base FloatBase Traits Trig FixedPrim FixedImpl FloatImpl Complex Spec SpecScale Lemmas FloatScale.
Open Scope Z_scope.

Lemma atan2_scaled_f32 : forall k (y y' x x' : f32), scaled k y y' -> scaled k x x' ->
  within2 61 (B2R y) -> within2 61 (B2R y') -> within2 61 (B2R x) -> within2 61 (B2R x') -> (B2R y <> 0 \/ B2R x <> 0)%R ->
  float_atan2_poly y' x' = float_atan2_poly y x.
Proof. intros k. apply (atan2_scaled (prec := 24) (emax := 128)); lia. Qed.
Lemma atan2_scaled_f64 : forall k (y y' x x' : f64), scaled k y y' -> scaled k x x' ->
  within2 509 (B2R y) -> within2 509 (B2R y') -> within2 509 (B2R x) -> within2 509 (B2R x') -> (B2R y <> 0 \/ B2R x <> 0)%R ->
  float_atan2_poly y' x' = float_atan2_poly y x.
Proof. intros k. apply (atan2_scaled (prec := 53) (emax := 1024)); lia. Qed.

Lemma add_scaled_fixed : forall f k, 0 <= k -> forall z w r r', let s v := mkC (re v * 2 ^ k) (im v * 2 ^ k) in
  cartesian_add (fixed_ops Debug f) z w = Ok r -> cartesian_add (fixed_ops Debug f) (s z) (s w) = Ok r' -> r' = s r.
Proof.
  intros f k K [a b] [c d] r r' s. unfold s, cartesian_add. cbn [re im].
  assert (A : forall x y v, o_add (fixed_ops Debug f) x y = Ok v -> v = x + y).
  { intros x y v. cbn [o_add fixed_ops]. unfold fx_add, fx_fin, fin. destruct (in_rangeb _ _); congruence. }
  intros E E'.
  repeat match goal with X : bind _ _ = Ok _ |- _ => apply bind_ok_inv in X; destruct X as (? & ? & X) end.
  repeat match goal with X : o_add _ _ _ = Ok _ |- _ => apply A in X end. subst. injection E as <-. injection E' as <-. cbn [re im]. f_equal; ring.
Qed.
