(** * Vocabulary for decibel conversions. *)

From Coq Require Import ZArith Reals.
From Flocq Require Import Core.Core IEEE754.BinarySingleNaN.
From Verif Require Import Base FloatBase Traits FloatImpl.
Open Scope Z_scope.

(** decimal logarithm and power *)
Definition log10 (v : R) : R := (ln v / ln 10)%R.
Definition pow10 (v : R) : R := exp (v * ln 10).

(** a log10 routine with relative error at most [d] on every positive finite argument *)
Definition log10_within {p e : Z} (d : R) (L : Mixedlog10 (binary_float p e)) : Prop :=
  forall x, is_finite x = true -> (0 < B2R x)%R -> exists l, mixed_log10 L x = Ok l /\ is_finite l = true /\
    (Rabs (B2R l - log10 (B2R x)) <= d * Rabs (log10 (B2R x)))%R.
(** an exp10 routine with relative error at most [d] wherever the power is an ordinary number *)
Definition exp10_within {p e : Z} (d : R) (E : MixedExp10 (binary_float p e)) : Prop :=
  forall x, is_finite x = true -> (bpow radix2 (3 - e) <= pow10 (B2R x) <= bpow radix2 (e - 1))%R ->
    exists r, mixed_exp10 E x = Ok r /\ is_finite r = true /\
    (Rabs (B2R r - pow10 (B2R x)) <= d * pow10 (B2R x))%R.
(** the two decibel scales: 20 for magnitudes, 10 for powers *)
Definition decibel {p e : Z} {Hp : Prec_gt_0 p} {He : Prec_lt_emax p e} (L : Mixedlog10 (binary_float p e)) (E : MixedExp10 (binary_float p e))
  (c : Z) (to_db from_db : binary_float p e -> res (binary_float p e)) : Prop :=
  (c = 20 /\ to_db = mixed_mag2db (float_dbmag L E) /\ from_db = mixed_db2mag (float_dbmag L E)) \/
  (c = 10 /\ to_db = mixed_pow2db (float_dbpow L E) /\ from_db = mixed_db2pow (float_dbpow L E)).
(** routines that keep order *)
Definition log10_rises {p e : Z} (L : Mixedlog10 (binary_float p e)) : Prop :=
  forall x y a b, is_finite x = true -> is_finite y = true -> (0 < B2R x <= B2R y)%R ->
    mixed_log10 L x = Ok a -> mixed_log10 L y = Ok b -> (B2R a <= B2R b)%R.
Definition exp10_rises {p e : Z} (E : MixedExp10 (binary_float p e)) : Prop :=
  forall x y, is_finite x = true -> is_finite y = true -> (B2R x <= B2R y)%R ->
    exists a b, mixed_exp10 E x = Ok a /\ mixed_exp10 E y = Ok b /\ Bleb a b = true.
(** correctly rounded routines *)
Definition nearest_float {p e : Z} {Hp : Prec_gt_0 p} {He : Prec_lt_emax p e} (v : R) : binary_float p e :=
  binary_normalize p e Hp He mode_NE (ZnearestE (scaled_mantissa radix2 (SpecFloat.fexp p e) v)) (cexp radix2 (SpecFloat.fexp p e) v) false.
Definition best_log10 {p e : Z} {Hp : Prec_gt_0 p} {He : Prec_lt_emax p e} : Mixedlog10 (binary_float p e) :=
  {| mixed_log10 := fun x => Ok (nearest_float (log10 (B2R x))) |}.
Definition best_exp10 {p e : Z} {Hp : Prec_gt_0 p} {He : Prec_lt_emax p e} : MixedExp10 (binary_float p e) :=
  {| mixed_exp10 := fun x => Ok (nearest_float (pow10 (B2R x))) |}.
