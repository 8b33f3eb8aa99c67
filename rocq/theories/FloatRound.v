(** * FloatRound: the traits MixedCeil and MixedFloor and their float implementations. *)

From Coq Require Import ZArith.
From Flocq Require Import Core.Core IEEE754.BinarySingleNaN.
From Verif Require Import Base FloatBase.
Open Scope Z_scope.

(** traits.rs:7-11 *)
Record MixedCeil (T : Type) := { mixed_ceil : T -> res T }.
Arguments mixed_ceil {T} _ _.
(** traits.rs:13-17 *)
Record MixedFloor (T : Type) := { mixed_floor : T -> res T }.
Arguments mixed_floor {T} _ _.

Section FloatRound.
Context {prec emax : Z} {Hp : Prec_gt_0 prec} {He : Prec_lt_emax prec emax}.

(** float_impl/f32_impl.rs:118-124, f64_impl.rs:118-124: libm::ceilf, libm::ceil.  Assumption: libm rounds as C requires, that is
    roundToIntegralTowardPositive of IEEE 754. *)
Definition float_ceil : MixedCeil (binary_float prec emax) := {| mixed_ceil := fun x => Ok (Bnearbyint mode_UP x) |}.
(** float_impl/f32_impl.rs:125-131, f64_impl.rs:125-131: libm::floorf, libm::floor, roundToIntegralTowardNegative *)
Definition float_floor : MixedFloor (binary_float prec emax) := {| mixed_floor := fun x => Ok (Bnearbyint mode_DN x) |}.
End FloatRound.
