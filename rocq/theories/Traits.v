(** * Traits: the repository's traits as records of operations.

    A generic Rust function bounded by a trait takes the corresponding record.
    Every operation returns a [res] because on some implementing type it may panic. *)

From Coq Require Import ZArith.
From Flocq Require Import IEEE754.BinarySingleNaN.
From Verif Require Import Base FloatBase.
Open Scope Z_scope.

(** traits/math_traits.rs:3-14 [MixedOps] (num::NumOps, PartialOrd, conversion from
    i32 and f64), traits.rs:50-56 [MixedNum].  Only the conversions that the generic
    code uses are fields: an unsuffixed integer literal is an [i32], an unsuffixed
    float literal an [f64].  [%] is part of NumOps but unused by the repository.
    The compound assignments [+=], [-=], [*=] of the component types are those of
    core/fixed and agree with [+], [-], [*]. *)
Record MixedOps (T : Type) := {
  o_add : T -> T -> res T;
  o_sub : T -> T -> res T;
  o_mul : T -> T -> res T;
  o_div : T -> T -> res T;
  o_cmp : T -> T -> option comparison;   (* PartialOrd::partial_cmp *)
  o_of_i32 : Z -> res T;                 (* MixedNumConversion<i32>::mixed_from_num *)
  o_of_f64 : f64 -> res T                (* MixedNumConversion<f64>::mixed_from_num *)
}.
Arguments o_add {T} _ _ _.  Arguments o_sub {T} _ _ _.
Arguments o_mul {T} _ _ _.  Arguments o_div {T} _ _ _.
Arguments o_cmp {T} _ _ _.
Arguments o_of_i32 {T} _ _. Arguments o_of_f64 {T} _ _.

(** [<], [<=], [==] in terms of [partial_cmp] (core::cmp::PartialOrd's contract) *)
Definition o_lt {T} (O : MixedOps T) (x y : T) : bool :=
  match o_cmp O x y with Some Lt => true | _ => false end.
Definition o_le {T} (O : MixedOps T) (x y : T) : bool :=
  match o_cmp O x y with Some Lt | Some Eq => true | _ => false end.
Definition o_eq {T} (O : MixedOps T) (x y : T) : bool :=
  match o_cmp O x y with Some Eq => true | _ => false end.

(** traits.rs:82-85 *)
Record MixedNumSigned (T : Type) := { o_neg : T -> res T }.
Arguments o_neg {T} _ _.

(** traits.rs:58-75 *)
Record MixedReal (T : Type) := {
  mixed_max_value : T;
  mixed_min_value : T;
  mixed_sign : T -> res T;
  mixed_is_positive : T -> bool;
  mixed_is_negative : T -> bool
}.
Arguments mixed_max_value {T} _. Arguments mixed_min_value {T} _.
Arguments mixed_sign {T} _ _.
Arguments mixed_is_positive {T} _ _. Arguments mixed_is_negative {T} _ _.

(** traits.rs:26-43 *)
Record MixedZero (T : Type) := { mixed_zero : res T }.
Arguments mixed_zero {T} _.
Record MixedOne (T : Type) := { mixed_one : res T }.
Arguments mixed_one {T} _.
Record MixedPi (T : Type) := { mixed_pi : res T; mixed_tau : res T }.
Arguments mixed_pi {T} _. Arguments mixed_tau {T} _.

(** traits/math_traits.rs:16-32 *)
Record MixedAbs (T : Type) := { mixed_abs : T -> res T }.
Arguments mixed_abs {T} _ _.
Record MixedPowi (T : Type) := { mixed_powi : T -> Z -> res T }.
Arguments mixed_powi {T} _ _ _.
Record MixedWrapPhase (T : Type) := { mixed_wrap_phase : T -> res T }.
Arguments mixed_wrap_phase {T} _ _.

(** traits/math_traits.rs:48-77 *)
Record MixedAtan (T : Type) := {
  mixed_atan : T -> res T;
  mixed_atan2 : T -> T -> res T;        (* self, other *)
  mixed_atan2_poly : T -> T -> res T
}.
Arguments mixed_atan {T} _ _. Arguments mixed_atan2 {T} _ _ _.
Arguments mixed_atan2_poly {T} _ _ _.
Record MixedSin (T : Type) := {
  mixed_sin : T -> res T;
  mixed_sincos : T -> res (T * T);      (* (sin, cos) *)
  mixed_asin : T -> res T
}.
Arguments mixed_sin {T} _ _. Arguments mixed_sincos {T} _ _. Arguments mixed_asin {T} _ _.

(** traits/math_traits.rs:108-112, 114-151 *)
Record MixedExp (T : Type) := { mixed_exp : T -> res T }.
Arguments mixed_exp {T} _ _.
Record MixedSqrt (T : Type) := { mixed_sqrt : T -> res T; mixed_niirf : T -> res T }.
Arguments mixed_sqrt {T} _ _. Arguments mixed_niirf {T} _ _.

(** traits/math_traits.rs:159-163, 183-187, 195-209 *)
Record Mixedlog10 (T : Type) := { mixed_log10 : T -> res T }.
Arguments mixed_log10 {T} _ _.
Record MixedExp10 (T : Type) := { mixed_exp10 : T -> res T }.
Arguments mixed_exp10 {T} _ _.
Record DbMag (T : Type) := { mixed_mag2db : T -> res T; mixed_db2mag : T -> res T }.
Arguments mixed_mag2db {T} _ _. Arguments mixed_db2mag {T} _ _.
Record DbPow (T : Type) := { mixed_pow2db : T -> res T; mixed_db2pow : T -> res T }.
Arguments mixed_pow2db {T} _ _. Arguments mixed_db2pow {T} _ _.

(** traits.rs:19-24, between two types *)
Record MixedNumConversion (T1 T2 : Type) := {    (* impl MixedNumConversion<T1> for T2 *)
  mixed_from_num : T1 -> res T2;
  mixed_to_num : T2 -> res T1
}.
Arguments mixed_from_num {T1 T2} _ _. Arguments mixed_to_num {T1 T2} _ _.
