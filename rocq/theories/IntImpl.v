(** * IntImpl: src/int_impl.rs over Rust's primitive integers.

    A value of type [t] is an integer [z] with [in_range t z]. *)

From Coq Require Import ZArith.
From Flocq Require Import IEEE754.BinarySingleNaN.
From Verif Require Import Base FloatBase Literals Traits Trig.
Open Scope Z_scope.

Section Int.
Variable m : mode.
Variable t : ity.

(** Rust's [/] on integers: truncates; [x / 0] and [MIN / -1] panic in every profile *)
Definition int_div (a b : Z) : res Z :=
  if b =? 0 then Panic PDivZero
  else if in_rangeb t (Z.quot a b) then Ok (Z.quot a b) else Panic POverflow.

(** core::ops, PartialOrd, and int_impl.rs:3-17 (the conversions are [as] casts:
    integer to integer wraps, float to integer saturates) *)
Definition int_ops : MixedOps Z := {|
  o_add := fun a b => fin m t (a + b);
  o_sub := fun a b => fin m t (a - b);
  o_mul := fun a b => fin m t (a * b);
  o_div := int_div;
  o_cmp := fun a b => Some (a ?= b);
  o_of_i32 := fun z => Ok (wrap t z);
  o_of_f64 := fun x => Ok (int_of_float t x)
|}.

(** core::ops::Neg, signed types only; int_impl.rs:149-151 *)
Definition int_signed : MixedNumSigned Z := {| o_neg := fun a => fin m t (- a) |}.

(** int_impl.rs:48-54 *)
Definition int_powi : MixedPowi Z :=
  {| mixed_powi := fun x e => powi int_ops x (Z.to_N (wrap usize e)) |}.

(** int_impl.rs:56-70 *)
Definition int_zero : MixedZero Z := {| mixed_zero := Ok (wrap t 0) |}.
Definition int_one : MixedOne Z := {| mixed_one := Ok (wrap t 1) |}.

(** int_impl.rs:76-97 (unsigned), 111-132 (signed) *)
Definition int_real : MixedReal Z := {|
  mixed_max_value := imax t;
  mixed_min_value := imin t;
  mixed_sign := sign int_ops;
  mixed_is_positive := fun x => if isigned t then 0 <? x else true;
  mixed_is_negative := fun x => if isigned t then x <? 0 else false
|}.

(** int_impl.rs:99-105 (unsigned), 134-147 (signed) *)
Definition int_abs : MixedAbs Z := {|
  mixed_abs := fun x =>
    if isigned t then (if 0 <=? x then Ok x else o_neg int_signed x) else Ok x
|}.
End Int.

(** int_impl.rs:3-17, instantiated at lines 30-46: conversions are [as] casts.
    Target type [t]. *)
Definition int_conv_int (t t2 : ity) : MixedNumConversion Z Z := {|
  mixed_from_num := fun z => Ok (wrap t z);
  mixed_to_num := fun z => Ok (wrap t2 z)
|}.
Definition int_conv_f32 (t : ity) : MixedNumConversion f32 Z := {|
  mixed_from_num := fun x => Ok (int_of_float t x);
  mixed_to_num := fun z => Ok (float_of_Z 24 128 z)
|}.
Definition int_conv_f64 (t : ity) : MixedNumConversion f64 Z := {|
  mixed_from_num := fun x => Ok (int_of_float t x);
  mixed_to_num := fun z => Ok (float_of_Z 53 1024 z)
|}.

(** the primitive integer types for which the macros are invoked, int_impl.rs:155-182 *)
Definition int_types : list ity :=
  (usize :: u8 :: u16 :: u32 :: u64 :: u128 ::
   isize :: i8 :: i16 :: i32 :: i64 :: i128 :: nil)%list.
