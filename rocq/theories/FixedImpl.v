(** * FixedImpl: src/fixed_impl.rs *)

From Coq Require Import ZArith List.
From Flocq Require Import IEEE754.BinarySingleNaN.
From Verif Require Import Base FloatBase Literals Traits Trig FixedPrim.
Open Scope Z_scope.

(** the formats for which the macros are invoked: widths 8/16/32/64 and at least
    three integer bits, signed and unsigned; fixed_impl.rs:329-586 *)
Definition supported (f : fty) : bool :=
  ((fwidth f =? 8) || (fwidth f =? 16) || (fwidth f =? 32) || (fwidth f =? 64))
  && (0 <=? ffrac f) && (ffrac f <=? fwidth f - 3).

Section FixedImpl.
Variable m : mode.
Variable f : fty.

(** fixed_impl.rs:4-16 (conversions from i32 and f64), 155-157, 209-211 *)
Definition fixed_ops : MixedOps Z := {|
  o_add := fx_add m f;
  o_sub := fx_sub m f;
  o_mul := fx_mul m f;
  o_div := fx_div m f;
  o_cmp := fx_cmp;
  o_of_i32 := fx_of_int m f;
  o_of_f64 := fx_of_float m f
|}.

(** fixed_impl.rs:205-207; signed formats only *)
Definition fixed_signed : MixedNumSigned Z := {| o_neg := fx_neg m f |}.

(** fixed_impl.rs:101-111 *)
Definition fixed_pi : MixedPi Z := {|
  mixed_pi := fx_of_float m f lit_pi;
  mixed_tau := fx_of_float m f lit_tau
|}.

(** fixed_impl.rs:113-129 *)
Definition fixed_zero : MixedZero Z := {| mixed_zero := fx_of_int m f 0 |}.
Definition fixed_one : MixedOne Z := {| mixed_one := fx_of_int m f 1 |}.

(** fixed_impl.rs:159-165 (unsigned), 213-219 (signed) *)
Definition fixed_abs : MixedAbs Z := {|
  mixed_abs := fun x => if fsigned f then fx_abs m f x else Ok x
|}.

(** fixed_impl.rs:167-173, 221-227: [exp as usize] *)
Definition fixed_powi : MixedPowi Z :=
  {| mixed_powi := fun x e => powi fixed_ops x (Z.to_N (wrap usize e)) |}.

(** fixed_impl.rs:175-197 (unsigned), 229-251 (signed) *)
Definition fixed_real : MixedReal Z := {|
  mixed_max_value := fmax f;
  mixed_min_value := fmin f;
  mixed_sign := sign fixed_ops;
  mixed_is_positive := fun x => if fsigned f then 0 <? x else true;
  mixed_is_negative := fun x => if fsigned f then x <? 0 else false
|}.

(** fixed_impl.rs:135-147: both are the NIIRF approximation with [iterations = 2] *)
Definition fixed_sqrt (fuel : nat) : MixedSqrt Z := {|
  mixed_sqrt := fun x => niirf fixed_ops fixed_zero fixed_abs fixed_powi m fuel x 2;
  mixed_niirf := fun x => niirf fixed_ops fixed_zero fixed_abs fixed_powi m fuel x 2
|}.

(** fixed_impl.rs:253-259; signed formats only *)
Definition fixed_wrap_phase (fuel : nat) : MixedWrapPhase Z := {|
  mixed_wrap_phase := wrap_phase fixed_ops fixed_signed fixed_pi fuel
|}.

(** fixed_impl.rs:312-315; signed formats only *)
Definition fixed_atan2_poly (y x : Z) : res Z :=
  atan2 fixed_ops fixed_signed fixed_powi fixed_real fixed_zero fixed_pi fixed_abs y x.

(** fixed_impl.rs:299-316.  [cordic::atan], [cordic::atan2] are external and enter as
    arbitrary functions. *)
Definition fixed_atan (cordic_atan : Z -> res Z) (cordic_atan2 : Z -> Z -> res Z)
  : MixedAtan Z := {|
  mixed_atan := cordic_atan;
  mixed_atan2 := cordic_atan2;
  mixed_atan2_poly := fixed_atan2_poly
|}.
End FixedImpl.

(** fixed_impl.rs:4-16, instantiated at lines 41-57: [impl MixedNumConversion<T2> for f] *)
Definition fixed_conv_int (m : mode) (f : fty) (t2 : ity) : MixedNumConversion Z Z := {|
  mixed_from_num := fx_of_int m f;
  mixed_to_num := fx_to_int m f t2
|}.
Definition fixed_conv_f32 (m : mode) (f : fty) : MixedNumConversion f32 Z := {|
  mixed_from_num := fx_of_float m f;
  mixed_to_num := fun a => Ok (fx_to_f32 f a)
|}.
Definition fixed_conv_f64 (m : mode) (f : fty) : MixedNumConversion f64 Z := {|
  mixed_from_num := fx_of_float m f;
  mixed_to_num := fun a => Ok (fx_to_f64 f a)
|}.
