(** * Forward: the trait methods that hand their argument to libm or cordic.

    The library routines are parameters (a record of functions per number type), so these definitions say only which routine each
    method calls.  Methods already modelled elsewhere with their own parameters (atan, sqrt, ...) are not repeated. *)

From Coq Require Import ZArith.
From Flocq Require Import Core.Core IEEE754.BinarySingleNaN.
From Verif Require Import Base FloatBase Traits.
Open Scope Z_scope.

(** traits/math_traits.rs:34-46, 89-105 *)
Record MixedTan (T : Type) := { mixed_tan : T -> res T }.
Record MixedTanh (T : Type) := { mixed_tanh : T -> res T; mixed_atanh : T -> res T }.
Record MixedSinh (T : Type) := { mixed_sinh : T -> res T; mixed_asinh : T -> res T }.
Record MixedCos (T : Type) := { mixed_cos : T -> res T; mixed_acos : T -> res T }.
Record MixedCosh (T : Type) := { mixed_cosh : T -> res T; mixed_acosh : T -> res T }.
(** traits/math_traits.rs:153-193 *)
Record MixedCbrt (T : Type) := { mixed_cbrt : T -> res T }.
Record MixedExp2 (T : Type) := { mixed_exp2 : T -> res T }.
Record MixedPow (T : Type) := { mixed_pow : T -> T -> res T }.
Record Mixedlog (T : Type) := { mixed_log : T -> res T }.
Record Mixedlog2 (T : Type) := { mixed_log2 : T -> res T }.
Arguments mixed_tan {T} _ _.  Arguments mixed_tanh {T} _ _.  Arguments mixed_atanh {T} _ _.  Arguments mixed_sinh {T} _ _.
Arguments mixed_asinh {T} _ _.  Arguments mixed_cos {T} _ _.  Arguments mixed_acos {T} _ _.  Arguments mixed_cosh {T} _ _.
Arguments mixed_acosh {T} _ _.  Arguments mixed_cbrt {T} _ _.  Arguments mixed_exp2 {T} _ _.  Arguments mixed_pow {T} _ _ _.
Arguments mixed_log {T} _ _.  Arguments mixed_log2 {T} _ _.

(** libm's routines for one float type (sinf, cosf, ... or sin, cos, ...); floats do not panic *)
Record libm (F : Type) := {
  lm_sin : F -> F; lm_sincos : F -> F * F; lm_asin : F -> F; lm_sinh : F -> F; lm_asinh : F -> F;
  lm_cos : F -> F; lm_acos : F -> F; lm_cosh : F -> F; lm_acosh : F -> F;
  lm_tan : F -> F; lm_tanh : F -> F; lm_atanh : F -> F; lm_cbrt : F -> F;
  lm_exp : F -> F; lm_exp2 : F -> F; lm_exp10 : F -> F; lm_pow : F -> F -> F;
  lm_log : F -> F; lm_log2 : F -> F; lm_log10 : F -> F }.
Arguments lm_sin {F} _ _.  Arguments lm_sincos {F} _ _.  Arguments lm_asin {F} _ _.  Arguments lm_sinh {F} _ _.  Arguments lm_asinh {F} _ _.
Arguments lm_cos {F} _ _.  Arguments lm_acos {F} _ _.  Arguments lm_cosh {F} _ _.  Arguments lm_acosh {F} _ _.
Arguments lm_tan {F} _ _.  Arguments lm_tanh {F} _ _.  Arguments lm_atanh {F} _ _.  Arguments lm_cbrt {F} _ _.
Arguments lm_exp {F} _ _.  Arguments lm_exp2 {F} _ _.  Arguments lm_exp10 {F} _ _.  Arguments lm_pow {F} _ _ _.
Arguments lm_log {F} _ _.  Arguments lm_log2 {F} _ _.  Arguments lm_log10 {F} _ _.

Section Float.
Context {F : Type}.
Variable L : libm F.
(** f32_impl.rs:3-19, f64_impl.rs:3-19 *)
Definition lib_sin : MixedSin F := {| mixed_sin := fun x => Ok (lm_sin L x); mixed_sincos := fun x => Ok (lm_sincos L x); mixed_asin := fun x => Ok (lm_asin L x) |}.
(** f32_impl.rs:21-31, f64_impl.rs:21-31 *)
Definition lib_sinh : MixedSinh F := {| mixed_sinh := fun x => Ok (lm_sinh L x); mixed_asinh := fun x => Ok (lm_asinh L x) |}.
(** f32_impl.rs:33-43, f64_impl.rs:33-43 *)
Definition lib_cos : MixedCos F := {| mixed_cos := fun x => Ok (lm_cos L x); mixed_acos := fun x => Ok (lm_acos L x) |}.
(** f32_impl.rs:45-55, f64_impl.rs:45-55 *)
Definition lib_cosh : MixedCosh F := {| mixed_cosh := fun x => Ok (lm_cosh L x); mixed_acosh := fun x => Ok (lm_acosh L x) |}.
(** f32_impl.rs:61-67, f64_impl.rs:61-67 *)
Definition lib_tan : MixedTan F := {| mixed_tan := fun x => Ok (lm_tan L x) |}.
(** f32_impl.rs:69-79, f64_impl.rs:69-79 *)
Definition lib_tanh : MixedTanh F := {| mixed_tanh := fun x => Ok (lm_tanh L x); mixed_atanh := fun x => Ok (lm_atanh L x) |}.
(** f32_impl.rs:110-116, f64_impl.rs:81-87 *)
Definition lib_cbrt : MixedCbrt F := {| mixed_cbrt := fun x => Ok (lm_cbrt L x) |}.
(** f32_impl.rs:133-139, f64_impl.rs:133-139 *)
Definition lib_exp : MixedExp F := {| mixed_exp := fun x => Ok (lm_exp L x) |}.
(** f32_impl.rs:141-147, f64_impl.rs:140-146 *)
Definition lib_exp10 : MixedExp10 F := {| mixed_exp10 := fun x => Ok (lm_exp10 L x) |}.
(** f32_impl.rs:149-155, f64_impl.rs:148-154 *)
Definition lib_exp2 : MixedExp2 F := {| mixed_exp2 := fun x => Ok (lm_exp2 L x) |}.
(** f32_impl.rs:157-163, f64_impl.rs:156-162 *)
Definition lib_pow : MixedPow F := {| mixed_pow := fun x y => Ok (lm_pow L x y) |}.
(** f32_impl.rs:165-171, f64_impl.rs:164-170 *)
Definition lib_log : Mixedlog F := {| mixed_log := fun x => Ok (lm_log L x) |}.
(** f32_impl.rs:173-179, f64_impl.rs:172-178 *)
Definition lib_log10 : Mixedlog10 F := {| mixed_log10 := fun x => Ok (lm_log10 L x) |}.
(** f32_impl.rs:181-187, f64_impl.rs:180-186 *)
Definition lib_log2 : Mixedlog2 F := {| mixed_log2 := fun x => Ok (lm_log2 L x) |}.
End Float.

(** cordic's routines at one fixed-point type; they may panic *)
Record cordic := { cd_sin : Z -> res Z; cd_sincos : Z -> res (Z * Z); cd_asin : Z -> res Z; cd_cos : Z -> res Z; cd_acos : Z -> res Z }.
(** fixed_impl.rs:261-279 *)
Definition cordic_sin (C : cordic) : MixedSin Z := {| mixed_sin := cd_sin C; mixed_sincos := cd_sincos C; mixed_asin := cd_asin C |}.
(** fixed_impl.rs:281-293 *)
Definition cordic_cos (C : cordic) : MixedCos Z := {| mixed_cos := cd_cos C; mixed_acos := cd_acos C |}.
