(** * FloatImpl: src/float_impl.rs, src/float_impl/f32_impl.rs, src/float_impl/f64_impl.rs.

    One development for both formats: [prec]/[emax] are 24/128 or 53/1024. *)

From Coq Require Import ZArith.
From Flocq Require Import Core.Core IEEE754.BinarySingleNaN.
From Verif Require Import Base FloatBase Literals Traits Trig.
Open Scope Z_scope.

Section FloatImpl.
Context {prec emax : Z} {Hp : Prec_gt_0 prec} {He : Prec_lt_emax prec emax}.
Notation float := (binary_float prec emax).

(** core::ops on floats; float_impl.rs:11-23 for the conversions ([as] casts) *)
Definition float_ops : MixedOps float := {|
  o_add := fun a b => Ok (Bplus mode_NE a b);
  o_sub := fun a b => Ok (Bminus mode_NE a b);
  o_mul := fun a b => Ok (Bmult mode_NE a b);
  o_div := fun a b => Ok (Bdiv mode_NE a b);
  o_cmp := Bcompare;
  o_of_i32 := fun z => Ok (float_of_Z prec emax z);
  o_of_f64 := fun x => Ok (float_of_float prec emax x)
|}.

(** float_impl.rs:119-121 *)
Definition float_signed : MixedNumSigned float := {| o_neg := fun a => Ok (Bopp a) |}.

(** float_impl.rs:162-172.  The literal is converted through f64; for both constants the
    result is also the float nearest to the decimal text (checked in Tests.v). *)
Definition float_pi : MixedPi float := {|
  mixed_pi := Ok (float_of_float prec emax lit_pi);
  mixed_tau := Ok (float_of_float prec emax lit_tau)
|}.

(** float_impl.rs:146-160 *)
Definition float_zero : MixedZero float := {| mixed_zero := Ok (float_of_Z prec emax 0) |}.
Definition float_one : MixedOne float := {| mixed_one := Ok (float_of_Z prec emax 1) |}.

(** float_impl.rs:99-105; num_traits::FloatCore::abs *)
Definition float_abs : MixedAbs float := {| mixed_abs := fun x => Ok (Babs x) |}.

(** num_traits::pow, second loop: [p] is the current exponent.  The shifts of the
    exponent are the structural recursion on its binary digits. *)
Fixpoint num_pow_loop (acc base : float) (p : positive) : float :=
  match p with
  | xH => acc
  | xO q | xI q =>
      let base' := Bmult mode_NE base base in
      let acc' := match q with xO _ => acc | _ => Bmult mode_NE acc base' end in
      num_pow_loop acc' base' q
  end.
(** num_traits::pow for a positive exponent: first loop strips trailing zero bits *)
Fixpoint num_pow_pos (base : float) (p : positive) : float :=
  match p with
  | xO q => num_pow_pos (Bmult mode_NE base base) q
  | xH => base
  | xI _ => num_pow_loop base base p
  end.
Definition num_pow (base : float) (e : N) : float :=
  match e with N0 => Bone | Npos p => num_pow_pos base p end.

(** num_traits::FloatCore::powi: negative exponents use the reciprocal of the base;
    [exp.wrapping_neg() as u32] *)
Definition floatcore_powi (x : float) (e : Z) : float :=
  if e <? 0
  then num_pow (Bdiv mode_NE Bone x) (Z.to_N (wrap u32 (wrap i32 (- e))))
  else num_pow x (Z.to_N (wrap u32 e)).

(** float_impl.rs:107-113 *)
Definition float_powi : MixedPowi float := {| mixed_powi := fun x e => Ok (floatcore_powi x e) |}.

(** float_impl.rs:123-144 *)
Definition float_real : MixedReal float := {|
  mixed_max_value := Bmax_float;
  mixed_min_value := Bopp Bmax_float;
  mixed_sign := sign float_ops;
  mixed_is_positive := fun x => negb (Bsign x);
  mixed_is_negative := fun x => Bsign x
|}.

(** float_impl.rs:91-97 *)
Definition float_wrap_phase (fuel : nat) : MixedWrapPhase float := {|
  mixed_wrap_phase := wrap_phase float_ops float_signed float_pi fuel
|}.

(** f32_impl.rs:97-108, f64_impl.rs:105-116.  [libm::sqrt] is external. *)
Definition float_sqrt (m : mode) (libm_sqrt : float -> float) (fuel : nat) : MixedSqrt float := {|
  mixed_sqrt := fun x => Ok (libm_sqrt x);
  mixed_niirf := fun x => niirf float_ops float_zero float_abs float_powi m fuel x 2
|}.

(** f32_impl.rs:91-94, f64_impl.rs:99-102 *)
Definition float_atan2_poly (y x : float) : res float :=
  atan2 float_ops float_signed float_powi float_real float_zero float_pi float_abs y x.

(** f32_impl.rs:81-95, f64_impl.rs:90-103; libm's atan and atan2 are external *)
Definition float_atan (libm_atan : float -> float) (libm_atan2 : float -> float -> float)
  : MixedAtan float := {|
  mixed_atan := fun x => Ok (libm_atan x);
  mixed_atan2 := fun y x => Ok (libm_atan2 y x);
  mixed_atan2_poly := float_atan2_poly
|}.

(** float_impl.rs:178-189; [L], [E]: libm's log10 and exp10 *)
Definition float_dbmag (L : Mixedlog10 float) (E : MixedExp10 float) : DbMag float := {|
  mixed_mag2db := fun x =>
    c <- o_of_i32 float_ops 20 ;; l <- mixed_log10 L x ;; o_mul float_ops c l;
  mixed_db2mag := fun x =>
    c <- o_of_i32 float_ops 20 ;; exponent <- o_div float_ops x c ;; mixed_exp10 E exponent
|}.
(** float_impl.rs:191-202 *)
Definition float_dbpow (L : Mixedlog10 float) (E : MixedExp10 float) : DbPow float := {|
  mixed_pow2db := fun x =>
    c <- o_of_i32 float_ops 10 ;; l <- mixed_log10 L x ;; o_mul float_ops c l;
  mixed_db2pow := fun x =>
    c <- o_of_i32 float_ops 10 ;; exponent <- o_div float_ops x c ;; mixed_exp10 E exponent
|}.

(** float_impl.rs:11-23: [impl MixedNumConversion<T2> for float], [as] casts *)
Definition float_conv_int (t2 : ity) : MixedNumConversion Z float := {|
  mixed_from_num := fun z => Ok (float_of_Z prec emax z);
  mixed_to_num := fun x => Ok (int_of_float t2 x)
|}.
Definition float_conv_float (p2 e2 : Z) {Hp2 : Prec_gt_0 p2} {He2 : Prec_lt_emax p2 e2}
  : MixedNumConversion (binary_float p2 e2) float := {|
  mixed_from_num := fun x => Ok (float_of_float prec emax x);
  mixed_to_num := fun x => Ok (float_of_float p2 e2 x)
|}.
End FloatImpl.
