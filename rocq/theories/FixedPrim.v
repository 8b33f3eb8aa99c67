(** * FixedPrim: the parts of the [fixed] crate (version 1.13) the repository uses.

    External code: this file is an assumption about that crate, taken from its
    documentation and source.  A value of [FixedI<w><U<f>>] is its bit pattern read
    as an integer [a] ([in_range]), standing for the real number [a / 2^f].
    - [+], [-], unary [-]: on the bits; overflow panics in debug, wraps in release.
    - [*]: exact product, low [f] bits dropped (rounds toward minus infinity).
    - [/]: [(a * 2^f) / b] truncated toward zero; division by zero always panics.
    - [from_num] of a float rounds to nearest, ties to even; NaN/inf always panic;
      a value out of range panics in debug and wraps in release.
    - [to_num] to an integer rounds toward minus infinity; to a float rounds to
      nearest, ties to even. *)

From Coq Require Import ZArith.
From Flocq Require Import Core.Core IEEE754.BinarySingleNaN.
From Verif Require Import Base FloatBase.
Open Scope Z_scope.

Record fty := mkFty { fsigned : bool; fwidth : Z; ffrac : Z }.
Definition fity (f : fty) : ity := mkIty (fsigned f) (fwidth f).
Definition fone (f : fty) : Z := 2 ^ ffrac f.
Definition fvalid (f : fty) (a : Z) : Prop := in_range (fity f) a.
Definition fmax (f : fty) : Z := imax (fity f).
Definition fmin (f : fty) : Z := imin (fity f).

(** [n / d] rounded to nearest, ties to even, for [0 <= n], [0 < d] *)
Definition rne_div (n d : Z) : Z :=
  let q := n / d in
  let r := n mod d in
  match 2 * r ?= d with
  | Lt => q
  | Gt => q + 1
  | Eq => if Z.even q then q else q + 1
  end.
(** [n * 2^k] rounded to nearest, ties to even, for [0 <= n] *)
Definition rne_scale (n k : Z) : Z :=
  if 0 <=? k then n * 2 ^ k else rne_div n (2 ^ (- k)).

Section Fixed.
Variable m : mode.
Variable f : fty.

Definition fx_fin (z : Z) : res Z := fin m (fity f) z.
Definition fx_add (a b : Z) : res Z := fx_fin (a + b).
Definition fx_sub (a b : Z) : res Z := fx_fin (a - b).
Definition fx_neg (a : Z) : res Z := fx_fin (- a).
Definition fx_abs (a : Z) : res Z := fx_fin (Z.abs a).
Definition fx_mul (a b : Z) : res Z := fx_fin (a * b / fone f).
Definition fx_div (a b : Z) : res Z :=
  if b =? 0 then Panic PDivZero else fx_fin (Z.quot (a * fone f) b).
Definition fx_cmp (a b : Z) : option comparison := Some (a ?= b).

Definition fx_of_int (z : Z) : res Z := fx_fin (z * fone f).
Definition fx_of_float {p e} (x : binary_float p e) : res Z :=
  match x with
  | B754_zero _ => Ok 0
  | B754_infinity _ | B754_nan => Panic PNotFinite
  | B754_finite s mx ex _ => fx_fin (cond_Zopp s (rne_scale (Zpos mx) (ex + ffrac f)))
  end.
Definition fx_to_int (t : ity) (a : Z) : res Z := fin m t (a / fone f).
Definition fx_to_f32 (a : Z) : f32 := float_of_scaled 24 128 a (- ffrac f).
Definition fx_to_f64 (a : Z) : f64 := float_of_scaled 53 1024 a (- ffrac f).
End Fixed.
