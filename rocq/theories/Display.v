(** * Display: src/complex/cartesian_impl/num_complex_impl.rs and the Display of Polar.

    The text of a component is produced by its own formatting trait, which is external
    ([show]); the model is the assembly of the pieces.  Writing to the formatter is assumed
    not to fail. *)

From Coq Require Import ZArith String Ascii DecimalString.
From Verif Require Import Base Traits Complex.
Open Scope Z_scope.
Open Scope string_scope.

(** the flags of a [core::fmt::Formatter] that are consulted *)
Record fmt_spec := mkSpec {
  f_alternate : bool; f_sign_plus : bool; f_precision : option N; f_width : option N
}.
Definition plain_spec := mkSpec false false None None.

Fixpoint spaces (n : nat) : string :=
  match n with O => "" | Datatypes.S k => String " " (spaces k) end.
(** [{0: >1$}]: right-aligned, padded with spaces to the width (ASCII text) *)
Definition pad_left (w : N) (s : string) : string :=
  spaces (N.to_nat w - String.length s) ++ s.

Section WriteComplex.
Context {T : Type}.
Variable O : MixedOps T.
Variable Z0 : MixedZero T.
Variable show : option N -> T -> string.   (* component formatting with optional precision *)
Variable std : bool.                       (* cargo feature "std" *)

(** num_complex_impl.rs:81-95 *)
Definition fmt_complex (f : fmt_spec) (complex : string) : string :=
  if std then match f_width f with Some w => pad_left w complex | None => complex end
  else complex.

(** num_complex_impl.rs:40-79 *)
Definition fmt_re_im (f : fmt_spec) (prefix : string) (re_neg im_neg : bool) (real imag : string)
  : string :=
  let prefix := if f_alternate f then prefix else "" in
  let sign := if re_neg then "-" else if f_sign_plus f then "+" else "" in
  if im_neg
  then fmt_complex f (sign ++ prefix ++ real ++ "-" ++ prefix ++ imag ++ "i")
  else fmt_complex f (sign ++ prefix ++ real ++ "+" ++ prefix ++ imag ++ "i").

(** num_complex_impl.rs:9-38; [prefix] is "", "0x", "0o" or "0b" (lines 115-187) *)
Definition write_complex (f : fmt_spec) (prefix : string) (z : Cartesian T) : res string :=
  zero <- mixed_zero Z0 ;;
  abs_re <- (if o_lt O (re z) zero then o_sub O zero (re z) else Ok (re z)) ;;
  abs_im <- (if o_lt O (im z) zero then o_sub O zero (im z) else Ok (im z)) ;;
  Ok (fmt_re_im f prefix (o_lt O (re z) zero) (o_lt O (im z) zero)
        (show (f_precision f) abs_re) (show (f_precision f) abs_im)).
End WriteComplex.

(** The decimal text [core] prints for an integer: no leading zeros, "-" before negative numbers;
    a precision is ignored. *)
Definition int_show (precision : option N) (z : Z) : string := NilZero.string_of_int (Z.to_int z).

(** polar_impl.rs:180-187 *)
Definition polar_display {T} (show : option N -> T -> string) (p : Polar T) : string :=
  show None (mag p) ++ "∠" ++ show None (ang p).

(** LowerHex, UpperHex, Octal and Binary of [core] for an integer type: the digits of the two's complement
    word, most significant first, no leading zeros; a precision is ignored.  The radix is 16, 8 or 2. *)
Definition digit (upper : bool) (d : Z) : ascii :=
  ascii_of_N (Z.to_N (if d <? 10 then 48 + d else if upper then 55 + d else 87 + d)%Z).
Fixpoint digits (b : Z) (upper : bool) (fuel : nat) (n : Z) (acc : string) : string :=
  match fuel with
  | Datatypes.O => acc
  | Datatypes.S k => let acc := String (digit upper (n mod b)) acc in if (n / b =? 0)%Z then acc else digits b upper k (n / b) acc
  end.
Definition radix_show (t : ity) (b : Z) (upper : bool) (precision : option N) (z : Z) : string :=
  digits b upper (Z.to_nat (iwidth t)) (z mod 2 ^ iwidth t) "".
