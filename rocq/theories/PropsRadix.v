(** * Properties C77, C78: hexadecimal, octal and binary text; width and flags. *)

From Coq Require Import ZArith List Bool String Ascii Lia.
From Verif Require Import Base Traits IntImpl Complex Display Spec SpecDisplay SpecRadix RadixProofs.
Import ListNotations.
Open Scope string_scope.
Open Scope Z_scope.

(** C77: the radix text of an integer complex number is sign, digits of |re|, sign, digits of |im|, "i"; the
    digits read back to the exact absolute values (also of the most negative component in a release build) and
    carry no leading zero; letters are capitals exactly in the upper-case format. *)
Theorem C77_radix_text : forall m t b up std z, In t int_types -> 2 <= b <= 16 -> cvalid t z -> m = Release \/ showable t z ->
  exists r i, write_complex (int_ops m t) (int_zero t) (radix_show t b up) std plain_spec "" z =
    Ok ((if re z <? 0 then "-" else "") ++ r ++ (if im z <? 0 then "-" else "+") ++ i ++ "i") /\
  read b r = Some (Z.abs (re z)) /\ read b i = Some (Z.abs (im z)) /\ tidy r /\ tidy i /\ cased up r /\ cased up i.
Proof. exact radix_text. Qed.
Print Assumptions C77_radix_text.
Example C77_radix_text_ex :
  write_complex (int_ops Release i8) (int_zero i8) (radix_show i8 16 false) false plain_spec "" (mkC (-128) 127) = Ok "-80+7fi" /\
  write_complex (int_ops Debug i8) (int_zero i8) (radix_show i8 16 false) false plain_spec "" (mkC (-128) 127) = Panic POverflow /\
  write_complex (int_ops Debug i16) (int_zero i16) (radix_show i16 8 false) false plain_spec "" (mkC 64 (-511)) = Ok "100-777i".
Proof. vm_compute. auto. Qed.

(** C77: no two numbers share a radix text, whatever the flags. *)
Theorem C77_radix_unambiguous : forall m t b up std f pre z1 z2 s, In t int_types -> 2 <= b <= 16 -> text_all calm pre -> cvalid t z1 -> cvalid t z2 ->
  m = Release \/ (showable t z1 /\ showable t z2) ->
  write_complex (int_ops m t) (int_zero t) (radix_show t b up) std f pre z1 = Ok s ->
  write_complex (int_ops m t) (int_zero t) (radix_show t b up) std f pre z2 = Ok s -> z1 = z2.
Proof. exact radix_inj. Qed.
Print Assumptions C77_radix_unambiguous.
Example C77_radix_unambiguous_ex : In i32 int_types /\ text_all calm "0x" /\ cvalid i32 (mkC (-2147483648) 5).
Proof. vm_compute. intuition congruence. Qed.

(** C78: with the alternate flag each part carries the prefix after its sign; a plus is shown before a
    non-negative real part exactly when asked for. *)
Theorem C78_flags_radix : forall m t b up std f pre z, In t int_types -> 2 <= b <= 16 -> cvalid t z -> m = Release \/ showable t z -> f_width f = None ->
  exists r i, write_complex (int_ops m t) (int_zero t) (radix_show t b up) std f pre z =
    Ok ((if re z <? 0 then "-" else if f_sign_plus f then "+" else "") ++ (if f_alternate f then pre else "") ++ r ++
        (if im z <? 0 then "-" else "+") ++ (if f_alternate f then pre else "") ++ i ++ "i") /\
  read b r = Some (Z.abs (re z)) /\ read b i = Some (Z.abs (im z)) /\ tidy r /\ tidy i /\ cased up r /\ cased up i.
Proof. exact radix_flags. Qed.
Print Assumptions C78_flags_radix.
Example C78_flags_radix_ex :
  write_complex (int_ops Debug i8) (int_zero i8) (radix_show i8 16 true) false (mkSpec true true None None) "0x" (mkC 10 (-127)) = Ok "+0xA-0x7Fi".
Proof. vm_compute. auto. Qed.

Theorem C78_flags_decimal : forall m t std f z, In t int_types -> showable t z -> f_width f = None ->
  write_complex (int_ops m t) (int_zero t) int_show std f "" z =
    Ok ((if re z <? 0 then "-" else if f_sign_plus f then "+" else "") ++ int_show None (Z.abs (re z)) ++
        (if im z <? 0 then "-" else "+") ++ int_show None (Z.abs (im z)) ++ "i").
Proof. exact dec_flags. Qed.
Print Assumptions C78_flags_decimal.
Example C78_flags_decimal_ex :
  write_complex (int_ops Debug i8) (int_zero i8) int_show true (mkSpec false true (Some 3%N) None) "" (mkC 10 (-127)) = Ok "+10-127i" /\ showable i8 (mkC 10 (-127)).
Proof. vm_compute. intuition congruence. Qed.

(** C78: a width pads the whole text (not the parts) on the left with spaces to exactly that length, never
    truncating; without the "std" feature it is ignored.  For every component type. *)
Theorem C78_width : forall T (O : MixedOps T) Z0 show f pre z w, f_width f = Some w ->
  (forall s, write_complex O Z0 show true f pre z = Ok s ->
     exists s0, write_complex O Z0 show true (mkSpec (f_alternate f) (f_sign_plus f) (f_precision f) None) pre z = Ok s0 /\
     s = blanks (N.to_nat w - String.length s0) ++ s0 /\ String.length s = Nat.max (N.to_nat w) (String.length s0)) /\
  write_complex O Z0 show false f pre z = write_complex O Z0 show false (mkSpec (f_alternate f) (f_sign_plus f) (f_precision f) None) pre z /\
  write_complex O Z0 show false f pre z = write_complex O Z0 show true (mkSpec (f_alternate f) (f_sign_plus f) (f_precision f) None) pre z.
Proof. exact width_all. Qed.
Print Assumptions C78_width.
Example C78_width_ex :
  write_complex (int_ops Debug i8) (int_zero i8) int_show true (mkSpec false false None (Some 8%N)) "" (mkC 10 (-7)) = Ok "   10-7i" /\
  write_complex (int_ops Debug i8) (int_zero i8) int_show false (mkSpec false false None (Some 8%N)) "" (mkC 10 (-7)) = Ok "10-7i".
Proof. vm_compute. auto. Qed.
