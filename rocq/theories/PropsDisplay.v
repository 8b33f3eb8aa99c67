(** * Properties C45, C46, C61, C62: the text of complex numbers.

    [dec] is the decimal text of an integer, [text_all P s] says every character of [s] satisfies [P],
    [calm] characters are those other than plus, minus and space. *)

From Coq Require Import ZArith Reals List String Ascii DecimalString.
From Flocq Require Import Core.Core IEEE754.BinarySingleNaN.
From Verif Require Import Base FloatBase Traits Trig IntImpl FixedPrim FixedImpl FloatImpl Complex Display Spec SpecDisplay DisplayProofs.
Open Scope string_scope.
Open Scope Z_scope.

Notation dec z := (NilZero.string_of_int (Z.to_int z)).

(** C45, the text.  [showable]: components in range and, for a signed type, not the minimum. *)
Theorem C45_text : forall m t std z, In t int_types -> showable t z ->
  write_complex (int_ops m t) (int_zero t) int_show std plain_spec "" z =
  Ok (dec (re z) ++ (if im z <? 0 then "-" else "+") ++ dec (Z.abs (im z)) ++ "i").
Proof. exact c45_text. Qed.
Print Assumptions C45_text.
(** C45, no two numbers share a text, whatever the flags, width, precision and radix prefix. *)
Theorem C45_unambiguous : forall m t std f pre z1 z2 s, In t int_types -> text_all calm pre -> showable t z1 -> showable t z2 ->
  write_complex (int_ops m t) (int_zero t) int_show std f pre z1 = Ok s ->
  write_complex (int_ops m t) (int_zero t) int_show std f pre z2 = Ok s -> z1 = z2.
Proof. exact c45_int. Qed.
Print Assumptions C45_unambiguous.
(** C45, the same for any digits (hexadecimal, octal, binary) and for fixed-point components. *)
Theorem C45_unambiguous_any_digits : forall m t show std f pre z1 z2 s, In t int_types -> text_all calm pre ->
  (forall p z, 0 <= z -> text_all calm (show p z) /\ show p z <> "") ->
  (forall a b, 0 <= a -> 0 <= b -> show (f_precision f) a = show (f_precision f) b -> a = b) ->
  showable t z1 -> showable t z2 ->
  write_complex (int_ops m t) (int_zero t) show std f pre z1 = Ok s ->
  write_complex (int_ops m t) (int_zero t) show std f pre z2 = Ok s -> z1 = z2.
Proof. exact c45_any_show. Qed.
Print Assumptions C45_unambiguous_any_digits.
Theorem C45_unambiguous_fixed : forall m fm show std f pre z1 z2 s, supported fm = true -> text_all calm pre ->
  (forall p z, 0 <= z -> text_all calm (show p z) /\ show p z <> "") ->
  (forall a b, 0 <= a -> 0 <= b -> show (f_precision f) a = show (f_precision f) b -> a = b) ->
  showable (fity fm) z1 -> showable (fity fm) z2 ->
  write_complex (fixed_ops m fm) (fixed_zero m fm) show std f pre z1 = Ok s ->
  write_complex (fixed_ops m fm) (fixed_zero m fm) show std f pre z2 = Ok s -> z1 = z2.
Proof. exact c45_fixed. Qed.
Print Assumptions C45_unambiguous_fixed.
Example C45_ex : showable i8 (mkC (-12) 127) /\ text_all calm "0x" /\
  write_complex (int_ops Debug i8) (int_zero i8) int_show true plain_spec "" (mkC (-12) (-127)) = Ok "-12-127i" /\
  write_complex (int_ops Debug i8) (int_zero i8) int_show true (mkSpec true true None (Some 12%N)) "0x" (mkC 1 (-2)) = Ok "   +0x1-0x2i" /\
  write_complex (int_ops Debug i8) (int_zero i8) int_show true plain_spec "" (mkC 0 0) = Ok "0+0i".
Proof. repeat split; vm_compute; congruence. Qed.

(** C46 is false: the minimum of a signed type panics in debug builds. *)
Theorem C46_display_panics_refuted :
  (forall t std show f pre b, In t int_types -> isigned t = true -> in_range t b -> exists p,
    write_complex (int_ops Debug t) (int_zero t) show std f pre (mkC (imin t) b) = Panic p) /\
  (forall fm std show f pre b, supported fm = true -> fsigned fm = true -> fvalid fm b -> exists p,
    write_complex (fixed_ops Debug fm) (fixed_zero Debug fm) show std f pre (mkC (fmin fm) b) = Panic p).
Proof. exact c46_refuted. Qed.
Print Assumptions C46_display_panics_refuted.
(** Exactly when it panics.  Missing: those cases, where the property is false. *)
Theorem C46_int_panics_iff_partial : forall m t show std f pre z, In t int_types -> cvalid t z ->
  (exists p, write_complex (int_ops m t) (int_zero t) show std f pre z = Panic p) <->
  (m = Debug /\ isigned t = true /\ (re z = imin t \/ im z = imin t)).
Proof. exact c46_int. Qed.
Print Assumptions C46_int_panics_iff_partial.
Theorem C46_fixed_panics_iff_partial : forall m fm show std f pre z, supported fm = true -> cvalid (fity fm) z ->
  (exists p, write_complex (fixed_ops m fm) (fixed_zero m fm) show std f pre z = Panic p) <->
  (m = Debug /\ fsigned fm = true /\ (re z = fmin fm \/ im z = fmin fm)).
Proof. exact c46_fixed. Qed.
Print Assumptions C46_fixed_panics_iff_partial.
(** In release builds the minimum gets two signs. *)
Theorem C46_release_minimum : forall t std z, In t int_types -> isigned t = true -> re z = imin t -> 0 <= im z ->
  write_complex (int_ops Release t) (int_zero t) int_show std plain_spec "" z =
  Ok ("--" ++ dec (2 ^ (iwidth t - 1)) ++ "+" ++ dec (im z) ++ "i").
Proof. exact c46_release_min. Qed.
Print Assumptions C46_release_minimum.
Example C46_ex : write_complex (int_ops Release i8) (int_zero i8) int_show false plain_spec "" (mkC (-128) 3) = Ok "--128+3i" /\
  write_complex (int_ops Debug i8) (int_zero i8) int_show false plain_spec "" (mkC 3 (-128)) = Panic POverflow.
Proof. repeat split; vm_compute; congruence. Qed.

(** C61, float components.  [show] is the text of a float; Rust prints negative zero as "-0",
    which then follows the "+" of the imaginary part. *)
Theorem C61_two_signs_refuted : forall p e {Hp : Prec_gt_0 p} {He : Prec_lt_emax p e} (show : option N -> binary_float p e -> string) std,
  show None (B754_zero true) = "-0" -> forall a, a <> B754_zero true -> fneg a = false ->
  write_complex float_ops float_zero show std plain_spec "" (mkC a (B754_zero true)) = Ok (show None (Babs a) ++ "+-0i").
Proof. exact @c61_nz. Qed.
Print Assumptions C61_two_signs_refuted.
(** Missing: components equal to negative zero. *)
Theorem C61_text_partial : forall p e {Hp : Prec_gt_0 p} {He : Prec_lt_emax p e} (show : option N -> binary_float p e -> string) std
  (z : Cartesian (binary_float p e)), re z <> B754_zero true -> im z <> B754_zero true ->
  write_complex float_ops float_zero show std plain_spec "" z =
  Ok ((if fneg (re z) then "-" else "") ++ show None (Babs (re z)) ++ (if fneg (im z) then "-" else "+") ++ show None (Babs (im z)) ++ "i").
Proof. exact @c61_text. Qed.
Print Assumptions C61_text_partial.
(** [fneg] is "less than zero" *)
Theorem C61_fneg : forall p e (x : binary_float p e), is_finite x = true -> (fneg x = true <-> (B2R x < 0)%R).
Proof. exact @fneg_spec. Qed.
Print Assumptions C61_fneg.
(** with a printer for a few values *)
Example C61_ex : let show := fun (_ : option N) (x : f32) => match x with B754_zero true => "-0" | B754_zero false => "0" | B754_finite false 8388608 _ _ => "2" | _ => "?" end in
  write_complex float_ops float_zero show true plain_spec "" (mkC (float_of_Z 24 128 (-2)) (B754_zero true)) = Ok "-2+-0i" /\
  write_complex float_ops float_zero show true plain_spec "" (mkC (float_of_Z 24 128 (-2)) (float_of_Z 24 128 (-2))) = Ok "-2-2i".
Proof. split; vm_compute; reflexivity. Qed.

(** C62, Polar numbers: the angle sign is not ASCII, so it never occurs in a component. *)
Theorem C62_polar_unambiguous : forall T (show : option N -> T -> string), (forall x, text_all below_128 (show None x)) -> (forall x y, show None x = show None y -> x = y) ->
  forall p q, polar_display show p = polar_display show q -> p = q.
Proof. exact polar_inj. Qed.
Print Assumptions C62_polar_unambiguous.
Theorem C62_polar_unambiguous_int : forall p q, polar_display int_show p = polar_display int_show q -> p = q.
Proof. exact int_polar_inj. Qed.
Print Assumptions C62_polar_unambiguous_int.
Example C62_ex : polar_display int_show (mkP 10 (-3)) = "10∠-3".
Proof. reflexivity. Qed.
