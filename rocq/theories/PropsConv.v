(** * Properties C41-C43, C50, C58: conversions and constants.

    [ZnearestE], [Zfloor], [Ztrunc] and [round] are Flocq's rounding functions on the reals:
    to nearest with ties to even, down, toward zero, and to a floating-point format. *)

From Coq Require Import ZArith Reals List.
From Flocq Require Import Core.Core IEEE754.BinarySingleNaN.
From Verif Require Import Base FloatBase Traits Trig IntImpl FixedPrim FixedImpl FloatImpl Spec ConvProofs PolarCart.
Open Scope Z_scope.

(** C41. *)
Theorem C41_int_conversions : forall t t2, In t int_types -> In t2 int_types -> forall z,
  (exists r, mixed_from_num (int_conv_int t t2) z = Ok r /\ in_range t r /\ congr t r z /\ (in_range t z -> r = z)) /\
  (exists r, mixed_to_num (int_conv_int t t2) z = Ok r /\ in_range t2 r /\ congr t2 r z /\ (in_range t2 z -> r = z)) /\
  (iwidth t2 <= iwidth t -> in_range t2 z -> exists r, mixed_from_num (int_conv_int t t2) z = Ok r /\ mixed_to_num (int_conv_int t t2) r = Ok z).
Proof. exact c41. Qed.
Print Assumptions C41_int_conversions.
Example C41_ex : In u8 int_types /\ In i16 int_types /\ mixed_from_num (int_conv_int u8 i16) (-1) = Ok 255 /\
  mixed_from_num (int_conv_int i16 u8) 200 = Ok 200 /\ mixed_to_num (int_conv_int i16 u8) 200 = Ok 200 /\
  mixed_from_num (int_conv_int u64 i8) (-3) = Ok (2 ^ 64 - 3) /\ mixed_to_num (int_conv_int u64 i8) (2 ^ 64 - 3) = Ok (-3).
Proof. repeat split; try (simpl; tauto); vm_compute; reflexivity. Qed.

(** C42, float to fixed: [n] is the nearest number of units. *)
Theorem C42_float_to_fixed : forall m f, supported f = true ->
  (forall x : f64, is_finite x = false -> mixed_from_num (fixed_conv_f64 m f) x = Panic PNotFinite) /\
  (forall x : f32, is_finite x = false -> mixed_from_num (fixed_conv_f32 m f) x = Panic PNotFinite) /\
  (forall x : f64, is_finite x = true -> let n := ZnearestE (B2R x * bpow radix2 (ffrac f)) in
    (fvalid f n -> mixed_from_num (fixed_conv_f64 m f) x = Ok n /\ (Rabs (fval f n - B2R x) <= ulp f / 2)%R) /\
    (~ fvalid f n -> mixed_from_num (fixed_conv_f64 m f) x = match m with Debug => Panic POverflow | Release => Ok (wrap (fity f) n) end)) /\
  (forall x : f32, is_finite x = true -> let n := ZnearestE (B2R x * bpow radix2 (ffrac f)) in
    (fvalid f n -> mixed_from_num (fixed_conv_f32 m f) x = Ok n /\ (Rabs (fval f n - B2R x) <= ulp f / 2)%R) /\
    (~ fvalid f n -> mixed_from_num (fixed_conv_f32 m f) x = match m with Debug => Panic POverflow | Release => Ok (wrap (fity f) n) end)).
Proof. exact c42_of_float. Qed.
Print Assumptions C42_float_to_fixed.
Example C42_ex : supported (mkFty true 32 22) = true /\
  mixed_from_num (fixed_conv_f64 Debug (mkFty true 32 22)) (float_of_scaled 53 1024 3 (-24)) = Ok 1 /\
  mixed_from_num (fixed_conv_f64 Debug (mkFty true 32 22)) (float_of_scaled 53 1024 1 (-23)) = Ok 0 /\
  mixed_from_num (fixed_conv_f64 Debug (mkFty true 32 22)) (float_of_scaled 53 1024 3 (-23)) = Ok 2 /\
  mixed_from_num (fixed_conv_f64 Debug (mkFty true 32 22)) (float_of_Z 53 1024 512) = Panic POverflow.
Proof. repeat split; vm_compute; reflexivity. Qed.
(** C42, fixed to float: correctly rounded, and exact and reversible when the bits fit the significand. *)
Theorem C42_fixed_to_float : forall m f a, supported f = true -> fvalid f a ->
  (exists x : f64, mixed_to_num (fixed_conv_f64 m f) a = Ok x /\ is_finite x = true /\ B2R x = round radix2 (FLT_exp (-1074) 53) ZnearestE (fval f a)) /\
  (exists x : f32, mixed_to_num (fixed_conv_f32 m f) a = Ok x /\ is_finite x = true /\ B2R x = round radix2 (FLT_exp (-149) 24) ZnearestE (fval f a)).
Proof. exact c42_to_float. Qed.
Print Assumptions C42_fixed_to_float.
Theorem C42_fixed_roundtrip : forall m f a, supported f = true -> fvalid f a ->
  (Z.abs a <= 2 ^ 53 -> exists x : f64, mixed_to_num (fixed_conv_f64 m f) a = Ok x /\ is_finite x = true /\ B2R x = fval f a /\
     mixed_from_num (fixed_conv_f64 m f) x = Ok a) /\
  (Z.abs a <= 2 ^ 24 -> exists x : f32, mixed_to_num (fixed_conv_f32 m f) a = Ok x /\ is_finite x = true /\ B2R x = fval f a /\
     mixed_from_num (fixed_conv_f32 m f) x = Ok a).
Proof. exact c42_roundtrip. Qed.
Print Assumptions C42_fixed_roundtrip.
(** the bound on the bits is needed: 2^53 + 1 in FixedI64<U60> does not survive *)
Example C42_roundtrip_ex : supported (mkFty true 64 60) = true /\ fvalid (mkFty true 64 60) (2 ^ 53 + 1) /\
  match mixed_to_num (fixed_conv_f64 Debug (mkFty true 64 60)) (2 ^ 53 + 1) with
  | Ok x => mixed_from_num (fixed_conv_f64 Debug (mkFty true 64 60)) x = Ok (2 ^ 53) | _ => False end.
Proof. repeat split; vm_compute; congruence. Qed.
(** C42, f32 to f64 and back. *)
Theorem C42_float_widening : forall x : f32, exists y : f64, mixed_from_num (float_conv_float 24 128) x = Ok y /\
  mixed_to_num (float_conv_float 24 128) y = Ok x /\ is_nan y = is_nan x /\ is_finite y = is_finite x /\ B2R y = B2R x /\ Bsign y = Bsign x.
Proof. exact c42_floats. Qed.
Print Assumptions C42_float_widening.
Example C42_widening_ex : match mixed_from_num (float_conv_float (prec := 53) (emax := 1024) 24 128) (float_of_scaled 24 128 3 (-149)) with
  | Ok y => B2SF y = SpecFloat.S754_finite false (3 * 2 ^ 51) (-200) | _ => False end.
Proof. vm_compute. reflexivity. Qed.

(** C43 is false: -2^-k becomes -1 from every signed fixed type, 0 from a float. *)
Theorem C43_to_int_rounding_refuted : forall m f, supported f = true -> fsigned f = true -> 1 <= ffrac f ->
  exists a (x : f64), fvalid f a /\ is_finite x = true /\ B2R x = fval f a /\
    mixed_to_num (fixed_conv_int m f i32) a = Ok (-1) /\ mixed_to_num (float_conv_int i32) x = Ok 0.
Proof. exact c43. Qed.
Print Assumptions C43_to_int_rounding_refuted.
(** Exactly when they agree.  Missing: negative non-integral values, where the property is false. *)
Theorem C43_to_int_partial : forall m f t a p e {Hp : Prec_gt_0 p} {He : Prec_lt_emax p e} (x : binary_float p e), supported f = true -> In t int_types ->
  is_finite x = true -> B2R x = fval f a -> in_range t (Zfloor (fval f a)) ->
  mixed_to_num (fixed_conv_int m f t) a = Ok (Zfloor (fval f a)) /\
  mixed_to_num (float_conv_int t) x = Ok (Ztrunc (fval f a)) /\
  (Zfloor (fval f a) = Ztrunc (fval f a) <-> (0 <= fval f a)%R \/ IZR (Zfloor (fval f a)) = fval f a).
Proof. exact @c43_iff. Qed.
Print Assumptions C43_to_int_partial.
Example C43_ex : mixed_to_num (fixed_conv_int Debug (mkFty true 32 22) i32) (- 5 * 2 ^ 21) = Ok (-3) /\
  mixed_to_num (float_conv_int i32) (float_of_scaled 53 1024 (-5) (-1)) = Ok (-2) /\
  mixed_to_num (fixed_conv_int Debug (mkFty true 32 22) i32) (5 * 2 ^ 21) = Ok 2 /\
  mixed_to_num (float_conv_int i32) (float_of_scaled 53 1024 5 (-1)) = Ok 2.
Proof. repeat split; vm_compute; reflexivity. Qed.

(** C50, pi and tau.  The last part: with three integer bits tau does not fit a signed format. *)
Theorem C50_pi_fixed : forall m f, supported f = true ->
  (exists p, mixed_pi (fixed_pi m f) = Ok p /\ fvalid f p /\ (Rabs (fval f p - PI) <= ulp f / 2 + / 1000000000000000)%R) /\
  (fsigned f = false \/ ffrac f <= fwidth f - 4 -> exists t, mixed_tau (fixed_pi m f) = Ok t /\ fvalid f t /\ (Rabs (fval f t - 2 * PI) <= ulp f / 2 + / 1000000000000000)%R) /\
  (fsigned f = true -> ffrac f = fwidth f - 3 ->
     match m with
     | Debug => mixed_tau (fixed_pi m f) = Panic POverflow
     | Release => exists t, mixed_tau (fixed_pi m f) = Ok t /\ (Rabs (fval f t - (2 * PI - 8)) <= ulp f / 2 + / 1000000000000000)%R
     end).
Proof. exact c50_fixed. Qed.
Print Assumptions C50_pi_fixed.
Example C50_ex : supported (mkFty true 32 29) = true /\ mixed_tau (fixed_pi Debug (mkFty true 32 29)) = Panic POverflow /\
  mixed_tau (fixed_pi Release (mkFty true 32 29)) = Ok (-921707870) /\ mixed_tau (fixed_pi Debug (mkFty true 32 28)) = Ok 1686629713.
Proof. repeat split; vm_compute; reflexivity. Qed.
(** less than half a unit in the last place away, so the nearest floats *)
Theorem C50_pi_float :
  (exists p t : f32, mixed_pi float_pi = Ok p /\ mixed_tau float_pi = Ok t /\ is_finite p = true /\ is_finite t = true /\
    (Rabs (B2R p - PI) < bpow radix2 (-23))%R /\ (Rabs (B2R t - 2 * PI) < bpow radix2 (-22))%R) /\
  (exists p t : f64, mixed_pi float_pi = Ok p /\ mixed_tau float_pi = Ok t /\ is_finite p = true /\ is_finite t = true /\
    (Rabs (B2R p - PI) < bpow radix2 (-52))%R /\ (Rabs (B2R t - 2 * PI) < bpow radix2 (-51))%R).
Proof. exact (conj c50_f32 c50_f64). Qed.
Print Assumptions C50_pi_float.
(** C50, zero and one. *)
Theorem C50_unit_int : forall m t, In t int_types -> exists z o, mixed_zero (int_zero t) = Ok z /\ mixed_one (int_one t) = Ok o /\
  forall a, in_range t a -> o_add (int_ops m t) a z = Ok a /\ o_add (int_ops m t) z a = Ok a /\ o_mul (int_ops m t) a o = Ok a /\ o_mul (int_ops m t) o a = Ok a.
Proof. exact c50_int_unit. Qed.
Print Assumptions C50_unit_int.
Theorem C50_unit_fixed : forall m f, supported f = true -> exists z o, mixed_zero (fixed_zero m f) = Ok z /\ mixed_one (fixed_one m f) = Ok o /\
  forall a, fvalid f a -> o_add (fixed_ops m f) a z = Ok a /\ o_add (fixed_ops m f) z a = Ok a /\ o_mul (fixed_ops m f) a o = Ok a /\ o_mul (fixed_ops m f) o a = Ok a.
Proof. exact c50_fixed_unit. Qed.
Print Assumptions C50_unit_fixed.
Theorem C50_unit_float : forall prec emax {Hp : Prec_gt_0 prec} {He : Prec_lt_emax prec emax}, 1 < prec ->
  exists z o : binary_float prec emax, mixed_zero float_zero = Ok z /\ mixed_one float_one = Ok o /\
  forall a, (exists r, o_add float_ops a z = Ok r /\ same_float r a) /\ (exists r, o_add float_ops z a = Ok r /\ same_float r a) /\
    o_mul float_ops a o = Ok a /\ o_mul float_ops o a = Ok a.
Proof. exact @c50_float_unit. Qed.
Print Assumptions C50_unit_float.
Example C50_unit_ex : mixed_one (fixed_one Debug (mkFty false 8 5)) = Ok 32 /\ o_mul (fixed_ops Debug (mkFty false 8 5)) 255 32 = Ok 255 /\
  mixed_one (int_one i8) = Ok 1.
Proof. repeat split; vm_compute; reflexivity. Qed.

(** C58, integers into fixed types and back. *)
Theorem C58_int_fixed : forall m f t z, supported f = true -> In t int_types ->
  (fvalid f (z * 2 ^ ffrac f) -> mixed_from_num (fixed_conv_int m f t) z = Ok (z * 2 ^ ffrac f) /\ fval f (z * 2 ^ ffrac f) = IZR z /\
    (in_range t z -> mixed_to_num (fixed_conv_int m f t) (z * 2 ^ ffrac f) = Ok z)) /\
  (~ fvalid f (z * 2 ^ ffrac f) -> mixed_from_num (fixed_conv_int m f t) z =
    match m with Debug => Panic POverflow | Release => Ok (wrap (fity f) (z * 2 ^ ffrac f)) end).
Proof. exact c58_fixed. Qed.
Print Assumptions C58_int_fixed.
Theorem C58_fixed_to_int : forall m f t a, supported f = true -> In t int_types ->
  (in_range t (Zfloor (fval f a)) -> mixed_to_num (fixed_conv_int m f t) a = Ok (Zfloor (fval f a))) /\
  (~ in_range t (Zfloor (fval f a)) -> mixed_to_num (fixed_conv_int m f t) a =
    match m with Debug => Panic POverflow | Release => Ok (wrap t (Zfloor (fval f a))) end).
Proof. exact c58_to_int. Qed.
Print Assumptions C58_fixed_to_int.
Example C58_ex : mixed_from_num (fixed_conv_int Debug (mkFty true 16 8) i32) (-128) = Ok (- 2 ^ 15) /\
  mixed_from_num (fixed_conv_int Debug (mkFty true 16 8) i32) 128 = Panic POverflow /\
  mixed_from_num (fixed_conv_int Release (mkFty true 16 8) i32) 128 = Ok (- 2 ^ 15) /\
  mixed_to_num (fixed_conv_int Debug (mkFty true 16 8) u8) (-1) = Panic POverflow.
Proof. repeat split; vm_compute; reflexivity. Qed.
(** C58, integers into floats and back, and floats into integers. *)
Theorem C58_int_float : forall p e {Hp : Prec_gt_0 p} {He : Prec_lt_emax p e} t z, In t int_types -> in_range t z -> Z.abs z <= 2 ^ p ->
  exists x : binary_float p e, mixed_from_num (float_conv_int t) z = Ok x /\ is_finite x = true /\ B2R x = IZR z /\ mixed_to_num (float_conv_int t) x = Ok z.
Proof. exact @c58_float. Qed.
Print Assumptions C58_int_float.
Theorem C58_float_to_int : forall p e {Hp : Prec_gt_0 p} {He : Prec_lt_emax p e} t (x : binary_float p e), In t int_types -> exists r,
  mixed_to_num (float_conv_int t) x = Ok r /\ in_range t r /\
  (is_nan x = true -> r = 0) /\ (x = B754_infinity true -> r = imin t) /\ (x = B754_infinity false -> r = imax t) /\
  (is_finite x = true -> r = Z.max (imin t) (Z.min (imax t) (Ztrunc (B2R x)))).
Proof. exact @c58_of_float. Qed.
Print Assumptions C58_float_to_int.
Example C58_float_ex : mixed_to_num (float_conv_int u8) (float_of_Z 24 128 300) = Ok 255 /\ mixed_to_num (float_conv_int u8) (float_of_Z 24 128 (-1)) = Ok 0 /\
  mixed_to_num (float_conv_int i8) (float_of_scaled 24 128 (-7) (-1)) = Ok (-3).
Proof. repeat split; vm_compute; reflexivity. Qed.
(** any integer, of any size, rounds to the nearest float, or overflows to an infinity of its sign *)
Theorem C58_int_rounds : forall p e {Hp : Prec_gt_0 p} {He : Prec_lt_emax p e} t z, In t int_types -> exists x : binary_float p e,
  mixed_from_num (float_conv_int t) z = Ok x /\
  let v := round radix2 (SpecFloat.fexp p e) ZnearestE (IZR z) in
  ((Rabs v < bpow radix2 e)%R -> is_finite x = true /\ B2R x = v) /\ ((bpow radix2 e <= Rabs v)%R -> x = B754_infinity (z <? 0)).
Proof. exact @c58_int_rounds. Qed.
Print Assumptions C58_int_rounds.
(** the conversions offered by the integer types are those offered by the float types *)
Theorem C58_int_side : forall t, In t int_types ->
  (forall z, mixed_to_num (int_conv_f32 t) z = mixed_from_num (float_conv_int (prec := 24) (emax := 128) t) z) /\
  (forall z, mixed_to_num (int_conv_f64 t) z = mixed_from_num (float_conv_int (prec := 53) (emax := 1024) t) z) /\
  (forall x, mixed_from_num (int_conv_f32 t) x = mixed_to_num (float_conv_int t) x) /\
  (forall x, mixed_from_num (int_conv_f64 t) x = mixed_to_num (float_conv_int t) x).
Proof. exact c58_int_side. Qed.
Print Assumptions C58_int_side.
(** 2^24 + 1 and u128::MAX as f32; 300.5 as u8 *)
Example C58_rounds_ex : map_res B2SF (mixed_to_num (int_conv_f32 i32) 16777217) = Ok (B2SF (float_of_Z 24 128 16777216)) /\
  map_res B2SF (mixed_to_num (int_conv_f32 u128) (2 ^ 128 - 1)) = Ok (SpecFloat.S754_infinity false) /\ mixed_from_num (int_conv_f32 u8) (float_of_scaled 24 128 601 (-1)) = Ok 255.
Proof. repeat split; vm_compute; reflexivity. Qed.
