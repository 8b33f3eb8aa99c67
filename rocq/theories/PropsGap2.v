(** * Properties C33, C66 and C70 completed: products with head room, zero and the embedding of the reals on floats. *)

From Coq Require Import ZArith Reals List Lra.
From Flocq Require Import Core.Core IEEE754.BinarySingleNaN.
From Verif Require Import Base FloatBase Traits Trig IntImpl FixedPrim FixedImpl FloatImpl Complex Spec SpecAngle SpecPolar SpecFilter PolarProofs GapProofs2.
Import ListNotations.
Open Scope Z_scope.

(** C33: a product whose magnitude leaves 2.24 steps of room is always returned, in either profile. *)
Theorem C33_mul_fixed_room : forall m f, supported f = true -> fsigned f = true -> forall z w, cvalid (fity f) z -> cvalid (fity f) w ->
  (cabs (cval f z) * cabs (cval f w) + 224 / 100 * ulp f <= fval f (fmax f))%R ->
  exists r, cartesian_mul (fixed_ops m f) z w = Ok r /\
  (Rabs (fval f (re r) - (fval f (re z) * fval f (re w) - fval f (im z) * fval f (im w))) < ulp f)%R /\
  (-2 * ulp f < fval f (im r) - (fval f (re z) * fval f (im w) + fval f (im z) * fval f (re w)) <= 0)%R.
Proof. exact mul_room. Qed.
Print Assumptions C33_mul_fixed_room.
(** FixedI32<U16>: (3 + 4i)(4 + 3i) = 25i *)
Example C33_room_ex : let f := mkFty true 32 16 in let z := mkC (3 * 2 ^ 16) (4 * 2 ^ 16) in let w := mkC (4 * 2 ^ 16) (3 * 2 ^ 16) in
  (cabs (cval f z) * cabs (cval f w) + 224 / 100 * ulp f <= fval f (fmax f))%R /\ cartesian_mul (fixed_ops Release f) z w = Ok (mkC 0 (25 * 2 ^ 16)).
Proof.
  cbv zeta. split; [|vm_compute; reflexivity]. unfold cval, cabs, fval, ulp. cbn [re im fst snd ffrac]. change (bpow radix2 (- (16))) with (/ IZR 65536)%R.
  change (3 * 2 ^ 16) with 196608. change (4 * 2 ^ 16) with 262144. change (fmax (mkFty true 32 16)) with 2147483647.
  replace (IZR 196608 * / IZR 65536 * (IZR 196608 * / IZR 65536) + IZR 262144 * / IZR 65536 * (IZR 262144 * / IZR 65536))%R with (5 * 5)%R by lra.
  replace (IZR 262144 * / IZR 65536 * (IZR 262144 * / IZR 65536) + IZR 196608 * / IZR 65536 * (IZR 196608 * / IZR 65536))%R with (5 * 5)%R by lra.
  rewrite sqrt_square by lra. lra.
Qed.

(** C66: with head room, the product with a polar number always returns, in either profile, and is accurate. *)
Theorem C66_mul_polar_fixed_room : forall m f, supported f = true -> fsigned f = true -> ffrac f <= fwidth f - 4 ->
  forall p, mixed_pi (fixed_pi m f) = Ok p -> forall Sn d, accurate_sincos f (fval f p) d Sn ->
  forall z q, cvalid (fity f) z -> fvalid f (ang q) ->
  let x := fval f (re z) in let y := fval f (im z) in let g := fval f (mag q) in let a := fval f (ang q) in
  let C := (Rabs g * (d + slip f a) + ulp f)%R in
  (Rabs g * (1 + d) <= fval f (fmax f) -> cabs (x, y) * (Rabs g + 2 * C) + 224 / 100 * ulp f <= fval f (fmax f) ->
  exists r, returns (fun fuel => cartesian_mul_polar (fixed_ops m f) (fixed_wrap_phase m f fuel) Sn z q) r /\
  Rabs (fval f (re r) - (x * (g * Rtrigo_def.cos a) - y * (g * Rtrigo_def.sin a))) <= (Rabs x + Rabs y) * C + 2 * ulp f /\
  Rabs (fval f (im r) - (x * (g * Rtrigo_def.sin a) + y * (g * Rtrigo_def.cos a))) <= (Rabs x + Rabs y) * C + 2 * ulp f)%R.
Proof. exact mul_polar_room. Qed.
Print Assumptions C66_mul_polar_fixed_room.
(** FixedI32<U16>, (3 + 4i) * (2, 0), a routine within 1/1000 *)
Example C66_room_ex : let f := mkFty true 32 16 in let d := (1 / 1000)%R in let g := fval f (2 * 2 ^ 16) in let C := (Rabs g * (d + slip f (fval f 0)) + ulp f)%R in
  (Rabs g * (1 + d) <= fval f (fmax f) /\ cabs (fval f (3 * 2 ^ 16), fval f (4 * 2 ^ 16)) * (Rabs g + 2 * C) + 224 / 100 * ulp f <= fval f (fmax f))%R.
Proof.
  cbv zeta. unfold cabs, slip, fval, ulp. cbn [re im fst snd ffrac]. change (bpow radix2 (- (16))) with (/ IZR 65536)%R.
  change (3 * 2 ^ 16) with 196608. change (4 * 2 ^ 16) with 262144. change (2 * 2 ^ 16) with 131072. change (fmax (mkFty true 32 16)) with 2147483647.
  replace (IZR 196608 * / IZR 65536 * (IZR 196608 * / IZR 65536) + IZR 262144 * / IZR 65536 * (IZR 262144 * / IZR 65536))%R with (5 * 5)%R by lra.
  rewrite sqrt_square by lra. rewrite Rmult_0_l, Rabs_R0, (Rabs_pos_eq (IZR 131072 * _)) by lra. lra.
Qed.

(** C70 on floats: z - z is zero, z * 0 and 0 * z are zero up to the sign of their parts. *)
Theorem C70_null_float : forall p e {Hp : Prec_gt_0 p} {He : Prec_lt_emax p e} (z o : Cartesian (binary_float p e)),
  cartesian_zero float_zero = Ok o -> is_finite (re z) = true -> is_finite (im z) = true ->
  cartesian_sub float_ops z z = Ok o /\
  exists a b, cartesian_mul float_ops z o = Ok a /\ cartesian_mul float_ops o z = Ok b /\
  (same_float (re a) (re o) /\ same_float (im a) (im o)) /\ (same_float (re b) (re o) /\ same_float (im b) (im o)).
Proof. exact @float_null. Qed.
Print Assumptions C70_null_float.
(** x -> x + 0i commutes with + and - on all floats, and with * on finite ones up to the sign of the zero imaginary part. *)
Theorem C70_embed_float : forall p e {Hp : Prec_gt_0 p} {He : Prec_lt_emax p e} (x y : binary_float p e) cx cy,
  cartesian_mixed_to_complex float_zero x = Ok cx -> cartesian_mixed_to_complex float_zero y = Ok cy ->
  cartesian_add float_ops cx cy = cartesian_mixed_to_complex float_zero (Bplus mode_NE x y) /\
  cartesian_sub float_ops cx cy = cartesian_mixed_to_complex float_zero (Bminus mode_NE x y) /\
  (is_finite x = true -> is_finite y = true ->
   exists a b, cartesian_mul float_ops cx cy = Ok a /\ cartesian_mixed_to_complex float_zero (Bmult mode_NE x y) = Ok b /\ re a = re b /\ same_float (im a) (im b)).
Proof. exact @embed_float. Qed.
Print Assumptions C70_embed_float.
(** the sign of the zero does differ: (-1 + 0i)(-1 + 0i) = 1 - 0i *)
Example C70_embed_ex : let m1 := float_of_Z 24 128 (-1) in
  map_res (fun r => (B2SF (re r), B2SF (im r))) (cartesian_mul float_ops (mkC m1 (B754_zero false)) (mkC m1 (B754_zero false)))
  = Ok (SpecFloat.S754_finite false 8388608 (-23), SpecFloat.S754_zero true).
Proof. vm_compute. reflexivity. Qed.
