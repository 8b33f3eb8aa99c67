(** * Property C152: products of many complex numbers in any order of multiplication.

    A [tree] is an order of multiplication of its [leaves]; [multiply] runs the library's operator [*] along it.  [power_loop] multiplies by z again
    and again, [power_fast] squares and multiplies.  [cprod] and [gprod] are the exact products. *)

From Coq Require Import ZArith Reals List Lra Lia.
From Flocq Require Import Core.Core IEEE754.BinarySingleNaN.
From Verif Require Import Base FloatBase Literals Traits IntImpl FixedPrim FixedImpl FloatImpl Complex Spec SpecFilter SpecRotor SpecTree TreeProofs.
Import ListNotations.
Open Scope Z_scope.
Notation finite z := (is_finite (re z) = true /\ is_finite (im z) = true).
Notation zpow z n := (Nat.iter n (cmul z) (1, 0)%R).

(** Integers, release build: every order returns the exact product reduced to the word; debug build: what is returned is the exact product. *)
Theorem C152_order_int : forall t, In t int_types -> forall e, (forall z, In z (leaves e) -> cvalid t z) ->
  multiply (int_ops Release t) e = Ok (cwrap t (gprod (leaves e))) /\ (forall r, multiply (int_ops Debug t) e = Ok r -> r = gprod (leaves e) /\ cvalid t r).
Proof. exact tree_int. Qed.
Print Assumptions C152_order_int.
(** the debug build returns for one order and panics for another, because a product on the way does not fit; release returns the same *)
Example C152_int_case : let a := Leaf (mkC 16 3) in let b := Leaf (mkC 8 (-1)) in let o := Leaf (mkC 0 0) in
  multiply (int_ops Debug i8) (Node a (Node b o)) = Ok (mkC 0 0) /\ multiply (int_ops Debug i8) (Node (Node a b) o) = Panic POverflow /\
  multiply (int_ops Release i8) (Node (Node a b) o) = Ok (mkC 0 0) /\ (forall z, In z (leaves (Node (Node a b) o)) -> cvalid i8 z).
Proof.
  split; [reflexivity|]. split; [reflexivity|]. split; [reflexivity|]. cbn. unfold cvalid, in_range. intros z [<-|[<-|[<-|[]]]]; cbn; lia.
Qed.

(** Fixed point: the product of n numbers of the closed unit disc is off by at most q^(n-1) - 1 with q = 1 + 2.24 ulp, whatever the order. *)
Theorem C152_order_fixed : forall m f, supported f = true -> fsigned f = true -> forall e, let q := (1 + 224 / 100 * ulp f)%R in let n := length (leaves e) in
  (forall z, In z (leaves e) -> (cabs (cval f z) <= 1)%R) -> (q ^ (n - 1) <= fval f (fmax f))%R ->
  exists r, multiply (fixed_ops m f) e = Ok r /\ (cabs (csub (cval f r) (cprod (map (cval f) (leaves e)))) <= q ^ (n - 1) - 1)%R.
Proof. exact tree_fixed. Qed.
Print Assumptions C152_order_fixed.
(** Powers, where the library's own [powi] panics or loses the angle (C67). *)
Theorem C152_powers_fixed : forall m f, supported f = true -> fsigned f = true -> forall z n, let q := (1 + 224 / 100 * ulp f)%R in
  (cabs (cval f z) <= 1)%R -> (q ^ (Pos.to_nat n - 1) <= fval f (fmax f))%R ->
  exists r s, power_loop (fixed_ops m f) z (Pos.to_nat n - 1) z = Ok r /\ power_fast (fixed_ops m f) z n = Ok s /\
  (cabs (csub (cval f r) (zpow (cval f z) (Pos.to_nat n))) <= q ^ (Pos.to_nat n - 1) - 1)%R /\ (cabs (csub (cval f s) (zpow (cval f z) (Pos.to_nat n))) <= q ^ (Pos.to_nat n - 1) - 1)%R.
Proof. exact powers_fixed. Qed.
Print Assumptions C152_powers_fixed.
(** (0.6 + 0.8i)^9 in I16F16: the two orders differ in the last bits *)
Example C152_fixed_case : let f := mkFty true 32 16 in let z := mkC 39321 52428 in
  power_loop (fixed_ops Debug f) z 8 z = Ok (mkC (-30936) 57767) /\ power_fast (fixed_ops Debug f) z 9 = Ok (mkC (-30935) 57762) /\
  (cabs (cval f z) <= 1)%R /\ ((1 + 224 / 100 * ulp f) ^ 8 <= fval f (fmax f))%R.
Proof.
  split; [vm_compute; reflexivity|]. split; [vm_compute; reflexivity|]. split.
  - unfold cabs, cval, fval. cbn. rewrite <- sqrt_1. apply sqrt_le_1_alt. lra.
  - unfold fval, ulp. cbn. lra.
Qed.

(** Floats: the relative error is at most q^(n-1) - 1 with q = 1 + 4 u, as long as every part of the product stays well inside the range. *)
Theorem C152_order_f32 : forall e : tree (Cartesian f32), let q := (1 + 4 * bpow radix2 (-24))%R in let n := length (leaves e) in let exact s := cprod (map cvalf (leaves s)) in
  (forall z, In z (leaves e) -> finite z) -> (forall s, In s (parts e) -> bpow radix2 (-57) <= cabs (exact s) <= bpow radix2 59)%R -> (q ^ (n - 1) <= 3 / 2)%R ->
  exists r, multiply float_ops e = Ok r /\ finite r /\ (cabs (csub (cvalf r) (exact e)) <= (q ^ (n - 1) - 1) * cabs (exact e))%R.
Proof. exact (tree_float (prec := 24) (emax := 128) ltac:(lia) ltac:(lia)). Qed.
Print Assumptions C152_order_f32.
Theorem C152_order_f64 : forall e : tree (Cartesian f64), let q := (1 + 4 * bpow radix2 (-53))%R in let n := length (leaves e) in let exact s := cprod (map cvalf (leaves s)) in
  (forall z, In z (leaves e) -> finite z) -> (forall s, In s (parts e) -> bpow radix2 (-505) <= cabs (exact s) <= bpow radix2 507)%R -> (q ^ (n - 1) <= 3 / 2)%R ->
  exists r, multiply float_ops e = Ok r /\ finite r /\ (cabs (csub (cvalf r) (exact e)) <= (q ^ (n - 1) - 1) * cabs (exact e))%R.
Proof. exact (tree_float (prec := 53) (emax := 1024) ltac:(lia) ltac:(lia)). Qed.
Print Assumptions C152_order_f64.
Theorem C152_powers_f32 : forall (z : Cartesian f32) n, let q := (1 + 4 * bpow radix2 (-24))%R in let N := Pos.to_nat n in finite z ->
  (bpow radix2 (-57) <= cabs (cvalf z) ^ N <= bpow radix2 59)%R -> (q ^ (N - 1) <= 3 / 2)%R ->
  exists r s, power_loop float_ops z (N - 1) z = Ok r /\ power_fast float_ops z n = Ok s /\ finite r /\ finite s /\
  (cabs (csub (cvalf r) (zpow (cvalf z) N)) <= (q ^ (N - 1) - 1) * cabs (cvalf z) ^ N)%R /\ (cabs (csub (cvalf s) (zpow (cvalf z) N)) <= (q ^ (N - 1) - 1) * cabs (cvalf z) ^ N)%R.
Proof. exact (powers_float (prec := 24) (emax := 128) ltac:(lia) ltac:(lia)). Qed.
Print Assumptions C152_powers_f32.
Theorem C152_powers_f64 : forall (z : Cartesian f64) n, let q := (1 + 4 * bpow radix2 (-53))%R in let N := Pos.to_nat n in finite z ->
  (bpow radix2 (-505) <= cabs (cvalf z) ^ N <= bpow radix2 507)%R -> (q ^ (N - 1) <= 3 / 2)%R ->
  exists r s, power_loop float_ops z (N - 1) z = Ok r /\ power_fast float_ops z n = Ok s /\ finite r /\ finite s /\
  (cabs (csub (cvalf r) (zpow (cvalf z) N)) <= (q ^ (N - 1) - 1) * cabs (cvalf z) ^ N)%R /\ (cabs (csub (cvalf s) (zpow (cvalf z) N)) <= (q ^ (N - 1) - 1) * cabs (cvalf z) ^ N)%R.
Proof. exact (powers_float (prec := 53) (emax := 1024) ltac:(lia) ltac:(lia)). Qed.
Print Assumptions C152_powers_f64.
(** (3 + 4i)^13 has magnitude 5^13, which lies inside the range asked for; the exact parts do not fit into 24 bits *)
Example C152_f32_case : let z := mkC (float_of_Z 24 128 3) (float_of_Z 24 128 4) in
  (match power_loop float_ops z 12 z with Ok r => (B2SF (re r), B2SF (im r)) | _ => (SpecFloat.S754_nan, SpecFloat.S754_nan) end,
   match power_fast float_ops z 13 with Ok r => (B2SF (re r), B2SF (im r)) | _ => (SpecFloat.S754_nan, SpecFloat.S754_nan) end) = ((SpecFloat.S754_finite false 16631989 6, SpecFloat.S754_finite true 9336746 6), (SpecFloat.S754_finite false 16631989 6, SpecFloat.S754_finite true 9336746 6)) /\
  (bpow radix2 (-57) <= 5 ^ 13 <= bpow radix2 59)%R /\ ((1 + 4 * bpow radix2 (-24)) ^ 12 <= 3 / 2)%R.
Proof. split; [vm_compute; reflexivity|]. cbn. lra. Qed.
