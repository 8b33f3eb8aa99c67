(** * C183: a slew-rate limiter reaches its target. *)

From Coq Require Import ZArith List Lia.
From Verif Require Import Base Traits IntImpl FixedPrim FixedImpl Spec SpecPeak SpecSlew SlewProofs.
Import ListNotations.
Open Scope Z_scope.

Theorem C183_fixed : forall m f, slews (fixed_ops m f) (fvalid f).
Proof. exact slew_fixed. Qed.
Print Assumptions C183_fixed.
Theorem C183_int : forall m t, slews (int_ops m t) (in_range t).
Proof. exact slew_int. Qed.
Print Assumptions C183_int.
(** The target is reached exactly when enough steps have been made. *)
Theorem C183_arrival : forall lo hi y x n, lo < 0 < hi -> 0 <= n -> (approach lo hi y x n = x <-> (y <= x -> x - y <= n * hi) /\ (x <= y -> y - x <= n * - lo)).
Proof. exact arrives. Qed.
Print Assumptions C183_arrival.
(** Unsigned fixed point: every step down panics in debug builds. *)
Theorem C183_unsigned : forall f, supported f = true -> fsigned f = false -> forall lo hi y x, 0 <= x < y -> y <= fmax f ->
  slew (fixed_ops Debug f) lo hi y [x] = Panic POverflow.
Proof. exact slew_unsigned. Qed.
Print Assumptions C183_unsigned.

Example C183_ex : let f := mkFty true 16 8 in fvalid f (-12800) /\ fvalid f 12800 /\ fvalid f (-12800 - 12800) /\ fvalid f (12800 - -12800) /\
  slew (fixed_ops Debug f) (-256) 512 1000 (repeat 5000 7) = Ok 4584 /\ slew (fixed_ops Debug f) (-256) 512 1000 (repeat 5000 8) = Ok 5000 /\
  slew (fixed_ops Debug f) (-256) 512 1000 (repeat (-700) 3) = Ok 232 /\ approach (-256) 512 1000 5000 7 = 4584.
Proof. cbv zeta. repeat split; try discriminate; vm_compute; reflexivity. Qed.
Example C183_unsigned_ex : slew (fixed_ops Debug (mkFty false 16 8)) 0 512 1000 [999] = Panic POverflow /\ slew (fixed_ops Release (mkFty false 16 8)) 0 512 1000 [999] = Ok 1512.
Proof. split; vm_compute; reflexivity. Qed.
