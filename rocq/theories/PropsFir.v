(** * Properties C146 and C147: filters with finitely many taps.

    The programs [dot], [fir], [add_all] and the convolution are in SpecFir. *)

From Coq Require Import ZArith List Arith Lia.
From Verif Require Import Base Traits IntImpl FixedPrim FixedImpl Complex Spec SpecMoving SpecFir FirProofs.
Import ListNotations.
Open Scope Z_scope.

(** C146, integers.  Release build: the filter computes the convolution, reduced to the word. *)
Theorem C146_release : forall t, In t int_types -> forall hs xs, fir (int_ops Release t) (mkC 0 0) hs [] xs = Ok (map (cwrap t) (convolution hs xs)).
Proof. exact fir_release_all. Qed.
Print Assumptions C146_release.
(** It is exact when the results fit, whatever overflows on the way. *)
Theorem C146_exact : forall t, In t int_types -> forall hs xs, (forall z, In z (convolution hs xs) -> cvalid t z) ->
  fir (int_ops Release t) (mkC 0 0) hs [] xs = Ok (convolution hs xs).
Proof. exact fir_exact_all. Qed.
Print Assumptions C146_exact.
(** Debug build: what is returned is the convolution. *)
Theorem C146_debug : forall t, In t int_types -> forall hs xs ys, fir (int_ops Debug t) (mkC 0 0) hs [] xs = Ok ys -> ys = convolution hs xs.
Proof. exact fir_debug_all. Qed.
Print Assumptions C146_debug.
(** The taps 100 + i, -100 on i8: the products leave the word, the outputs do not. *)
Example C146_ex : let hs := [mkC 100 1; mkC (-100) 0] in let xs := [mkC 1 0; mkC 2 0; mkC 3 0] in
  convolution hs xs = [mkC 100 1; mkC 100 2; mkC 100 3] /\ fir (int_ops Release i8) (mkC 0 0) hs [] xs = Ok (convolution hs xs) /\
  fir (int_ops Debug i8) (mkC 0 0) hs [] xs = Panic POverflow /\ fir (int_ops Debug i16) (mkC 0 0) hs [] xs = Ok (convolution hs xs).
Proof. repeat split; vm_compute; reflexivity. Qed.

(** Two filters in a row, release: the order does not matter, and one filter does the same, whose taps are one filter's answer to the
    other's taps. *)
Theorem C146_order : forall t, In t int_types -> let F := fir (int_ops Release t) (mkC 0 0) in forall g h xs,
  (ys <- F g [] xs ;; F h [] ys) = (ys <- F h [] xs ;; F g [] ys) /\
  (ys <- F g [] xs ;; F h [] ys) = (gh <- F g [] (h ++ repeat (mkC 0 0) (length g - 1)) ;; F gh [] xs).
Proof. exact fir_order_all. Qed.
Print Assumptions C146_order.
(** The answer to a sum of signals is the sum of the answers. *)
Theorem C146_superposition : forall t, In t int_types -> let F := fir (int_ops Release t) (mkC 0 0) in let add := add_all (int_ops Release t) in
  forall hs xs ys, length xs = length ys -> (s <- add xs ys ;; F hs [] s) = (a <- F hs [] xs ;; b <- F hs [] ys ;; add a b).
Proof. exact fir_super_all. Qed.
Print Assumptions C146_superposition.
Example C146_order_ex : let F := fir (int_ops Release i8) (mkC 0 0) in let g := [mkC 90 3; mkC (-7) 50] in let h := [mkC 2 (-80); mkC 33 0] in let xs := [mkC 1 1; mkC 100 (-9); mkC 5 5] in
  (ys <- F g [] xs ;; F h [] ys) = Ok [mkC (-66) (-118); mkC 91 55; mkC 60 45] /\ F g [] (h ++ [mkC 0 0]) = Ok [mkC (-92) (-26); mkC 44 (-9); mkC 25 114] /\
  F [mkC (-92) (-26); mkC 44 (-9); mkC 25 114] [] xs = Ok [mkC (-66) (-118); mkC 91 55; mkC 60 45].
Proof. repeat split; vm_compute; reflexivity. Qed.

(** The answer to a single one is the taps, exactly, in every build; integers and fixed point. *)
Theorem C146_impulse_int : forall m t, In t int_types -> forall hs n, (forall h, In h hs -> cvalid t h) ->
  fir (int_ops m t) (mkC 0 0) hs [] (mkC 1 0 :: repeat (mkC 0 0) n) = Ok (map (fun i => nth i hs (mkC 0 0)) (seq 0 (S n))).
Proof. exact impulse_int. Qed.
Print Assumptions C146_impulse_int.
Theorem C146_impulse_fixed : forall m f, supported f = true -> forall hs n, (forall h, In h hs -> cvalid (fity f) h) ->
  fir (fixed_ops m f) (mkC 0 0) hs [] (mkC (2 ^ ffrac f) 0 :: repeat (mkC 0 0) n) = Ok (map (fun i => nth i hs (mkC 0 0)) (seq 0 (S n))).
Proof. exact impulse_fixed. Qed.
Print Assumptions C146_impulse_fixed.
(** The largest and the smallest FixedI8<U4> as taps. *)
Example C146_impulse_ex : let f := mkFty true 8 4 in let hs := [mkC 127 (-128); mkC (-1) 3] in supported f = true /\ (forall h, In h hs -> cvalid (fity f) h) /\
  fir (fixed_ops Debug f) (mkC 0 0) hs [] [mkC 16 0; mkC 0 0; mkC 0 0] = Ok [mkC 127 (-128); mkC (-1) 3; mkC 0 0].
Proof. split; [reflexivity|]. split; [|vm_compute; reflexivity]. intros h [<-|[<-|[]]]; repeat split; vm_compute; discriminate. Qed.

(** C147, fixed point.  The order of two filters does matter, and sums are not kept. *)
Theorem C147_order_refuted : exists f g h xs a b, supported f = true /\ let F := fir (fixed_ops Debug f) (mkC 0 0) in
  (ys <- F g [] xs ;; F h [] ys) = Ok a /\ (ys <- F h [] xs ;; F g [] ys) = Ok b /\ a <> b.
Proof.
  exists (mkFty true 16 8), [mkC 128 0], [mkC 512 0], [mkC 1 0], [mkC 0 0], [mkC 1 0].
  split; [reflexivity|]. split; [vm_compute; reflexivity|]. split; [vm_compute; reflexivity|discriminate].
Qed.
Print Assumptions C147_order_refuted.
Theorem C147_superposition_refuted : exists f hs xs ys a b, supported f = true /\ let F := fir (fixed_ops Debug f) (mkC 0 0) in let add := add_all (fixed_ops Debug f) in
  (s <- add xs ys ;; F hs [] s) = Ok a /\ (a <- F hs [] xs ;; b <- F hs [] ys ;; add a b) = Ok b /\ a <> b.
Proof.
  exists (mkFty true 16 8), [mkC 128 0], [mkC 1 0], [mkC 1 0], [mkC 1 0], [mkC 0 0].
  split; [reflexivity|]. split; [vm_compute; reflexivity|]. split; [vm_compute; reflexivity|discriminate].
Qed.
Print Assumptions C147_superposition_refuted.
(** What holds: one ulp per tap around the convolution in the real part, two ulps below it in the imaginary part ([q] = 2^frac: words
    are multiples of 1/[q], products of words of 1/[q]^2). *)
Theorem C147_one_partial : forall f, supported f = true -> forall hs xs ys, fir (fixed_ops Debug f) (mkC 0 0) hs [] xs = Ok ys ->
  let q := 2 ^ ffrac f in let n := Z.of_nat (length hs) in length ys = length xs /\
  (forall i, (i < length xs)%nat -> let y := nth i ys (mkC 0 0) in let s := convolved hs xs i in
     Z.abs (re y * q - re s) <= n * q /\ - 2 * n * q <= im y * q - im s <= 0) /\
  fir (fixed_ops Release f) (mkC 0 0) hs [] xs = Ok ys.
Proof. exact fir_fixed_all. Qed.
Print Assumptions C147_one_partial.
(** The filter returns if samples are at most [B] and the sum of the taps leaves room. *)
Theorem C147_room_partial : forall f, supported f = true -> fsigned f = true -> forall B hs, 0 <= B ->
  let q := 2 ^ ffrac f in tap_sum hs * B + 2 * Z.of_nat (length hs) * q <= (2 ^ (fwidth f - 1) - 1) * q ->
  forall xs, (forall x, In x xs -> Z.abs (re x) <= B /\ Z.abs (im x) <= B) -> exists ys, fir (fixed_ops Debug f) (mkC 0 0) hs [] xs = Ok ys.
Proof. exact fir_headroom. Qed.
Print Assumptions C147_room_partial.
(** Two filters: two ulps for each tap of the second, and for each tap of the first times the sum of the taps of the second. *)
Theorem C147_two_partial : forall f, supported f = true -> forall g h xs ys zs, fir (fixed_ops Debug f) (mkC 0 0) g [] xs = Ok ys -> fir (fixed_ops Debug f) (mkC 0 0) h [] ys = Ok zs ->
  let q := 2 ^ ffrac f in let n (l : list (Cartesian Z)) := Z.of_nat (length l) in length zs = length xs /\ forall i, (i < length xs)%nat ->
  let z := nth i zs (mkC 0 0) in let s := convolved h (convolution g xs) i in let E := (2 * n h * q + 2 * n g * tap_sum h) * q in
  Z.abs (re z * (q * q) - re s) <= E /\ Z.abs (im z * (q * q) - im s) <= E.
Proof. exact two_fixed. Qed.
Print Assumptions C147_two_partial.
(** So the two orders differ by this much at most. *)
Theorem C147_orders_partial : forall f, supported f = true -> forall g h xs ys zs ys' zs',
  fir (fixed_ops Debug f) (mkC 0 0) g [] xs = Ok ys -> fir (fixed_ops Debug f) (mkC 0 0) h [] ys = Ok zs ->
  fir (fixed_ops Debug f) (mkC 0 0) h [] xs = Ok ys' -> fir (fixed_ops Debug f) (mkC 0 0) g [] ys' = Ok zs' ->
  let q := 2 ^ ffrac f in let n (l : list (Cartesian Z)) := Z.of_nat (length l) in forall i, (i < length xs)%nat ->
  let z := nth i zs (mkC 0 0) in let z' := nth i zs' (mkC 0 0) in let E := 2 * (n g + n h) * q + 2 * n g * tap_sum h + 2 * n h * tap_sum g in
  Z.abs (re z - re z') * q <= E /\ Z.abs (im z - im z') * q <= E.
Proof. exact two_orders. Qed.
Print Assumptions C147_orders_partial.
(** Taps 0.5, 0.25i and 2 - i on FixedI16<U8>, samples within 4: there is room, and the orders differ by up to two ulps. *)
Example C147_ex : let f := mkFty true 16 8 in let F := fir (fixed_ops Debug f) (mkC 0 0) in let g := [mkC 128 0; mkC 0 64] in let h := [mkC 512 (-256)] in let xs := [mkC 300 (-1000); mkC 7 5; mkC 1 (-1)] in
  tap_sum g = 192 /\ tap_sum g * 1024 + 2 * 2 * 256 <= (2 ^ 15 - 1) * 256 /\ tap_sum h * 1024 + 2 * 1 * 256 <= (2 ^ 15 - 1) * 256 /\
  F g [] xs = Ok [mkC 150 (-500); mkC 253 77; mkC (-1) 0] /\
  (ys <- F g [] xs ;; F h [] ys) = Ok [mkC (-200) (-1150); mkC 583 (-99); mkC (-2) 1] /\
  (ys <- F h [] xs ;; F g [] ys) = Ok [mkC (-200) (-1150); mkC 584 (-99); mkC 0 2].
Proof. repeat split; vm_compute; congruence. Qed.
