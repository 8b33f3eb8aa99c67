(** * Property C142: moving sums and integrator-comb filters.

    The programs [moving], [integrate], [comb], [cic] and the sums they should give are in SpecMoving. *)

From Coq Require Import ZArith Reals List Arith.
From Flocq Require Import Core.Core IEEE754.BinarySingleNaN.
From Verif Require Import Base FloatBase Traits IntImpl FixedPrim FixedImpl FloatImpl Complex Spec SpecMoving MovingProofs.
Import ListNotations.
Open Scope Z_scope.

(** A moving sum kept by adding the new and subtracting the oldest sample ([q]: the first window, [xs]: the samples after it).  Integers
    and fixed point, release build: however long it runs it is the sum of the window, reduced to the word; overflow on the way does
    not matter. *)
Theorem C142_moving_release : forall t O, word_arith Release t O -> 8 <= iwidth t -> forall xs q,
  moving O (cwrap t (csum q)) (combine xs (q ++ xs)) = Ok (cwrap t (csum (window (length xs) (length q) (q ++ xs)))).
Proof. exact moving_release. Qed.
Print Assumptions C142_moving_release.
(** Debug build: it returns exactly when every window, and every window with the sample to come, fits. *)
Theorem C142_moving_debug : forall t O, word_arith Debug t O -> 8 <= iwidth t -> forall xs q r,
  moving O (csum q) (combine xs (q ++ xs)) = Ok r <->
  (forall k, (k < length xs)%nat -> cvalid t (csum (window k (S (length q)) (q ++ xs))) /\ cvalid t (csum (window (S k) (length q) (q ++ xs)))) /\
  r = csum (window (length xs) (length q) (q ++ xs)).
Proof. exact moving_debug. Qed.
Print Assumptions C142_moving_debug.
(** Windows of three in i8, first 100, 100, -100.  100, 2, 3 arrive: 200 does not fit, debug stops, yet release ends with 105, which is
    right.  1, 2, 3 arrive: both give 6. *)
Example C142_moving_ex : let c x := mkC x 0 in let q := [c 100; c 100; c (-100)] in let xs := [c 100; c 2; c 3] in let ys := [c 1; c 2; c 3] in
  csum (window 3 3 (q ++ xs)) = c 105 /\ moving (int_ops Release i8) (csum q) (combine xs (q ++ xs)) = Ok (c 105) /\ moving (int_ops Debug i8) (csum q) (combine xs (q ++ xs)) = Panic POverflow /\ moving (int_ops Debug i8) (csum q) (combine ys (q ++ ys)) = Ok (c 6).
Proof. repeat split; vm_compute; reflexivity. Qed.

(** A filter of [n] integrators, every [r]th sample kept, [n] combs, in release: each output is the [n]-fold moving sum over [r]
    samples, reduced to the word, although the integrators keep overflowing. *)
Theorem C142_cic_release : forall t O, word_arith Release t O -> 8 <= iwidth t -> forall n r xs, (1 <= r)%nat -> (forall z, In z xs -> cvalid t z) ->
  let out part k := boxcars n r (fun i => nth i (map part xs) 0) (r - 1 + r * k) in
  cic O (mkC 0 0) n r xs = Ok (map (fun k => cwrap t (mkC (out re k) (out im k))) (seq 0 (length xs / r))).
Proof. exact cic_release. Qed.
Print Assumptions C142_cic_release.
(** It is exact when [r ^ n] times the largest input fits. *)
Theorem C142_cic_exact : forall t O, word_arith Release t O -> 8 <= iwidth t -> forall n r xs B, (1 <= r)%nat -> 0 <= B ->
  (forall z, In z xs -> Z.abs (re z) <= B /\ Z.abs (im z) <= B /\ cvalid t z) ->
  in_range t (- (Z.of_nat r ^ Z.of_nat n * B)) -> in_range t (Z.of_nat r ^ Z.of_nat n * B) ->
  let out part k := boxcars n r (fun i => nth i (map part xs) 0) (r - 1 + r * k) in
  cic O (mkC 0 0) n r xs = Ok (map (fun k => mkC (out re k) (out im k)) (seq 0 (length xs / r))).
Proof. exact cic_exact. Qed.
Print Assumptions C142_cic_exact.
(** Two stages, every second of sixteen samples 25 - 30i, FixedI8<U4>: the second integrator would reach 25 * 136, the output settles at
    4 times the input.  A debug build panics. *)
Example C142_cic_ex : let f := mkFty true 8 4 in let xs := repeat (mkC 25 (-30)) 16 in
  cic (fixed_ops Release f) (mkC 0 0) 2 2 xs = Ok (mkC 75 (-90) :: repeat (mkC 100 (-120)) 7) /\
  cic (fixed_ops Debug f) (mkC 0 0) 2 2 xs = Panic POverflow /\
  boxcars 2 2 (fun i => nth i (map re xs) 0) 1 = 75 /\ boxcars 2 2 (fun i => nth i (map re xs) 0) 15 = 100.
Proof. repeat split; vm_compute; reflexivity. Qed.

(** Floats: a moving sum moves away from the sum of the window by at most [2^(K - p)] per sample, where [2^K] bounds what occurs ([E]: the error at the start). *)
Theorem C142_moving_float : forall p e (Hp : Prec_gt_0 p) (He : Prec_lt_emax p e) K M, 3 - e <= K < e ->
  forall xs q (acc : Cartesian (binary_float p e)) E,
  let sum (part : Cartesian (binary_float p e) -> binary_float p e) l := fold_right Rplus 0%R (map (fun z => B2R (part z)) l) in
  (forall z, In z (q ++ xs) -> is_finite (re z) = true /\ is_finite (im z) = true /\ (Rabs (B2R (re z)) <= M)%R /\ (Rabs (B2R (im z)) <= M)%R) ->
  is_finite (re acc) = true -> is_finite (im acc) = true ->
  (Rabs (B2R (re acc) - sum re q) <= E)%R -> (Rabs (B2R (im acc) - sum im q) <= E)%R ->
  (INR (S (length q)) * M + E + INR (length xs) * bpow radix2 (K - p) <= bpow radix2 K)%R ->
  exists r, moving float_ops acc (combine xs (q ++ xs)) = Ok r /\ is_finite (re r) = true /\ is_finite (im r) = true /\
  let w := window (length xs) (length q) (q ++ xs) in
  (Rabs (B2R (re r) - sum re w) <= E + INR (length xs) * bpow radix2 (K - p))%R /\
  (Rabs (B2R (im r) - sum im w) <= E + INR (length xs) * bpow radix2 (K - p))%R.
Proof. exact @moving_float. Qed.
Print Assumptions C142_moving_float.
(** The error stays: after one sample 2^25 + 2^25 i the f32 moving sum over one sample is 0 for ever, although every sample is 1 + i. *)
Theorem C142_moving_drift : let one := float_of_Z 24 128 1 in let big := float_of_Z 24 128 (2 ^ 25) in let z := mkC one one in
  forall n, let xs := mkC big big :: repeat z (S n) in
  moving float_ops z (combine xs ([z] ++ xs)) = Ok (mkC (B754_zero false) (B754_zero false)) /\ window (length xs) 1 ([z] ++ xs) = [z].
Proof. exact moving_drift. Qed.
Print Assumptions C142_moving_drift.
(** The bound is met by a window of one sample: M = 2, K = 3, five samples. *)
Example C142_float_ex : let one := mkC (float_of_Z 24 128 1) (float_of_Z 24 128 2) in
  map_res (fun r => (B2SF (re r), B2SF (im r))) (moving float_ops one (combine (repeat one 5) ([one] ++ repeat one 5))) =
    Ok (B2SF (float_of_Z 24 128 1), B2SF (float_of_Z 24 128 2)) /\ 3 - 128 <= 3 < 128.
Proof. split; [vm_compute; reflexivity|split; [|reflexivity]]; discriminate. Qed.
