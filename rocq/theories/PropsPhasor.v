(** * Property C143: products of many polar numbers. *)

From Coq Require Import ZArith Reals List.
From Flocq Require Import Core.Core IEEE754.BinarySingleNaN.
From Verif Require Import Base FloatBase Traits IntImpl FixedPrim FixedImpl FloatImpl Complex Spec PhasorProofs.
Import ListNotations.
Open Scope Z_scope.

(** [for w in factors { z = z * w; }] in fixed point, every factor of magnitude at most one.  The magnitude of the result is within one
    step of the format per factor of the product of the magnitudes, and the angle is the sum of the angles reduced to the word, unless the
    magnitude has vanished, when the result is (0, 0).  What is missing from the claim that the result points in the direction of the
    product: the word is not a multiple of a turn, so a sum that leaves the word changes direction; see below. *)
Theorem C143_product_partial : forall m f, supported f = true -> forall ws z, fvalid f (mag z) -> Z.abs (mag z) <= fmax f -> fvalid f (ang z) ->
  Forall (fun w => fvalid f (mag w) /\ Z.abs (mag w) <= fone f) ws ->
  (m = Debug -> forall k, fvalid f (ang z + sumZ (map ang (firstn k ws)))) ->
  exists r, run (polar_mul (fixed_ops m f)) z ws = Ok r /\
  (Rabs (fval f (mag r) - fval f (mag z) * fold_right Rmult 1 (map (fun w => fval f (mag w)) ws)) <= INR (length ws) * ulp f)%R /\
  (r = mkP 0 0 \/ ang r = wrap (fity f) (ang z + sumZ (map ang ws))).
Proof. exact chain. Qed.
Print Assumptions C143_product_partial.
(** FixedI16<U8>: 1.5 at angle 0.25 times twenty factors 7/8 at angle 1/8.  The magnitude is 1.5 (7/8)^20 = 26.6/256, the result has 23/256; the angle is exactly 2.75. *)
Example C143_product_ex : let f := mkFty true 16 8 in run (polar_mul (fixed_ops Debug f)) (mkP 384 64) (repeat (mkP 224 32) 20) = Ok (mkP 23 704).
Proof. vm_compute. reflexivity. Qed.

(** Factors of magnitude exactly one keep the magnitude to the last bit.  Release build: the angle is the sum reduced to the word. *)
Theorem C143_unit_release : forall f, supported f = true -> forall ws z, fvalid f (mag z) -> mag z <> 0 -> fvalid f (ang z) -> Forall (fun w => mag w = fone f) ws ->
  run (polar_mul (fixed_ops Release f)) z ws = Ok (mkP (mag z) (wrap (fity f) (ang z + sumZ (map ang ws)))).
Proof. exact unit_release. Qed.
Print Assumptions C143_unit_release.
(** Debug build: it returns exactly when no sum on the way leaves the word, and then the angle is the sum. *)
Theorem C143_unit_debug : forall f, supported f = true -> forall ws z r, fvalid f (mag z) -> mag z <> 0 -> fvalid f (ang z) -> Forall (fun w => mag w = fone f) ws ->
  run (polar_mul (fixed_ops Debug f)) z ws = Ok r <-> (forall k, fvalid f (ang z + sumZ (map ang (firstn k ws)))) /\ r = mkP (mag z) (ang z + sumZ (map ang ws)).
Proof. exact unit_debug. Qed.
Print Assumptions C143_unit_debug.
Example C143_unit_ex : let f := mkFty true 16 8 in let w := mkP 256 (-800) in
  run (polar_mul (fixed_ops Debug f)) (mkP 5 100) (repeat w 3) = Ok (mkP 5 (-2300)) /\
  run (polar_mul (fixed_ops Release f)) (mkP 5 100) (repeat w 50) = Ok (mkP 5 25636) /\ run (polar_mul (fixed_ops Debug f)) (mkP 5 100) (repeat w 50) = Panic POverflow.
Proof. repeat split; vm_compute; reflexivity. Qed.

(** It does not point in the right direction: in every signed format with three integer bits the product of three factors of magnitude one
    and angle 3 has, in release, angle -7 instead of 9, on the other side of the imaginary axis; debug panics. *)
Theorem C143_direction_refuted : forall f, supported f = true -> fsigned f = true -> ffrac f = fwidth f - 4 ->
  let w := mkP (fone f) (3 * fone f) in exists r, run (polar_mul (fixed_ops Release f)) (mkP (fone f) 0) [w; w; w] = Ok r /\
  fval f (ang r) = (-7)%R /\ (cos (3 * fval f (ang w)) < 0 < cos (fval f (ang r)))%R /\
  run (polar_mul (fixed_ops Debug f)) (mkP (fone f) 0) [w; w; w] = Panic POverflow.
Proof. exact wrong_way. Qed.
Print Assumptions C143_direction_refuted.
Example C143_direction_ex : let f := mkFty true 32 28 in supported f = true /\ ffrac f = fwidth f - 4 /\
  let w := mkP (2 ^ 28) (3 * 2 ^ 28) in run (polar_mul (fixed_ops Release f)) (mkP (2 ^ 28) 0) [w; w; w] = Ok (mkP (2 ^ 28) (-7 * 2 ^ 28)).
Proof. repeat split; vm_compute; reflexivity. Qed.

(** The remedy: reduce the angle with [mixed_wrap_phase] after every product.  Then however many factors there are nothing overflows and
    the angle is exactly the sum of the angles less a whole number of turns of twice the stored pi. *)
Theorem C143_wrapped : forall m f, supported f = true -> fsigned f = true -> (m = Release \/ ffrac f <= fwidth f - 4) ->
  exists p, mixed_pi (fixed_pi m f) = Ok p /\
  forall ws z, fvalid f (mag z) -> mag z <> 0 -> (- fval f p <= fval f (ang z) < fval f p)%R ->
  Forall (fun w => mag w = fone f /\ (fval f p + Rabs (fval f (ang w)) <= fval f (fmax f))%R) ws ->
  exists r, returns (fun fuel => run (fun p w => q <- polar_mul (fixed_ops m f) p w ;; a <- mixed_wrap_phase (fixed_wrap_phase m f fuel) (ang q) ;; Ok (mkP (mag q) a)) z ws) r /\
  mag r = mag z /\ (- fval f p <= fval f (ang r) < fval f p)%R /\
  exists k, (fval f (ang z) + fold_right Rplus 0 (map (fun w => fval f (ang w)) ws) = fval f (ang r) + IZR k * (2 * fval f p))%R.
Proof. exact unit_wrap_loop. Qed.
Print Assumptions C143_wrapped.
(** The same three factors, FixedI32<U28>: 9 less one turn (pi is stored as 843314857 / 2^28). *)
Example C143_wrapped_ex : let f := mkFty true 32 28 in let w := mkP (2 ^ 28) (3 * 2 ^ 28) in
  run (fun p w => q <- polar_mul (fixed_ops Debug f) p w ;; a <- mixed_wrap_phase (fixed_wrap_phase Debug f 5) (ang q) ;; Ok (mkP (mag q) a)) (mkP (2 ^ 28) 0) [w; w; w]
  = Ok (mkP (2 ^ 28) (9 * 2 ^ 28 - 2 * 843314857)).
Proof. vm_compute. reflexivity. Qed.

(** Floats, factors of magnitude one: the magnitude is kept to the last bit; the angle is off by at most half a unit in the last place
    of [2^K] per factor, where [2^K] bounds the sums.  The angle grows with the number of factors, and the error with it. *)
Theorem C143_unit_float : forall p e (Hp : Prec_gt_0 p) (He : Prec_lt_emax p e) K, 3 - e <= K < e -> forall ws (z : Polar (binary_float p e)) S,
  is_finite (mag z) = true -> B2R (mag z) <> 0%R -> is_finite (ang z) = true ->
  Forall (fun w : Polar (binary_float p e) => is_finite (mag w) = true /\ B2R (mag w) = 1%R /\ is_finite (ang w) = true) ws ->
  (Rabs (B2R (ang z)) <= S)%R ->
  (S + fold_right Rplus 0 (map (fun w : Polar (binary_float p e) => Rabs (B2R (ang w))) ws) + INR (length ws) * (/ 2 * bpow radix2 (K - p)) <= bpow radix2 K)%R ->
  exists r, run (polar_mul float_ops) z ws = Ok r /\ mag r = mag z /\ is_finite (ang r) = true /\
  (Rabs (B2R (ang r) - (B2R (ang z) + fold_right Rplus 0 (map (fun w : Polar (binary_float p e) => B2R (ang w)) ws))) <= INR (length ws) * (/ 2 * bpow radix2 (K - p)))%R.
Proof. exact @unit_float. Qed.
Print Assumptions C143_unit_float.
(** Factors of any magnitude: the relative error of the magnitude is at most [2^(1-p)] per factor as long as no product on the way leaves
    the normal range. *)
Theorem C143_product_float : forall p e (Hp : Prec_gt_0 p) (He : Prec_lt_emax p e) K, 3 - e <= K < e -> forall ws (z : Polar (binary_float p e)) S,
  (INR (length ws) * bpow radix2 (- p) <= / 4)%R -> is_finite (mag z) = true -> is_finite (ang z) = true ->
  Forall (fun w : Polar (binary_float p e) => is_finite (mag w) = true /\ is_finite (ang w) = true) ws ->
  (forall k, bpow radix2 (3 - e) <= Rabs (B2R (mag z) * fold_right Rmult 1 (map (fun w : Polar (binary_float p e) => B2R (mag w)) (firstn k ws))) <= bpow radix2 (e - 2))%R ->
  (Rabs (B2R (ang z)) <= S)%R ->
  (S + fold_right Rplus 0 (map (fun w : Polar (binary_float p e) => Rabs (B2R (ang w))) ws) + INR (length ws) * (/ 2 * bpow radix2 (K - p)) <= bpow radix2 K)%R ->
  exists r, run (polar_mul float_ops) z ws = Ok r /\ is_finite (mag r) = true /\ is_finite (ang r) = true /\
  (let M := B2R (mag z) * fold_right Rmult 1 (map (fun w : Polar (binary_float p e) => B2R (mag w)) ws) in Rabs (B2R (mag r) - M) <= INR (length ws) * bpow radix2 (1 - p) * Rabs M)%R /\
  (Rabs (B2R (ang r) - (B2R (ang z) + fold_right Rplus 0 (map (fun w : Polar (binary_float p e) => B2R (ang w)) ws))) <= INR (length ws) * (/ 2 * bpow radix2 (K - p)))%R.
Proof. exact @product_float. Qed.
Print Assumptions C143_product_float.
(** With the angle reduced after every product it is off by at most [2^-22] (f32), [2^-51] (f64) per factor, however many there are. *)
Theorem C143_wrapped_f32 : exists q : f32, mixed_pi float_pi = Ok q /\ forall ws (z : Polar f32),
  is_finite (mag z) = true -> B2R (mag z) <> 0%R -> is_finite (ang z) = true -> (- B2R q <= B2R (ang z) < B2R q)%R ->
  Forall (fun w : Polar f32 => is_finite (mag w) = true /\ B2R (mag w) = 1%R /\ is_finite (ang w) = true /\ (Rabs (B2R (ang w)) <= B2R q)%R) ws ->
  exists r k, returns (fun fuel => run (fun p w => q <- polar_mul float_ops p w ;; a <- mixed_wrap_phase (float_wrap_phase fuel) (ang q) ;; Ok (mkP (mag q) a)) z ws) r /\
  mag r = mag z /\ is_finite (ang r) = true /\ (- B2R q <= B2R (ang r) < B2R q)%R /\
  (Rabs (B2R (ang z) + fold_right Rplus 0 (map (fun w : Polar f32 => B2R (ang w)) ws) - (B2R (ang r) + IZR k * (2 * B2R q))) <= INR (length ws) * bpow radix2 (-22))%R.
Proof. exact unit_wrap_f32. Qed.
Print Assumptions C143_wrapped_f32.
Theorem C143_wrapped_f64 : exists q : f64, mixed_pi float_pi = Ok q /\ forall ws (z : Polar f64),
  is_finite (mag z) = true -> B2R (mag z) <> 0%R -> is_finite (ang z) = true -> (- B2R q <= B2R (ang z) < B2R q)%R ->
  Forall (fun w : Polar f64 => is_finite (mag w) = true /\ B2R (mag w) = 1%R /\ is_finite (ang w) = true /\ (Rabs (B2R (ang w)) <= B2R q)%R) ws ->
  exists r k, returns (fun fuel => run (fun p w => q <- polar_mul float_ops p w ;; a <- mixed_wrap_phase (float_wrap_phase fuel) (ang q) ;; Ok (mkP (mag q) a)) z ws) r /\
  mag r = mag z /\ is_finite (ang r) = true /\ (- B2R q <= B2R (ang r) < B2R q)%R /\
  (Rabs (B2R (ang z) + fold_right Rplus 0 (map (fun w : Polar f64 => B2R (ang w)) ws) - (B2R (ang r) + IZR k * (2 * B2R q))) <= INR (length ws) * bpow radix2 (-51))%R.
Proof. exact unit_wrap_f64. Qed.
Print Assumptions C143_wrapped_f64.
(** f32, ten factors of angle 3 on a number of magnitude 5 at angle 1: 31 without reduction; with it -13956208 / 2^25 =
    -0.41592646, where 31 less five turns is -0.41592654. *)
Example C143_product_float_ex : let i := float_of_Z 24 128 in let sf (p : Polar f32) := (B2SF (mag p), B2SF (ang p)) in
  map_res sf (run (polar_mul float_ops) (mkP (i 5) (i 1)) [mkP (i (-3)) (i 2); mkP (i 7) (i (-4))]) = Ok (B2SF (i (-105)), B2SF (i (-1))).
Proof. vm_compute. reflexivity. Qed.
Example C143_float_ex : let i := float_of_Z 24 128 in let sf (p : Polar f32) := (B2SF (mag p), B2SF (ang p)) in let ws := repeat (mkP (i 1) (i 3)) 10 in let z := mkP (i 5) (i 1) in
  map_res sf (run (polar_mul float_ops) z ws) = Ok (B2SF (i 5), B2SF (i 31)) /\
  map_res sf (run (fun p w => q <- polar_mul float_ops p w ;; a <- mixed_wrap_phase (float_wrap_phase 5) (ang q) ;; Ok (mkP (mag q) a)) z ws) = Ok (B2SF (i 5), SpecFloat.S754_finite true 13956208 (-25)).
Proof. split; vm_compute; reflexivity. Qed.
