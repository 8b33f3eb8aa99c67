(** * Property C153: distances, and decisions for the nearest symbol.

    [distance z w] is [(z - w).mag()]; [nearest] looks through a list of symbols and keeps the one of least computed distance. *)

From Coq Require Import ZArith Reals List Lra Lia.
From Flocq Require Import Core.Core IEEE754.BinarySingleNaN.
From Verif Require Import Base FloatBase Literals Traits IntImpl FixedPrim FixedImpl FloatImpl Complex Spec SpecFilter SpecDist DistProofs.
Import ListNotations.
Open Scope Z_scope.
Notation finite z := (is_finite (re z) = true /\ is_finite (im z) = true).
Notation fdist m f fuel := (distance (fixed_ops m f) (fixed_sqrt m f fuel) (fixed_powi m f)).

(** The two directions give the same bits: on floats always, on fixed types whenever both return, and always in a release build. *)
Theorem C153_symmetric_fixed : forall m f, supported f = true -> fsigned f = true -> forall fuel z w,
  (forall d e, fdist m f fuel z w = Ok d -> fdist m f fuel w z = Ok e -> d = e) /\ fdist Release f fuel z w = fdist Release f fuel w z.
Proof. exact dist_sym_fixed. Qed.
Print Assumptions C153_symmetric_fixed.
Theorem C153_symmetric_float : forall p e {Hp : Prec_gt_0 p} {He : Prec_lt_emax p e} m libm_sqrt fuel (z w : Cartesian (binary_float p e)),
  distance float_ops (float_sqrt m libm_sqrt fuel) float_powi z w = distance float_ops (float_sqrt m libm_sqrt fuel) float_powi w z.
Proof. exact @dist_sym_float. Qed.
Print Assumptions C153_symmetric_float.
(** Why the debug build needs both to return: -1 ulp minus the greatest number fits, the other way round does not. *)
Example C153_one_way : let f := mkFty true 16 0 in (exists d, cartesian_sub (fixed_ops Debug f) (mkC (-1) 0) (mkC 32767 0) = Ok d) /\
  fdist Debug f 30 (mkC 32767 0) (mkC (-1) 0) = Panic POverflow.
Proof. split; [eexists; reflexivity|vm_compute; reflexivity]. Qed.

(** Accuracy of a distance. *)
Theorem C153_distance_fixed : forall m f, supported f = true -> fsigned f = true -> 2 <= ffrac f <= fwidth f - 4 -> forall z w, let D := cabs (csub (cval f z) (cval f w)) in
  (D <= fval f (fmax f))%R -> (D * D <= fval f (fmax f))%R ->
  exists r, returns (fun fuel => fdist m f fuel z w) r /\ (Rabs (fval f r - D) <= (/ 1000 + 5 * ulp f) * D + (3 * ulp f + R_sqrt.sqrt (2 * ulp f)))%R.
Proof. exact dist_fixed. Qed.
Print Assumptions C153_distance_fixed.
Theorem C153_distance_float : forall p e {Hp : Prec_gt_0 p} {He : Prec_lt_emax p e}, 24 <= p -> 40 <= e ->
  forall m fuel (z w : Cartesian (binary_float p e)) libm_sqrt, (forall x, libm_sqrt x = Bsqrt mode_NE x) -> forall k, 2 * k + 1 < e -> finite z -> finite w ->
  let D := cabs (csub (cvalf z) (cvalf w)) in
  (cabs (cvalf z) + cabs (cvalf w) <= / 2 * bpow radix2 k)%R -> (D = 0 \/ bpow radix2 (15 - e) <= D * D)%R ->
  exists r, distance float_ops (float_sqrt m libm_sqrt fuel) float_powi z w = Ok r /\ is_finite r = true /\ (Rabs (B2R r - D) <= 7 / 2 * bpow radix2 (- p) * D)%R.
Proof. exact @dist_float. Qed.
Print Assumptions C153_distance_float.

(** The symbol that is returned is one of the list and nearest up to the accuracy. *)
Theorem C153_nearest_fixed : forall m f, supported f = true -> fsigned f = true -> 2 <= ffrac f <= fwidth f - 4 -> forall z first l,
  (forall s, In s (first :: l) -> (cabs (csub (cval f z) (cval f s)) <= fval f (fmax f) /\ cabs (csub (cval f z) (cval f s)) * cabs (csub (cval f z) (cval f s)) <= fval f (fmax f))%R) ->
  let k := (/ 1000 + 5 * ulp f)%R in let a := (3 * ulp f + R_sqrt.sqrt (2 * ulp f))%R in
  exists r, returns (fun fuel => nearest (fixed_ops m f) (fixed_sqrt m f fuel) (fixed_powi m f) z first l) r /\ In r (first :: l) /\
  (forall s, In s (first :: l) -> ((1 - k) * cabs (csub (cval f z) (cval f r)) <= (1 + k) * cabs (csub (cval f z) (cval f s)) + 2 * a)%R).
Proof. exact nearest_fixed. Qed.
Print Assumptions C153_nearest_fixed.
(** Hence the decision is right whenever the right symbol is nearer than all others by this margin. *)
Theorem C153_decision_fixed : forall m f, supported f = true -> fsigned f = true -> 2 <= ffrac f <= fwidth f - 4 -> forall z first l s0,
  let D s := cabs (csub (cval f z) (cval f s)) in
  (forall s, In s (first :: l) -> (D s <= fval f (fmax f) /\ D s * D s <= fval f (fmax f))%R) ->
  let k := (/ 1000 + 5 * ulp f)%R in let a := (3 * ulp f + R_sqrt.sqrt (2 * ulp f))%R in
  In s0 (first :: l) -> (forall s, In s (first :: l) -> s <> s0 -> ((1 + k) * D s0 + 2 * a < (1 - k) * D s)%R) ->
  returns (fun fuel => nearest (fixed_ops m f) (fixed_sqrt m f fuel) (fixed_powi m f) z first l) s0.
Proof. exact decide_fixed. Qed.
Print Assumptions C153_decision_fixed.
Theorem C153_decision_float : forall p e {Hp : Prec_gt_0 p} {He : Prec_lt_emax p e}, 24 <= p -> 40 <= e ->
  forall m fuel (z : Cartesian (binary_float p e)) libm_sqrt, (forall x, libm_sqrt x = Bsqrt mode_NE x) -> forall k, 2 * k + 1 < e -> finite z -> forall first l s0,
  let D s := cabs (csub (cvalf z) (cvalf s)) in let u := bpow radix2 (- p) in
  (forall s, In s (first :: l) -> finite s /\ (cabs (cvalf z) + cabs (cvalf s) <= / 2 * bpow radix2 k)%R /\ (D s = 0 \/ bpow radix2 (15 - e) <= D s * D s)%R) ->
  In s0 (first :: l) -> (forall s, In s (first :: l) -> s <> s0 -> ((1 + 7 / 2 * u) * D s0 < (1 - 7 / 2 * u) * D s)%R) ->
  nearest float_ops (float_sqrt m libm_sqrt fuel) float_powi z first l = Ok s0.
Proof. exact @decide_float. Qed.
Print Assumptions C153_decision_float.
(** four symbols in FixedI32<U16>, received 0.6 - 1.3i, sent 1 - i *)
Example C153_fixed_case : let f := mkFty true 32 16 in let p := 65536 in let n := -65536 in let z := mkC 39321 (-85196) in
  nearest (fixed_ops Debug f) (fixed_sqrt Debug f 40) (fixed_powi Debug f) z (mkC p p) [mkC n p; mkC n n; mkC p n] = Ok (mkC p n) /\
  map (fdist Debug f 40 z) [mkC p p; mkC n p; mkC n n; mkC p n] = [Ok 152976; Ok 183692; Ok 106686; Ok 32755] /\
  (cabs (csub (cval f z) (cval f (mkC p n))) <= 6 / 10)%R /\ (15 / 10 <= cabs (csub (cval f z) (cval f (mkC n n))))%R.
Proof.
  split; [vm_compute; reflexivity|]. split; [vm_compute; reflexivity|]. unfold cabs, csub, cval, fval. cbn. split.
  - rewrite <- (sqrt_square (6 / 10)) by lra. apply sqrt_le_1_alt. lra.
  - rewrite <- (sqrt_square (15 / 10)) by lra. apply sqrt_le_1_alt. lra.
Qed.
Example C153_float_case : let c x y := mkC (float_of_Z 24 128 x) (float_of_Z 24 128 y) in
  map_res (fun r => (B2SF (re r), B2SF (im r))) (nearest float_ops (float_sqrt Debug (Bsqrt mode_NE) 1) float_powi (c 3 (-5)) (c 4 4) [c (-4) 4; c (-4) (-4); c 4 (-4)]) =
  Ok (B2SF (float_of_Z 24 128 4), B2SF (float_of_Z 24 128 (-4))).
Proof. vm_compute. reflexivity. Qed.
