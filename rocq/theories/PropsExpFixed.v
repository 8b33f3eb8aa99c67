(** * Property C137: the complex exponential in fixed point. *)

From Coq Require Import ZArith Reals.
From Flocq Require Import Core.Core.
From Verif Require Import Base FloatBase Traits FixedPrim FixedImpl Complex Spec SpecFilter SpecRotor SpecPolar SpecExp SpecExpFixed PolarProofs3 ExpFixed.
Open Scope Z_scope.

Notation mx f := (fval f (fmax f)).
Notation fits f d dg x := ((1 + d) * (x + dg) <= mx f)%R.

(** C137.  A sine/cosine routine of error d on angles up to b, an exponential routine of error dg on values up to M.
    exp(z) * exp(w) against exp(z + w), all operations computed: *)
Theorem C137_law : forall m f, supported f = true -> fsigned f = true -> forall Sn E b d M dg, accurate_sincos f b d Sn -> accurate_exp f M dg E -> (0 <= d)%R -> (0 <= dg)%R ->
  forall z w, fvalid f (re z) -> fvalid f (im z) -> fvalid f (re w) -> fvalid f (im w) -> fvalid f (re z + re w) -> fvalid f (im z + im w) ->
  (Rabs (fval f (im z)) <= b)%R -> (Rabs (fval f (im w)) <= b)%R -> (Rabs (fval f (im z) + fval f (im w)) <= b)%R ->
  let x := exp (fval f (re z)) in let y := exp (fval f (re w)) in (x <= M)%R -> (y <= M)%R -> (x * y <= M)%R -> fits f d dg x -> fits f d dg y -> fits f d dg (x * y) ->
  let err := exp_err_fixed f d dg in ((x + err x) * (y + err y) + 224 / 100 * ulp f <= mx f)%R ->
  exists l r, (p <- cartesian_exp (fixed_ops m f) Sn E z ;; q <- cartesian_exp (fixed_ops m f) Sn E w ;; cartesian_mul (fixed_ops m f) p q) = Ok l /\
  (s <- cartesian_add (fixed_ops m f) z w ;; cartesian_exp (fixed_ops m f) Sn E s) = Ok r /\
  (cabs (csub (cval f l) (cval f r)) <= err x * (y + err y) + x * err y + err (x * y) + 224 / 100 * ulp f)%R.
Proof. exact exp_law_fixed. Qed.
Print Assumptions C137_law.
(** exp(z) * exp(0 - z) is 1 *)
Theorem C137_inverse : forall m f, supported f = true -> fsigned f = true -> forall Sn E b d M dg, accurate_sincos f b d Sn -> accurate_exp f M dg E -> (0 <= d)%R -> (0 <= dg)%R ->
  forall z, fvalid f (re z) -> fvalid f (im z) -> fvalid f (- re z) -> fvalid f (- im z) -> (Rabs (fval f (im z)) <= b)%R ->
  let x := exp (fval f (re z)) in (x <= M)%R -> (/ x <= M)%R -> fits f d dg x -> fits f d dg (/ x) ->
  let err := exp_err_fixed f d dg in ((x + err x) * (/ x + err (/ x)) + 224 / 100 * ulp f <= mx f)%R ->
  exists r, (p <- cartesian_exp (fixed_ops m f) Sn E z ;; n <- cartesian_sub (fixed_ops m f) (mkC 0 0) z ;; q <- cartesian_exp (fixed_ops m f) Sn E n ;; cartesian_mul (fixed_ops m f) p q) = Ok r /\
  (cabs (csub (cval f r) (1, 0)) <= err x * (/ x + err (/ x)) + x * err (/ x) + 224 / 100 * ulp f)%R.
Proof. exact exp_inv_fixed. Qed.
Print Assumptions C137_inverse.
(** Euler's identity with the type's own pi *)
Theorem C137_euler : forall m f, supported f = true -> fsigned f = true -> forall Sn E b d M dg, accurate_sincos f b d Sn -> accurate_exp f M dg E ->
  (4 <= b)%R -> (1 <= M)%R -> fits f d dg 1 ->
  exists p r, mixed_pi (fixed_pi m f) = Ok p /\ cartesian_exp (fixed_ops m f) Sn E (mkC 0 p) = Ok r /\
  (cabs (csub (cval f r) (-1, 0)) <= exp_err_fixed f d dg 1 + 71 / 100 * ulp f + / 500000000000000)%R.
Proof. exact euler_fixed. Qed.
Print Assumptions C137_euler.
(** routines as required exist, with d = dg = ulp *)
Theorem C137_routines : forall f b M, accurate_sincos f b (ulp f) (ideal_sin f) /\ accurate_exp f M (ulp f) (floor_exp f).
Proof. exact (fun f b M => conj (ideal_sincos_ok f b) (floor_exp_ok f M)). Qed.
Print Assumptions C137_routines.
(** FixedI32<U22>, z = 1 + 0.5i, w = 1 - 2i with those routines: every bound holds *)
Example C137_ex : let f := mkFty true 32 22 in let d := ulp f in let err := exp_err_fixed f d d in
  let z := mkC (2 ^ 22) (2 ^ 21) in let w := mkC (2 ^ 22) (- 2 ^ 23) in let x := exp (fval f (re z)) in let y := exp (fval f (re w)) in
  fvalid f (re z + re w) /\ fvalid f (im z + im w) /\ fits f d d x /\ fits f d d (x * y) /\ ((x + err x) * (y + err y) + 224 / 100 * ulp f <= mx f)%R.
Proof. exact law_example. Qed.
