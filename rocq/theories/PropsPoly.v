(** * Property C136: evaluating polynomials with Horner's rule. *)

From Coq Require Import ZArith Reals List Lra.
From Flocq Require Import Core.Core IEEE754.BinarySingleNaN.
From Verif Require Import Base FloatBase Traits FixedPrim FixedImpl FloatImpl Spec SpecPoly PolyProofs.
Import ListNotations.
Open Scope Z_scope.

(** C136, fixed point, |x| <= 1: any number of coefficients whose absolute values (plus one ulp each) add up to at most the maximum.
    No panic, an error of at most one ulp per coefficient, never above the true value for x >= 0. *)
Theorem C136_horner_fixed : forall m f, supported f = true -> fsigned f = true -> forall x l, (Rabs (fval f x) <= 1)%R ->
  (fold_right Rplus 0 (map (fun c => Rabs (fval f c)) l) + INR (length l) * ulp f <= fval f (fmax f))%R ->
  exists r, horner (fixed_ops m f) 0 x l = Ok r /\
  (Rabs (fval f r - polyR (fval f x) (map (fval f) l)) <= INR (length l) * ulp f)%R /\ ((0 <= fval f x)%R -> (fval f r <= polyR (fval f x) (map (fval f) l))%R).
Proof. exact horner_fixed. Qed.
Print Assumptions C136_horner_fixed.
(** any x, signed or unsigned: whenever the checked build returns, the unchecked one returns the same, within ulp * (1 + |x| + |x|^2 + ...) *)
Theorem C136_horner_checked : forall f, supported f = true -> forall x l r, horner (fixed_ops Debug f) 0 x l = Ok r ->
  horner (fixed_ops Release f) 0 x l = Ok r /\
  (Rabs (fval f r - polyR (fval f x) (map (fval f) l)) <= ulp f * geo (Rabs (fval f x)) (length l))%R.
Proof. exact horner_checked. Qed.
Print Assumptions C136_horner_checked.
(** floats, any x *)
Theorem C136_horner_float : forall p e {Hp : Prec_gt_0 p} {He : Prec_lt_emax p e}, 24 <= p -> 128 <= e ->
  forall (x : binary_float p e) (l : list (binary_float p e)), is_finite x = true -> (forall c, In c l -> is_finite c = true) ->
  let n := length l in let u := bpow radix2 (- p) in let eta := bpow radix2 (3 - e - p) in let X := Rmax 1 (Rabs (B2R x)) in let cs := map (fun c => Rabs (B2R c)) l in
  (INR n * u <= / 8)%R -> (polyR X cs <= bpow radix2 (e - 4))%R -> (eta * geo (101 / 100 * X) n <= bpow radix2 (e - 4))%R ->
  exists r, horner float_ops (B754_zero false) x l = Ok r /\ is_finite r = true /\
  (Rabs (B2R r - polyR (B2R x) (map B2R l)) <= 4 * INR n * u * polyR (Rabs (B2R x)) cs + eta * geo (101 / 100 * Rabs (B2R x)) n)%R.
Proof. exact @horner_float. Qed.
Print Assumptions C136_horner_float.
(** FixedI16<U8>: 1.5 - 2x + 0.5x^2 at x = 0.75 (exactly 0.28125 = 72/256) and at x = 3 *)
Example C136_ex : horner (fixed_ops Debug (mkFty true 16 8)) 0 192 [384; -512; 128] = Ok 72 /\ horner (fixed_ops Debug (mkFty true 16 8)) 0 768 [384; -512; 128] = Ok 0 /\
  (Rabs (fval (mkFty true 16 8) 192) <= 1)%R /\
  (fold_right Rplus 0 (map (fun c => Rabs (fval (mkFty true 16 8) c)) [384; -512; 128]%Z) + INR 3 * ulp (mkFty true 16 8) <= fval (mkFty true 16 8) (fmax (mkFty true 16 8)))%R.
Proof. exact horner_example. Qed.
