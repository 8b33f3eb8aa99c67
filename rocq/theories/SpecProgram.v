(** * Spec: programs that name intermediate results and call the polynomial sine, cosine and arctangent. *)

From Coq Require Import ZArith Reals List.
From Flocq Require Import Core.Core IEEE754.BinarySingleNaN.
From Verif Require Import Base FloatBase Traits Trig FixedPrim FixedImpl FloatImpl SpecFormula.
Import ListNotations.
Open Scope Z_scope.

Inductive func := Sine | Cosine | Arctan.
(** [let v = e;] or [let v = sin(e);] and so on.  The newest name is input 0 of what follows; every older name is one further. *)
Inductive step := Let (e : formula) | LetCall (k : func) (e : formula).
Definition push {A} (a : A) (env : nat -> A) : nat -> A := fun i => match i with 0%nat => a | S j => env j end.

Section Program.
Context {T : Type} (O : MixedOps T) (N : MixedNumSigned T) (A : MixedAbs T) (Q : MixedSqrt T) (fn : func -> T -> res T).
(** a list of steps, then the result *)
Fixpoint exec (env : nat -> T) (p : list step) (e : formula) : res T :=
  match p with
  | [] => compute O N A Q env e
  | Let a :: p => v <- compute O N A Q env a ;; exec (push v env) p e
  | LetCall k a :: p => v <- compute O N A Q env a ;; r <- fn k v ;; exec (push r env) p e
  end.
End Program.

Definition exact (k : func) : R -> R := match k with Sine => Rtrigo_def.sin | Cosine => Rtrigo_def.cos | Arctan => Ratan.atan end.
(** The real number the program denotes. *)
Fixpoint pvalue (x : nat -> R) (p : list step) (e : formula) : R :=
  match p with
  | [] => value x e
  | Let a :: p => pvalue (push (value x a) x) p e
  | LetCall k a :: p => pvalue (push (exact k (value x a)) x) p e
  end.
(** The error of the result: a call passes on the error of its argument and adds its own, [tol]. *)
Section Error.
Variables (u : rounding) (tol : func -> R).
Fixpoint pslack (x d : nat -> R) (p : list step) (e : formula) : R :=
  match p with
  | [] => slack x u d e
  | Let a :: p => pslack (push (value x a) x) (push (slack x u d a) d) p e
  | LetCall k a :: p => pslack (push (exact k (value x a)) x) (push (slack x u d a + tol k)%R d) p e
  end.
(** Every formula is safe, and every argument is one the function is accurate for. *)
Variables (dom : func -> R -> Prop) (top : R).
Fixpoint psafe (x d : nat -> R) (p : list step) (e : formula) : Prop :=
  match p with
  | [] => safe x u d top e
  | Let a :: p => safe x u d top a /\ psafe (push (value x a) x) (push (slack x u d a) d) p e
  | LetCall k a :: p => safe x u d top a /\ dom k (Rabs (value x a) + slack x u d a)%R /\ psafe (push (exact k (value x a)) x) (push (slack x u d a + tol k)%R d) p e
  end.
End Error.

(** fixed point: the sine and cosine need twenty integer bits and an argument in [-pi, pi], the arctangent four fractional bits and an
    argument whose square fits *)
Definition tol_fixed (step : R) (k : func) : R := match k with Arctan => 492 / 100000 + 8 * step | _ => 5 / 1000000 + 7 * step end.
Definition dom_fixed (f : fty) (top : R) (k : func) (t : R) : Prop :=
  match k with Arctan => 4 <= ffrac f /\ (3 / 2 * (t * t) <= top)%R | _ => ffrac f <= fwidth f - 20 /\ (t <= PI)%R end.
(** floats *)
Definition tol_float (k : func) : R := match k with Arctan => 492 / 100000 | _ => 5 / 1000000 end.
Definition dom_float (big : R) (k : func) (t : R) : Prop := match k with Arctan => (t <= big)%R | _ => (t <= PI)%R end.

(** the crate's functions on a fixed type and on a float type *)
Definition fixed_fn (m : mode) (f : fty) (fuel : nat) (k : func) (x : Z) : res Z :=
  match k with
  | Sine => Trig.sin (fixed_ops m f) (fixed_signed m f) (fixed_pi m f) (fixed_powi m f) x
  | Cosine => Trig.cos (fixed_ops m f) (fixed_signed m f) (fixed_pi m f) (fixed_powi m f) fuel x
  | Arctan => Trig.atan (fixed_ops m f) (fixed_signed m f) (fixed_powi m f) (fixed_real m f) (fixed_zero m f) (fixed_pi m f) (fixed_abs m f) (fixed_one m f) x
  end.
Definition float_fn {p e} {Hp : Prec_gt_0 p} {He : Prec_lt_emax p e} (fuel : nat) (k : func) (x : binary_float p e) : res (binary_float p e) :=
  match k with
  | Sine => Trig.sin float_ops float_signed float_pi float_powi x
  | Cosine => Trig.cos float_ops float_signed float_pi float_powi fuel x
  | Arctan => Trig.atan float_ops float_signed float_powi float_real float_zero float_pi float_abs float_one x
  end.
