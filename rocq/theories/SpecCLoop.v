(** * Spec: a feedback loop with complex state whose body is any complex formula. *)

From Coq Require Import ZArith Reals List.
From Verif Require Import Base Traits Complex SpecFilter SpecCFormula SpecProgram.
Import ListNotations.

(** [for v in inputs { s = body(s, v) }]: in the body, input 0 is the state and the further inputs are those of the current round. *)
Fixpoint cloop {T : Type} (O : MixedOps T) (N : MixedNumSigned T) (body : cformula) (s : Cartesian T) (ins : list (nat -> Cartesian T)) : res (Cartesian T) :=
  match ins with
  | [] => Ok s
  | v :: ins => s <- ccompute O N (push s v) body ;; cloop O N body s ins
  end.
(** the exact loop *)
Fixpoint cideal (body : cformula) (y : R * R) (xs : list (nat -> R * R)) : R * R :=
  match xs with [] => y | x :: xs => cideal body (cvalue (push y x) body) xs end.
(** In one round with inputs [x] known to within [d], from any state in the disc of radius [rho]: the body is safe, its own rounding
    error is at most [delta], its value stays in the disc with that margin, and it brings two states closer by the factor [L]. *)
Definition ccontracting (u : crounding) (top : R) (body : cformula) (rho L delta : R) (x : nat -> R * R) (d : nat -> R) : Prop :=
  (forall t, cabs t <= rho -> csafe (push t x) u (push 0 d) top body /\ cslack (push t x) u (push 0 d) body <= delta /\
    cabs (cvalue (push t x) body) + delta <= rho)%R /\
  (forall t t', cabs t <= rho -> cabs t' <= rho -> cabs (csub (cvalue (push t x) body) (cvalue (push t' x) body)) <= L * cabs (csub t t'))%R.
