(** * Specification vocabulary for the text of complex numbers.  Independent of Display.v. *)

From Coq Require Import ZArith String Ascii.
From Flocq Require Import IEEE754.BinarySingleNaN.
From Verif Require Import Base Complex Spec.
Open Scope string_scope.
Open Scope Z_scope.

(** every character satisfies [P] *)
Fixpoint text_all (P : ascii -> Prop) (s : string) : Prop := match s with "" => True | String c s => P c /\ text_all P s end.
(** neither a sign nor padding *)
Definition calm (c : ascii) : Prop := c <> "+"%char /\ c <> "-"%char /\ c <> " "%char.
Definition below_128 (c : ascii) : Prop := (nat_of_ascii c < 128)%nat.
(** components in range and, for a signed type, not its minimum *)
Definition showable (t : ity) (z : Cartesian Z) : Prop := cvalid t z /\ (isigned t = true -> re z <> imin t /\ im z <> imin t).
(** a float below zero *)
Definition fneg {prec emax} (x : binary_float prec emax) : bool := match x with B754_infinity true | B754_finite true _ _ _ => true | _ => false end.
