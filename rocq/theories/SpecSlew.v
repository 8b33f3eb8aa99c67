(** * C183: a slew-rate limiter, [y += clamp(x - y, lo, hi)] for every sample. *)

From Coq Require Import ZArith List.
From Verif Require Import Base Traits SpecPeak.
Import ListNotations.
Open Scope Z_scope.

Fixpoint slew {T} (O : MixedOps T) (lo hi y : T) (xs : list T) : res T :=
  match xs with [] => Ok y | x :: r => d <- o_sub O x y ;; y <- o_add O y (clamp O lo hi d) ;; slew O lo hi y r end.
(** where it is after [n] steps towards [x] from [y], moving at most [hi] up or [- lo] down per step *)
Definition approach (lo hi y x n : Z) : Z := if y <=? x then Z.min x (y + n * hi) else Z.max x (y + n * lo).

(** Limits, inputs and start between [a] and [b], whose distance the type can represent: no panic, never outside, and the exact position
    after any number of equal inputs. *)
Definition slews (O : MixedOps Z) (ok : Z -> Prop) : Prop := forall lo hi a b, lo <= 0 <= hi -> ok a -> ok b -> ok (a - b) -> ok (b - a) ->
  (forall xs y, Forall (fun x => a <= x <= b) xs -> a <= y <= b -> exists r, slew O lo hi y xs = Ok r /\ a <= r <= b) /\
  (forall x, a <= x <= b -> forall n y, a <= y <= b -> slew O lo hi y (repeat x n) = Ok (approach lo hi y x (Z.of_nat n))).
