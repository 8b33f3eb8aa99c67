(** * C180: what a user writes with the comparison operators: running maximum, clamping, sorting. *)

From Coq Require Import List Sorted Permutation.
From Verif Require Import Traits.
Import ListNotations.

(** [let mut m = x; for y in xs { if m < y { m = y } }] *)
Definition peak {T} (O : MixedOps T) (x : T) (xs : list T) : T := fold_left (fun m y => if o_lt O m y then y else m) xs x.
(** [if x < lo { lo } else if hi < x { hi } else { x }] *)
Definition clamp {T} (O : MixedOps T) (lo hi x : T) : T := if o_lt O x lo then lo else if o_lt O hi x then hi else x.
(** insertion sort *)
Fixpoint insert {T} (O : MixedOps T) (x : T) (l : list T) : list T :=
  match l with [] => [x] | y :: r => if o_lt O y x then y :: insert O x r else x :: l end.
Definition sort {T} (O : MixedOps T) (l : list T) : list T := fold_right (insert O) [] l.

(** every element is at most every later one, by the type's own [<=] *)
Definition ascending {T} (O : MixedOps T) (l : list T) : Prop := StronglySorted (fun x y => o_le O x y = true) l.

(** what all three should do on a type whose numbers are ordered by [le] *)
Definition whole {T} (O : MixedOps T) (le : T -> T -> Prop) : Prop :=
  (forall x xs, let r := peak O x xs in In r (x :: xs) /\ forall y, In y (x :: xs) -> le y r) /\
  (forall lo hi x, le lo hi -> let r := clamp O lo hi x in le lo r /\ le r hi /\ (le lo x -> le x hi -> r = x) /\ (le x lo -> r = lo) /\ (le hi x -> r = hi)) /\
  (forall l, Permutation l (sort O l) /\ StronglySorted le (sort O l)).
