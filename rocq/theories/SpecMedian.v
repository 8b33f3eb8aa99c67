(** * C184: a median filter over three samples, written with [<]. *)

From Coq Require Import ZArith List.
From Verif Require Import Traits.
Import ListNotations.
Open Scope Z_scope.

Definition lesser {T} (O : MixedOps T) (a b : T) : T := if o_lt O a b then a else b.
Definition greater {T} (O : MixedOps T) (a b : T) : T := if o_lt O a b then b else a.
Definition median {T} (O : MixedOps T) (a b c : T) : T := greater O (lesser O a b) (lesser O (greater O a b) c).
(** one output for every three consecutive samples *)
Fixpoint medians {T} (O : MixedOps T) (xs : list T) : list T :=
  match xs with a :: ((b :: c :: _) as r) => median O a b c :: medians O r | _ => [] end.

(** every three consecutive samples satisfy [P]; without its first and last element *)
Fixpoint windows {T} (P : T -> T -> T -> Prop) (xs : list T) : Prop :=
  match xs with a :: ((b :: c :: _) as r) => P a b c /\ windows P r | _ => True end.
Definition inner {T} (xs : list T) : list T := removelast (tl xs).
(** at least two of three *)
Definition two_of {T} (P : T -> Prop) (a b c : T) : Prop := P a /\ P b \/ P b /\ P c \/ P a /\ P c.
Definition between {T} (O : MixedOps T) (lo hi x : T) : Prop := o_le O lo x = true /\ o_le O x hi = true.

(** On a type ordered like the whole numbers: isolated samples outside an interval disappear, and rising or falling stretches are
    left as they are. *)
Definition filters (O : MixedOps Z) : Prop :=
  (forall lo hi xs, windows (two_of (fun x => lo <= x <= hi)) xs -> Forall (fun x => lo <= x <= hi) (medians O xs)) /\
  (forall xs, windows (fun a b c => a <= b <= c \/ c <= b <= a) xs -> medians O xs = inner xs).
