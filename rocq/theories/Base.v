(** * Base: outcomes, build profiles, loops, machine integers.

    Everything here models the Rust language / core library, not the repository.
    - A Rust call has three observable outcomes: it returns, it panics, or it does
      not return.  A loop is run with explicit fuel; [OutOfFuel] means "the fuel
      given was not enough" and is never confused with a returned value.
    - [Debug]: overflow checks and debug assertions on (cargo's dev profile).
      [Release]: both off, machine arithmetic wraps (cargo's release profile). *)

From Coq Require Export ZArith Bool List Lia.
Open Scope Z_scope.

Inductive panic :=
| POverflow     (* "attempt to ... with overflow" / "... overflows" *)
| PDivZero      (* "attempt to divide by zero" *)
| PNotFinite.   (* fixed::from_num of NaN or an infinity *)

Inductive res (A : Type) :=
| Ok (a : A)
| Panic (p : panic)
| OutOfFuel.
Arguments Ok {A} a.
Arguments Panic {A} p.
Arguments OutOfFuel {A}.

Definition bind {A B} (r : res A) (k : A -> res B) : res B :=
  match r with
  | Ok a => k a
  | Panic p => Panic p
  | OutOfFuel => OutOfFuel
  end.

Notation "x <- e ;; k" := (bind e (fun x => k))
  (at level 61, e at next level, right associativity).

Definition map_res {A B} (f : A -> B) (r : res A) : res B := bind r (fun a => Ok (f a)).

(** [while cond { body }] with fuel; evaluating the condition may panic too. *)
Fixpoint while {S : Type} (fuel : nat) (cond : S -> res bool) (body : S -> res S) (s : S)
  : res S :=
  match fuel with
  | O => OutOfFuel
  | Datatypes.S n =>
      c <- cond s ;;
      if c then (s' <- body s ;; while n cond body s') else Ok s
  end.

(** [for _ in 0..n { body }] *)
Definition for_n {S : Type} (n : N) (body : S -> res S) (s : S) : res S :=
  N.iter n (fun r => bind r body) (Ok s).

(** Outcome of a computation that takes fuel. *)
Definition returns {A} (f : nat -> res A) (a : A) : Prop :=
  exists n0 : nat, forall n : nat, (n0 <= n)%nat -> f n = Ok a.
Definition panics {A} (f : nat -> res A) (p : panic) : Prop :=
  exists n0 : nat, forall n : nat, (n0 <= n)%nat -> f n = Panic p.
Definition diverges {A} (f : nat -> res A) : Prop :=
  forall n : nat, f n = OutOfFuel.

Inductive mode := Debug | Release.

(** ** Machine integers *)
Record ity := mkIty { isigned : bool; iwidth : Z }.

Definition imin (t : ity) : Z := if isigned t then - 2 ^ (iwidth t - 1) else 0.
Definition imax (t : ity) : Z := if isigned t then 2 ^ (iwidth t - 1) - 1 else 2 ^ iwidth t - 1.
Definition in_rangeb (t : ity) (z : Z) : bool := (imin t <=? z) && (z <=? imax t).
Definition in_range (t : ity) (z : Z) : Prop := imin t <= z <= imax t.

(** two's complement reduction; also the [as] cast between integer types *)
Definition wrap (t : ity) (z : Z) : Z :=
  if isigned t
  then (z + 2 ^ (iwidth t - 1)) mod 2 ^ iwidth t - 2 ^ (iwidth t - 1)
  else z mod 2 ^ iwidth t.

(** the result of an arithmetic operator whose mathematical value is [z] *)
Definition fin (m : mode) (t : ity) (z : Z) : res Z :=
  if in_rangeb t z then Ok z
  else match m with Debug => Panic POverflow | Release => Ok (wrap t z) end.

Definition i8 := mkIty true 8.      Definition u8 := mkIty false 8.
Definition i16 := mkIty true 16.    Definition u16 := mkIty false 16.
Definition i32 := mkIty true 32.    Definition u32 := mkIty false 32.
Definition i64 := mkIty true 64.    Definition u64 := mkIty false 64.
Definition i128 := mkIty true 128.  Definition u128 := mkIty false 128.
(** usize/isize: a 64-bit target is assumed. *)
Definition usize := u64.
Definition isize := i64.
