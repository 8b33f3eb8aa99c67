(** * Reading digits back.  Independent of Display.v. *)

From Coq Require Import ZArith Bool String Ascii.
Open Scope string_scope.
Open Scope Z_scope.

(** value of a digit: 0-9, a-f, A-F *)
Definition digit_val (c : ascii) : option Z :=
  let n := Z.of_N (N_of_ascii c) in
  if (48 <=? n) && (n <=? 57) then Some (n - 48)
  else if (97 <=? n) && (n <=? 102) then Some (n - 87)
  else if (65 <=? n) && (n <=? 70) then Some (n - 55) else None.
(** value of a text in radix [b], [None] if some character is not a digit *)
Fixpoint read_from (b : Z) (acc : Z) (s : string) : option Z :=
  match s with
  | "" => Some acc
  | String c s => match digit_val c with Some d => if d <? b then read_from b (acc * b + d) s else None | None => None end
  end.
Definition read (b : Z) (s : string) : option Z := match s with "" => None | _ => read_from b 0 s end.
(** no superfluous leading zero *)
Definition tidy (s : string) : Prop := match s with String "0" (String _ _) => False | _ => True end.
(** every letter is a capital if [up], and none is otherwise *)
Fixpoint cased (up : bool) (s : string) : Prop :=
  match s with
  | "" => True
  | String c s => let n := Z.of_N (N_of_ascii c) in (n <= 57 \/ if up then n <= 90 else 97 <= n) /\ cased up s
  end.
(** [n] spaces *)
Fixpoint blanks (n : nat) : string := match n with 0%nat => "" | S k => " " ++ blanks k end.
