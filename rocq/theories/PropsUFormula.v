(** * Property C168: any formula on an unsigned fixed-point type.

    [compute], [value] and [slack] are those of C164; [usafe]: no sign change, no square root, no negative literal, every difference
    larger than its own error, no divisor that may be zero, and every intermediate value fits. *)

From Coq Require Import ZArith Reals Lra Lia List.
From Flocq Require Import Core.Core.
From Verif Require Import Base Traits FixedPrim FixedImpl Spec SpecFormula SpecUFormula UFormulaProofs.
Open Scope Z_scope.

(** C168.  No panic in either profile, and the result is within [slack]; [Q] is never called. *)
Theorem C168_unsigned : forall m f, supported f = true -> fsigned f = false ->
  forall Q env x d, (forall i, fvalid f (env i) /\ (Rabs (fval f (env i) - x i) <= d i)%R) ->
  forall e, usafe x (round_fixed (ulp f)) d (fval f (fmax f)) e -> forall fuel : nat,
  exists r, compute (fixed_ops m f) (fixed_signed m f) (fixed_abs m f) (Q fuel) env e = Ok r /\
  fvalid f r /\ (Rabs (fval f r - value x e) <= slack x (round_fixed (ulp f)) d e)%R.
Proof. exact uformula. Qed.
Print Assumptions C168_unsigned.

(** A difference that is certainly negative: a debug build panics, a release build returns it plus the length of the type's range. *)
Theorem C168_underflow : forall m f, supported f = true -> fsigned f = false ->
  forall Q env x d, (forall i, fvalid f (env i) /\ (Rabs (fval f (env i) - x i) <= d i)%R) -> let u := round_fixed (ulp f) in let top := fval f (fmax f) in
  forall a b, usafe x u d top a -> usafe x u d top b -> (value x a + slack x u d a + slack x u d b < value x b)%R -> forall fuel : nat,
  let run := compute (fixed_ops m f) (fixed_signed m f) (fixed_abs m f) (Q fuel) env (Minus a b) in
  match m with
  | Debug => run = Panic POverflow
  | Release => exists r, run = Ok r /\ fvalid f r /\ (Rabs (fval f r - (value x a - value x b + (top + ulp f))) <= slack x u d a + slack x u d b)%R
  end.
Proof. exact uformula_under. Qed.
Print Assumptions C168_underflow.

(** ** the hypotheses are satisfiable: (3 * 4 + 2) / 7 - 1 on U16F16 *)
Definition u16f16 := mkFty false 32 16.
Definition given (i : nat) : Z := match i with 0%nat => 3 | 1%nat => 4 | 2%nat => 2 | _ => 7 end.
Definition shape : formula := Minus (Over (Plus (Times (Input 0) (Input 1)) (Input 2)) (Input 3)) (Whole 1).
Example C168_ex : let d := fun _ : nat => 0%R in let x := fun i => IZR (given i) in
  (forall i, fvalid u16f16 (given i * 65536) /\ (Rabs (fval u16f16 (given i * 65536) - x i) <= d i)%R) /\
  usafe x (round_fixed (ulp u16f16)) d (fval u16f16 (fmax u16f16)) shape /\ value x shape = 1%R /\ (slack x (round_fixed (ulp u16f16)) d shape <= 2 * ulp u16f16)%R.
Proof.
  cbv zeta. set (x := fun i => IZR (given i)).
  assert (U : ulp u16f16 = (/ 65536)%R) by (unfold ulp; cbn; lra).
  assert (M : fval u16f16 (fmax u16f16) = (4294967295 / 65536)%R) by reflexivity.
  assert (X0 : x 0%nat = 3%R) by reflexivity. assert (X1 : x 1%nat = 4%R) by reflexivity. assert (X2 : x 2%nat = 2%R) by reflexivity. assert (X3 : x 3%nat = 7%R) by reflexivity.
  split. { intros i. split; [destruct i as [|[|[|i]]]; split; discriminate|]. right. unfold x, fval. rewrite mult_IZR. change (bpow radix2 (- ffrac u16f16)) with (/ 65536)%R. replace (IZR (given i) * 65536 * / 65536 - IZR (given i))%R with 0%R by field. apply Rabs_R0. }
  rewrite U, M. cbn [usafe slack value shape round_fixed r_whole r_sum r_prod r_root]. rewrite X0, X1, X2, X3.
  replace ((3 * 4 + 2) / 7)%R with 2%R by field.
  repeat match goal with |- context [Rabs ?t] => first [rewrite (Rabs_pos_eq t) by lra | rewrite (Rabs_left t) by lra] end.
  repeat split; try lra; try lia.
Qed.
Example C168_ex_run : forall Q, compute (fixed_ops Debug u16f16) (fixed_signed Debug u16f16) (fixed_abs Debug u16f16) Q (fun i => given i * 65536) shape = Ok 65536 /\
  compute (fixed_ops Debug u16f16) (fixed_signed Debug u16f16) (fixed_abs Debug u16f16) Q (fun i => given i * 65536) (Minus (Input 0) (Input 1)) = Panic POverflow /\
  compute (fixed_ops Release u16f16) (fixed_signed Release u16f16) (fixed_abs Release u16f16) Q (fun i => given i * 65536) (Minus (Input 0) (Input 1)) = Ok (65535 * 65536).
Proof. intros Q. repeat split; reflexivity. Qed.
