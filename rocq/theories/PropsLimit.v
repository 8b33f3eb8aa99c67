(** * C181: a limited integrator, acc = clamp(acc + x, lo, hi), over any number of samples. *)

From Coq Require Import ZArith Reals List Lia.
From Flocq Require Import Core.Core IEEE754.BinarySingleNaN.
From Verif Require Import Base FloatBase Traits IntImpl FixedPrim FixedImpl FloatImpl Spec SpecPeak SpecLimit LimitProofs.
Import ListNotations.
Open Scope Z_scope.

(** With room for one input beyond each limit, both profiles: no panic, and exactly the limited integrator on whole numbers. *)
Theorem C181_fixed_partial : forall m f lo hi b, lo <= hi -> 0 <= b -> fvalid f (lo - b) -> fvalid f (hi + b) ->
  forall xs a, lo <= a <= hi -> Forall (fun x => - b <= x <= b) xs ->
  limited (fixed_ops m f) lo hi a xs = Ok (exact_limited lo hi a xs) /\ lo <= exact_limited lo hi a xs <= hi.
Proof. exact limited_fixed. Qed.
Print Assumptions C181_fixed_partial.
Theorem C181_int_partial : forall m t lo hi b, lo <= hi -> 0 <= b -> in_range t (lo - b) -> in_range t (hi + b) ->
  forall xs a, lo <= a <= hi -> Forall (fun x => - b <= x <= b) xs ->
  limited (int_ops m t) lo hi a xs = Ok (exact_limited lo hi a xs) /\ lo <= exact_limited lo hi a xs <= hi.
Proof. exact limited_int. Qed.
Print Assumptions C181_int_partial.
(** Without the room the limits do not protect: one step above the upper limit panics, or jumps to the lower limit. *)
Theorem C181_fixed_refuted : forall f, supported f = true -> let lo := imin (fity f) in let hi := imax (fity f) in fvalid f 1 /\
  limited (fixed_ops Debug f) lo hi hi [1] = Panic POverflow /\ limited (fixed_ops Release f) lo hi hi [1] = Ok lo /\ exact_limited lo hi hi [1] = hi.
Proof. exact limited_no_room. Qed.
Print Assumptions C181_fixed_refuted.

(** Floats: whatever numbers arrive, infinities and overflowing sums included, the result is finite and between the limits. *)
Theorem C181_float : forall p e {Hp : Prec_gt_0 p} {He : Prec_lt_emax p e} (lo hi : binary_float p e), is_finite lo = true -> is_finite hi = true -> o_le float_ops lo hi = true ->
  forall xs a, o_le float_ops lo a = true -> o_le float_ops a hi = true -> Forall (fun x => is_nan x = false) xs ->
  exists r, limited float_ops lo hi a xs = Ok r /\ is_finite r = true /\ o_le float_ops lo r = true /\ o_le float_ops r hi = true.
Proof. exact @limited_float. Qed.
Print Assumptions C181_float.
(** One NaN in the input, and only that, makes the result NaN for ever. *)
Theorem C181_float_nan : forall p e {Hp : Prec_gt_0 p} {He : Prec_lt_emax p e} (lo hi : binary_float p e), is_finite lo = true -> is_finite hi = true -> o_le float_ops lo hi = true ->
  forall xs a, o_le float_ops lo a = true -> o_le float_ops a hi = true ->
  exists r, limited float_ops lo hi a xs = Ok r /\ (is_nan r = true <-> Exists (fun x => is_nan x = true) xs).
Proof. exact @limited_nan. Qed.
Print Assumptions C181_float_nan.

Example C181_fixed_ex : let f := mkFty true 16 8 in fvalid f (-25600 - 5120) /\ fvalid f (25600 + 5120) /\ Forall (fun x => -5120 <= x <= 5120) [5000; 5120; -700] /\
  limited (fixed_ops Debug f) (-25600) 25600 20000 [5000; 5120; -700] = Ok 24900.
Proof. cbv zeta. split; [split; discriminate|]. split; [split; discriminate|]. split; [repeat (apply Forall_cons; [lia|]); apply Forall_nil|reflexivity]. Qed.
Example C181_float_ex : let n := float_of_Z 24 128 in is_finite (n (-10)) = true /\ o_le float_ops (n (-10)) (n 10) = true /\ o_le float_ops (n (-10)) (n 3) = true /\
  match limited float_ops (n (-10)) (n 10) (n 3) [n 5; B754_infinity false; n (-4)] with Ok r => B2SF r = B2SF (n 6) | _ => False end /\
  match limited float_ops (n (-10)) (n 10) (n 3) [n 5; B754_nan; n (-4)] with Ok r => is_nan r = true | _ => False end.
Proof. vm_compute. repeat split. Qed.
