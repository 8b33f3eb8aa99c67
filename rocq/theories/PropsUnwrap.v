(** * Property C139: unwrapping a phase.

    A phase that keeps turning is read modulo a whole turn (by [mixed_wrap_phase], or as an [arg]); the user adds up the wrapped
    differences.  [reads], [slow] and [reading] are in SpecUnwrap: [T] is half a turn as the readings have it (the type's own pi for
    [mixed_wrap_phase], the real pi for an arctangent), [e] the error of a reading, [s] the largest move between readings. *)

From Coq Require Import ZArith Reals Lra List.
From Flocq Require Import Core.Core IEEE754.BinarySingleNaN.
From Verif Require Import Base FloatBase Literals Traits Trig IntImpl FixedPrim FixedImpl FloatImpl Spec SpecUnwrap UnwrapProofs.
Import ListNotations.
Open Scope Z_scope.

(** The loop [for w in ws { acc = acc + (w - prev).mixed_wrap_phase(); prev = w; }]; the state is [(prev, acc)] *)
Notation unwrap_loop m f fuel := (run (fun (st : Z * Z) w => d <- o_sub (fixed_ops m f) w (fst st) ;; r <- mixed_wrap_phase (fixed_wrap_phase m f fuel) d ;;
  u <- o_add (fixed_ops m f) (snd st) r ;; Ok (w, u))).
Notation unwrap_loop_float fuel := (run (fun st w => d <- o_sub float_ops w (fst st) ;; r <- mixed_wrap_phase (float_wrap_phase fuel) d ;;
  u <- o_add float_ops (snd st) r ;; Ok (w, u))).

(** Fixed point: the turns are counted without error, so nothing accumulates however long it runs: the result has the error of the
    first and of the last reading only, plus the turns times the difference of [T] from the type's pi. *)
Theorem C139_unwrap_fixed : forall m f, supported f = true -> fsigned f = true -> ffrac f <= fwidth f - 4 ->
  exists p, mixed_pi (fixed_pi m f) = Ok p /\
  forall T e s u0, (s + 2 * e + 2 * Rabs (T - fval f p) < fval f p)%R ->
  forall rs r0, Forall (fun r => reads (fval f) T e r /\ (Rabs (fval f (seen r)) <= fval f p)%R /\
      fvalid f (u0 + (seen r - seen r0) + (turns r - turns r0) * (2 * p))) (r0 :: rs) -> slow s (true_phase r0) rs ->
  let z := last rs r0 in let u := u0 + (seen z - seen r0) + (turns z - turns r0) * (2 * p) in
  returns (fun fuel => unwrap_loop m f fuel (seen r0, u0) (map seen rs)) (seen z, u) /\
  (Rabs (fval f u - fval f u0 - (true_phase z - true_phase r0)) <= 2 * e + 2 * IZR (Z.abs (turns z - turns r0)) * Rabs (T - fval f p))%R.
Proof. exact unwrap_fixed. Qed.
Print Assumptions C139_unwrap_fixed.

(** One step between two wrapped phases: what is found differs from the true step by whole turns, and is the true step exactly when
    that lies in [-pi, pi). *)
Theorem C139_step_fixed : forall m f, supported f = true -> fsigned f = true -> ffrac f <= fwidth f - 4 ->
  exists p, mixed_pi (fixed_pi m f) = Ok p /\
  forall a b wa wb, fvalid f a -> fvalid f b -> returns (fun fuel => mixed_wrap_phase (fixed_wrap_phase m f fuel) a) wa ->
    returns (fun fuel => mixed_wrap_phase (fixed_wrap_phase m f fuel) b) wb ->
  exists d, returns (fun fuel => t <- o_sub (fixed_ops m f) wb wa ;; mixed_wrap_phase (fixed_wrap_phase m f fuel) t) d /\
  (exists k, d = b - a + k * (2 * p)) /\ (d = b - a <-> (- fval f p <= fval f b - fval f a < fval f p)%R).
Proof. exact step_fixed. Qed.
Print Assumptions C139_step_fixed.

(** Floats: each step adds the rounding of the difference and of the sum; [2^K] bounds the unwrapped phase. *)
Theorem C139_unwrap_f32 : exists p : f32, mixed_pi float_pi = Ok p /\
  forall T e s K (u0 : f32), is_finite u0 = true -> 3 <= K < 128 -> 
  (s + 2 * e + 2 * Rabs (T - B2R p) + bpow radix2 (2 - 24) < B2R p)%R ->
  let g := (bpow radix2 (2 - 24) + bpow radix2 (K - 1 - 24))%R in
  forall rs r0, 
  Forall (fun r : reading f32 => reads B2R T e r /\ is_finite (seen r) = true /\ (Rabs (B2R (seen r)) <= B2R p)%R /\
    (Rabs (B2R u0 + (B2R (seen r) - B2R (seen r0)) + IZR (turns r - turns r0) * (2 * B2R p)) + INR (length rs) * g <= bpow radix2 K)%R) (r0 :: rs) ->
  slow s (true_phase r0) rs ->
  let z := last rs r0 in exists u : f32, returns (fun fuel => unwrap_loop_float fuel (seen r0, u0) (map seen rs)) (seen z, u) /\ is_finite u = true /\
  (Rabs (B2R u - B2R u0 - (true_phase z - true_phase r0)) <=
    2 * e + 2 * IZR (Z.abs (turns z - turns r0)) * Rabs (T - B2R p) + INR (length rs) * g)%R.
Proof. exact unwrap_f32. Qed.
Print Assumptions C139_unwrap_f32.
Theorem C139_unwrap_f64 : exists p : f64, mixed_pi float_pi = Ok p /\
  forall T e s K (u0 : f64), is_finite u0 = true -> 3 <= K < 1024 -> 
  (s + 2 * e + 2 * Rabs (T - B2R p) + bpow radix2 (2 - 53) < B2R p)%R ->
  let g := (bpow radix2 (2 - 53) + bpow radix2 (K - 1 - 53))%R in
  forall rs r0, 
  Forall (fun r : reading f64 => reads B2R T e r /\ is_finite (seen r) = true /\ (Rabs (B2R (seen r)) <= B2R p)%R /\
    (Rabs (B2R u0 + (B2R (seen r) - B2R (seen r0)) + IZR (turns r - turns r0) * (2 * B2R p)) + INR (length rs) * g <= bpow radix2 K)%R) (r0 :: rs) ->
  slow s (true_phase r0) rs ->
  let z := last rs r0 in exists u : f64, returns (fun fuel => unwrap_loop_float fuel (seen r0, u0) (map seen rs)) (seen z, u) /\ is_finite u = true /\
  (Rabs (B2R u - B2R u0 - (true_phase z - true_phase r0)) <=
    2 * e + 2 * IZR (Z.abs (turns z - turns r0)) * Rabs (T - B2R p) + INR (length rs) * g)%R.
Proof. exact unwrap_f64. Qed.
Print Assumptions C139_unwrap_f64.

(** FixedI32<U20>: the phases 0, 2, 4, 6, 8, 10 read modulo 2 pi are unwrapped to 10 exactly; a step of 4 is taken for 4 - 2 pi.
    The hypotheses hold with T the type's pi, no error, and steps of 2. *)
Example C139_ex : let f := mkFty true 32 20 in let o := 2 ^ 20 in let p := 3294199 in
  let rs := [Reading (2 * o) 2 0; Reading (4 * o - 2 * p) 4 1; Reading (6 * o - 2 * p) 6 1; Reading (8 * o - 2 * p) 8 1; Reading (10 * o - 4 * p) 10 2] in
  mixed_pi (fixed_pi Debug f) = Ok p /\
  map (mixed_wrap_phase (fixed_wrap_phase Debug f 5)) [2 * o; 4 * o; 6 * o; 8 * o; 10 * o] = map (fun r => Ok (seen r)) rs /\
  unwrap_loop Debug f 5 (0, 0) (map seen rs) = Ok (10 * o - 4 * p, 10 * o) /\
  unwrap_loop Debug f 5 (0, 0) [4 * o - 2 * p] = Ok (4 * o - 2 * p, 4 * o - 2 * p) /\
  Forall (fun r => reads (fval f) (fval f p) 0 r) (Reading 0 0 0 :: rs) /\ slow 2 0 rs.
Proof.
  assert (V : forall z, fval (mkFty true 32 20) z = (IZR z / 1048576)%R) by reflexivity.
  cbv zeta. repeat split; try (vm_compute; reflexivity).
  - repeat constructor; unfold reads; cbn [true_phase seen turns]; rewrite !V; rewrite Rabs_pos_eq; cbn; lra.
  - cbn. rewrite Rabs_pos_eq; lra.
  - cbn. rewrite Rabs_pos_eq; lra.
  - cbn. rewrite Rabs_pos_eq; lra.
  - cbn. rewrite Rabs_pos_eq; lra.
  - cbn. rewrite Rabs_pos_eq; lra.
Qed.
