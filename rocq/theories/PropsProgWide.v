(** * C174: whole programs return the same in a release build and on a wider type. *)

From Coq Require Import ZArith List.
From Verif Require Import Base Traits IntImpl FixedPrim FixedImpl Complex Spec SpecProfile SpecFormula SpecCFormula SpecProgram SpecLoop SpecCLoop SpecTwoSort SpecVLoop SpecPipe SpecStateSpace ProgWideProofs.
Import ListNotations.
Open Scope Z_scope.

(** Formulas mixing real and complex operations. *)
Theorem C174_formulas : forall m f g fuel, supported f = true -> fsigned g = fsigned f -> ffrac g = ffrac f -> fwidth f <= fwidth g -> forall env,
  (forall e, refines (reval (fixed_ops Debug f) (fixed_signed Debug f) (fixed_abs Debug f) (fixed_sqrt Debug f fuel) (fixed_powi Debug f) env e)
    (reval (fixed_ops m g) (fixed_signed m g) (fixed_abs m g) (fixed_sqrt m g fuel) (fixed_powi m g) env e)) /\
  (forall e, refines (zeval (fixed_ops Debug f) (fixed_signed Debug f) (fixed_abs Debug f) (fixed_sqrt Debug f fuel) (fixed_powi Debug f) env e)
    (zeval (fixed_ops m g) (fixed_signed m g) (fixed_abs m g) (fixed_sqrt m g fuel) (fixed_powi m g) env e)).
Proof. exact two_wide. Qed.
Print Assumptions C174_formulas.

(** Feedback loops: one state variable, several, or a complex one; any body and any number of rounds. *)
Theorem C174_loops : forall m f g fuel, supported f = true -> fsigned g = fsigned f -> ffrac g = ffrac f -> fwidth f <= fwidth g ->
  (forall body s ins, refines (loop (fixed_ops Debug f) (fixed_signed Debug f) (fixed_abs Debug f) (fixed_sqrt Debug f fuel) body s ins)
    (loop (fixed_ops m g) (fixed_signed m g) (fixed_abs m g) (fixed_sqrt m g fuel) body s ins)) /\
  (forall bodies s ins, refines (vloop (fixed_ops Debug f) (fixed_signed Debug f) (fixed_abs Debug f) (fixed_sqrt Debug f fuel) bodies s ins)
    (vloop (fixed_ops m g) (fixed_signed m g) (fixed_abs m g) (fixed_sqrt m g fuel) bodies s ins)) /\
  (forall body s ins, refines (cloop (fixed_ops Debug f) (fixed_signed Debug f) body s ins) (cloop (fixed_ops m g) (fixed_signed m g) body s ins)).
Proof. exact loops_wide. Qed.
Print Assumptions C174_loops.

(** Chains of vector stages, and state-space filters. *)
Theorem C174_chains : forall m f g fuel, supported f = true -> fsigned g = fsigned f -> ffrac g = ffrac f -> fwidth f <= fwidth g ->
  (forall s stages, refines (pipe (fixed_ops Debug f) (fixed_signed Debug f) (fixed_abs Debug f) (fixed_sqrt Debug f fuel) s stages)
    (pipe (fixed_ops m g) (fixed_signed m g) (fixed_abs m g) (fixed_sqrt m g fuel) s stages)) /\
  (forall A s cs, refines (state_space (fixed_ops Debug f) A s cs) (state_space (fixed_ops m g) A s cs)).
Proof. exact chains_wide. Qed.
Print Assumptions C174_chains.

(** Integers, which have no mixed_sqrt, so that [Q] is never called: the same type in release; wider integer types for programs
    without literals (a literal outside the narrow type is already wrong there). *)
Theorem C174_int_release : forall t Q, let N m := int_signed m t in let A m := int_abs m t in let O m := int_ops m t in
  (forall body s ins, refines (loop (O Debug) (N Debug) (A Debug) Q body s ins) (loop (O Release) (N Release) (A Release) Q body s ins)) /\
  (forall bodies s ins, refines (vloop (O Debug) (N Debug) (A Debug) Q bodies s ins) (vloop (O Release) (N Release) (A Release) Q bodies s ins)) /\
  (forall s stages, refines (pipe (O Debug) (N Debug) (A Debug) Q s stages) (pipe (O Release) (N Release) (A Release) Q s stages)).
Proof. exact ints_release. Qed.
Print Assumptions C174_int_release.
Theorem C174_int_wide : forall m t u, In t int_types -> In u int_types -> imin u <= imin t -> imax t <= imax u ->
  (forall body s ins, refines (cloop (int_ops Debug t) (int_signed Debug t) body s ins) (cloop (int_ops m u) (int_signed m u) body s ins)) /\
  (forall A s cs, refines (state_space (int_ops Debug t) A s cs) (state_space (int_ops m u) A s cs)).
Proof. exact ints_wide. Qed.
Print Assumptions C174_int_wide.

(** s = s / 2 + v on I8F8, three rounds with v = 10.5, -4.25, 100: the debug build returns, so the release build on I24F8 does too. *)
Definition halves : formula := Plus (Over (Input 0) (Whole 2)) (Input 1).
Definition feed : list (nat -> Z) := map (fun z (_ : nat) => z) [2688; -1088; 25600].
Example C174_loop_case : let f := mkFty true 16 8 in let g := mkFty true 32 8 in
  supported f = true /\ ffrac g = ffrac f /\ fwidth f < fwidth g /\
  loop (fixed_ops Debug f) (fixed_signed Debug f) (fixed_abs Debug f) (fixed_sqrt Debug f 400) halves 77 feed = Ok 25737 /\
  loop (fixed_ops Release g) (fixed_signed Release g) (fixed_abs Release g) (fixed_sqrt Release g 400) halves 77 feed = Ok 25737.
Proof. vm_compute. repeat split. Qed.
(** When the narrow debug build panics nothing is promised: the narrow release build and the wide build then differ. *)
Example C174_loop_panics : let f := mkFty true 16 8 in let g := mkFty true 32 8 in let more := feed ++ feed ++ feed in
  (forall r, loop (fixed_ops Debug f) (fixed_signed Debug f) (fixed_abs Debug f) (fixed_sqrt Debug f 400) halves 30000 (map (fun v i => v i + 5000) more) <> Ok r) /\
  loop (fixed_ops Release f) (fixed_signed Release f) (fixed_abs Release f) (fixed_sqrt Release f 400) halves 30000 (map (fun v i => v i + 5000) more) <>
  loop (fixed_ops Release g) (fixed_signed Release g) (fixed_abs Release g) (fixed_sqrt Release g 400) halves 30000 (map (fun v i => v i + 5000) more).
Proof. vm_compute. split; [intros r H|intros H]; discriminate H. Qed.
(** |z| - Re (z conj w) with z = 3 + 4i and w = 1/2 - 2i on I8F8. *)
Example C174_formula_case : let f := mkFty true 16 8 in let g := mkFty true 64 8 in
  let z := ZNew (RInput 0) (RInput 1) in let w := ZNew (RInput 2) (RInput 3) in let e := RMinus (RMag z) (RRe (ZMul z (ZConj w))) in
  let env i := nth i [768; 1024; 128; -512] 0 in exists r,
  reval (fixed_ops Debug f) (fixed_signed Debug f) (fixed_abs Debug f) (fixed_sqrt Debug f 400) (fixed_powi Debug f) env e = Ok r /\
  reval (fixed_ops Release g) (fixed_signed Release g) (fixed_abs Release g) (fixed_sqrt Release g 400) (fixed_powi Release g) env e = Ok r.
Proof. eexists. split; vm_compute; reflexivity. Qed.
(** A rotation by about 30 degrees as a state-space filter, four rounds. *)
Example C174_chain_case : let f := mkFty true 16 8 in let g := mkFty true 32 8 in let A := [[221; -128]; [128; 221]] in exists r,
  state_space (fixed_ops Debug f) A [2560; 0] [[0; 0]; [5; -7]; [0; 0]; [256; 1]] = Ok r /\
  state_space (fixed_ops Release g) A [2560; 0] [[0; 0]; [5; -7]; [0; 0]; [256; 1]] = Ok r.
Proof. eexists. split; vm_compute; reflexivity. Qed.
(** The Fibonacci numbers as a state-space filter on i8, then on i32. *)
Example C174_int_case : let A := [[1; 1]; [1; 0]] in let cs := repeat [0; 0] 10 in
  state_space (int_ops Debug (mkIty true 8)) A [1; 0] cs = Ok [89; 55] /\ state_space (int_ops Release (mkIty true 32)) A [1; 0] cs = Ok [89; 55] /\
  state_space (int_ops Debug (mkIty true 8)) A [1; 0] (repeat [0; 0] 11) = Panic POverflow.
Proof. repeat split. Qed.
