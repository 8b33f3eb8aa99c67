(** * Property C166: programs that name intermediate results and call sine, cosine and arctangent.

    [exec] runs a list of steps — [let v = e] or [let v = sin(e)], [cos(e)], [atan(e)], where [e] is any formula of C164 over the inputs
    and the names so far — and then a result formula.  [pvalue] is the real number the program denotes, [pslack] the error bound,
    [psafe] the condition that every formula is safe and every argument is one the function is accurate for. *)

From Coq Require Import ZArith Reals Lra Lia List.
From Flocq Require Import Core.Core IEEE754.BinarySingleNaN.
From Verif Require Import Base FloatBase Traits Trig FixedPrim FixedImpl FloatImpl Spec SpecFormula SpecProgram SpecProfile ProgramProofs.
Import ListNotations.
Open Scope Z_scope.

(** C166. *)
Theorem C166_fixed : forall m f, supported f = true -> fsigned f = true -> 2 <= ffrac f <= fwidth f - 4 ->
  forall env x d, (forall i, fvalid f (env i) /\ (Rabs (fval f (env i) - x i) <= d i)%R) ->
  forall p e, let top := fval f (fmax f) in psafe (round_fixed (ulp f)) (tol_fixed (ulp f)) (dom_fixed f top) top x d p e ->
  exists r, returns (fun fuel => exec (fixed_ops m f) (fixed_signed m f) (fixed_abs m f) (fixed_sqrt m f fuel) (fixed_fn m f fuel) env p e) r /\
  fvalid f r /\ (Rabs (fval f r - pvalue x p e) <= pslack (round_fixed (ulp f)) (tol_fixed (ulp f)) x d p e)%R.
Proof. exact program_fixed. Qed.
Print Assumptions C166_fixed.
Theorem C166_f32 : forall m sq, (forall x : f32, sq x = Bsqrt mode_NE x) ->
  forall env x d, (forall i, is_finite (env i) = true /\ (Rabs (B2R (env i) - x i) <= d i)%R) ->
  forall p e, let u := round_float (bpow radix2 (-24)) (bpow radix2 (3 - 128 - 24)) in
  psafe u tol_float (dom_float (bpow radix2 61)) (bpow radix2 128 - bpow radix2 (128 - 24)) x d p e ->
  exists r, returns (fun fuel => exec float_ops float_signed float_abs (float_sqrt m sq fuel) (float_fn fuel) env p e) r /\ is_finite r = true /\
  (Rabs (B2R r - pvalue x p e) <= pslack u tol_float x d p e)%R.
Proof. exact program_f32. Qed.
Print Assumptions C166_f32.
Theorem C166_f64 : forall m sq, (forall x : f64, sq x = Bsqrt mode_NE x) ->
  forall env x d, (forall i, is_finite (env i) = true /\ (Rabs (B2R (env i) - x i) <= d i)%R) ->
  forall p e, let u := round_float (bpow radix2 (-53)) (bpow radix2 (3 - 1024 - 53)) in
  psafe u tol_float (dom_float (bpow radix2 509)) (bpow radix2 1024 - bpow radix2 (1024 - 53)) x d p e ->
  exists r, returns (fun fuel => exec float_ops float_signed float_abs (float_sqrt m sq fuel) (float_fn fuel) env p e) r /\ is_finite r = true /\
  (Rabs (B2R r - pvalue x p e) <= pslack u tol_float x d p e)%R.
Proof. exact program_f64. Qed.
Print Assumptions C166_f64.
(** Whatever a debug build returns, a release build and every wider type with the same fractional bits return. *)
Theorem C166_wide : forall m f g, supported f = true -> fsigned g = fsigned f -> ffrac g = ffrac f -> fwidth f <= fwidth g -> forall fuel p env e,
  refines (exec (fixed_ops Debug f) (fixed_signed Debug f) (fixed_abs Debug f) (fixed_sqrt Debug f fuel) (fixed_fn Debug f fuel) env p e)
    (exec (fixed_ops m g) (fixed_signed m g) (fixed_abs m g) (fixed_sqrt m g fuel) (fixed_fn m g fuel) env p e).
Proof. exact program_wide. Qed.
Print Assumptions C166_wide.

(** ** a concrete case: [let c = cos(a); let s = sin(a); s * s + c * c] *)
Definition steps := [LetCall Cosine (Input 0); LetCall Sine (Input 1)].
Definition result := Plus (Times (Input 0) (Input 0)) (Times (Input 1) (Input 1)).
Definition i32f32 := mkFty true 64 32.
Example C166_ex : let x := fun _ : nat => 1%R in let d := fun _ : nat => 0%R in let f := i32f32 in let top := fval f (fmax f) in
  psafe (round_fixed (ulp f)) (tol_fixed (ulp f)) (dom_fixed f top) top x d steps result /\ pvalue x steps result = 1%R /\
  (pslack (round_fixed (ulp f)) (tol_fixed (ulp f)) x d steps result <= 3 / 100000)%R.
Proof.
  cbv zeta. assert (U : ulp i32f32 = (/ 4294967296)%R) by (unfold ulp; cbn; lra). assert (M : fval i32f32 (fmax i32f32) = (9223372036854775807 / 4294967296)%R) by reflexivity. rewrite U, M.
  cbn [psafe pslack pvalue steps result push value safe slack exact tol_fixed dom_fixed round_fixed r_sum r_prod].
  assert (S : (Rabs (Rtrigo_def.sin 1) <= 1)%R) by (apply Rabs_le, SIN_bound). assert (C : (Rabs (Rtrigo_def.cos 1) <= 1)%R) by (apply Rabs_le, COS_bound).
  pose proof PI2_1 as P. pose proof (sin2_cos2 1) as E. unfold Rsqr in E. rewrite E.
  rewrite !(Rabs_mult (Rtrigo_def.sin 1)), !(Rabs_mult (Rtrigo_def.cos 1)), !Rabs_R1. pose proof (Rabs_pos (Rtrigo_def.sin 1)) as S0. pose proof (Rabs_pos (Rtrigo_def.cos 1)) as C0.
  set (s := Rabs (Rtrigo_def.sin 1)) in *. set (c := Rabs (Rtrigo_def.cos 1)) in *. clearbody s c.
  assert (ss : (0 <= s * s <= 1)%R) by nra. assert (cc : (0 <= c * c <= 1)%R) by nra.
  repeat split; try lra; discriminate.
Qed.
Example C166_ex_run : match exec (fixed_ops Debug i32f32) (fixed_signed Debug i32f32) (fixed_abs Debug i32f32) (fixed_sqrt Debug i32f32 9%nat) (fixed_fn Debug i32f32 9%nat) (fun _ => 4294967296) steps result with
  | Ok r => 4294967296 - 128849 <= r <= 4294967296 + 128849 | _ => False end.
Proof. vm_compute. split; discriminate. Qed.
