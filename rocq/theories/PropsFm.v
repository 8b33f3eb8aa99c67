(** * Property C160: a frequency discriminator. *)

From Coq Require Import ZArith Reals Lra List Bool.
From Flocq Require Import Core.Core IEEE754.BinarySingleNaN.
From Verif Require Import Base FloatBase Traits Trig FixedPrim FixedImpl FloatImpl Complex Spec SpecAngle SpecFilter SpecRotor SpecUnit SpecPolar SpecFloatPolar SpecFm AtanReal PolarProofs3 FloatPolar FilterProofs SinReal AngleProofs FmProofs.
Import ListNotations.
Open Scope Z_scope.

Notation finite z := (is_finite (re z) = true /\ is_finite (im z) = true).

(** C160.  A signal is given by samples, each of which has a phase, and turns by at most s < PI from one to the next.  The user's
    loop -- each sample times the conjugate of the one before, then the angle -- returns for every list of samples; each output is
    the phase step to within the error of the angle function plus rounding, and the outputs add up to the total phase movement,
    with its full turns, to within that error times their number. *)
Theorem C160_poly_fixed : forall m f (a b s : R), supported f = true -> fsigned f = true ->
  (0 < a)%R -> (23 * ulp f <= a * a)%R -> (40 * ulp f <= a * a * (a * a))%R ->
  (3 / 2 * ((b * b + 224 / 100 * ulp f) * (b * b + 224 / 100 * ulp f)) <= fval f (fmax f))%R -> (s + 896 / 100 * ulp f / (a * a) < PI)%R ->
  forall z0 l, has_phase (cval f) a b z0 -> Forall (has_phase (cval f) a b) l -> turns_by s (snd z0) (map snd l) ->
  let e := (492 / 100000 + (3 + 13 / (a * a * (a * a)) + 896 / 100 / (a * a)) * ulp f)%R in
  exists cs, discriminator (fixed_ops m f) (fixed_signed m f) (fun p => fixed_atan2_poly m f (im p) (re p)) (fst z0) (map fst l) = Ok cs /\
  Forall2 (fun t c => (Rabs (fval f c - t) <= e)%R) (differences (snd z0) (map snd l)) cs /\
  (Rabs (fold_right Rplus 0 (map (fval f) cs) - (last (map snd l) (snd z0) - snd z0)) <= INR (length l) * e)%R.
Proof. exact fm_fixed. Qed.
Print Assumptions C160_poly_fixed.

Theorem C160_arg_fixed : forall m f At (d a b s : R), supported f = true -> fsigned f = true ->
  (0 < a)%R -> (224 / 100 * ulp f < a * a)%R -> (b * b + 224 / 100 * ulp f <= fval f (fmax f))%R -> (b <= fval f (fmax f))%R -> (s + 896 / 100 * ulp f / (a * a) < PI)%R ->
  (forall p, (cabs (cval f p) <= b * b + 224 / 100 * ulp f)%R -> accurate_atan2_at f d At (im p) (re p)) ->
  forall z0 l, has_phase (cval f) a b z0 -> Forall (has_phase (cval f) a b) l -> turns_by s (snd z0) (map snd l) ->
  let e := (d + 896 / 100 / (a * a) * ulp f)%R in
  exists cs, discriminator (fixed_ops m f) (fixed_signed m f) (cartesian_arg At) (fst z0) (map fst l) = Ok cs /\
  Forall2 (fun t c => (Rabs (fval f c - t) <= e)%R) (differences (snd z0) (map snd l)) cs /\
  (Rabs (fold_right Rplus 0 (map (fval f) cs) - (last (map snd l) (snd z0) - snd z0)) <= INR (length l) * e)%R.
Proof. exact fm_fixed_arg. Qed.
Print Assumptions C160_arg_fixed.

Theorem C160_poly_f32 : forall a b s, (0 < a)%R -> (bpow radix2 (-59) <= a * a)%R -> (b * b <= bpow radix2 60)%R -> (s <= 314159 / 100000)%R ->
  forall (z0 : Cartesian f32 * R) l, finite (fst z0) -> has_phase cvalf a b z0 -> Forall (fun r => finite (fst r)) l -> Forall (has_phase cvalf a b) l -> turns_by s (snd z0) (map snd l) ->
  exists cs, discriminator float_ops float_signed (fun p => float_atan2_poly (im p) (re p)) (fst z0) (map fst l) = Ok cs /\ Forall (fun c => is_finite c = true) cs /\
  Forall2 (fun t c => (Rabs (B2R c - t) <= 493 / 100000)%R) (differences (snd z0) (map snd l)) cs /\
  (Rabs (fold_right Rplus 0 (map B2R cs) - (last (map snd l) (snd z0) - snd z0)) <= INR (length l) * (493 / 100000))%R.
Proof. exact fm_f32. Qed.
Print Assumptions C160_poly_f32.
Theorem C160_poly_f64 : forall a b s, (0 < a)%R -> (bpow radix2 (-507) <= a * a)%R -> (b * b <= bpow radix2 508)%R -> (s <= 314159 / 100000)%R ->
  forall (z0 : Cartesian f64 * R) l, finite (fst z0) -> has_phase cvalf a b z0 -> Forall (fun r => finite (fst r)) l -> Forall (has_phase cvalf a b) l -> turns_by s (snd z0) (map snd l) ->
  exists cs, discriminator float_ops float_signed (fun p => float_atan2_poly (im p) (re p)) (fst z0) (map fst l) = Ok cs /\ Forall (fun c => is_finite c = true) cs /\
  Forall2 (fun t c => (Rabs (B2R c - t) <= 493 / 100000)%R) (differences (snd z0) (map snd l)) cs /\
  (Rabs (fold_right Rplus 0 (map B2R cs) - (last (map snd l) (snd z0) - snd z0)) <= INR (length l) * (493 / 100000))%R.
Proof. exact fm_f64. Qed.
Print Assumptions C160_poly_f64.
Theorem C160_arg_float : forall p e {Hp : Prec_gt_0 p} {He : Prec_lt_emax p e}, 24 <= p -> 40 <= e -> forall (At : MixedAtan (binary_float p e)) (d a b s : R), accurate_atan2_float d At ->
  (0 < a)%R -> (bpow radix2 (5 - e / 2) <= a * a)%R -> (b * b <= bpow radix2 (e / 2 - 4))%R -> (s + 16 * bpow radix2 (- p) < PI)%R ->
  forall (z0 : Cartesian (binary_float p e) * R) l, finite (fst z0) -> has_phase cvalf a b z0 -> Forall (fun r => finite (fst r)) l -> Forall (has_phase cvalf a b) l -> turns_by s (snd z0) (map snd l) ->
  exists cs, discriminator float_ops float_signed (cartesian_arg At) (fst z0) (map fst l) = Ok cs /\ Forall (fun c => is_finite c = true) cs /\
  Forall2 (fun t c => (Rabs (B2R c - t) <= d + 16 * bpow radix2 (- p))%R) (differences (snd z0) (map snd l)) cs /\
  (Rabs (fold_right Rplus 0 (map B2R cs) - (last (map snd l) (snd z0) - snd z0)) <= INR (length l) * (d + 16 * bpow radix2 (- p)))%R.
Proof. exact @fm_float_arg. Qed.
Print Assumptions C160_arg_float.

(** One full turn in quarter turns: 1, i, -1, -i, 1 on 32-bit numbers with 16 fractional bits.  The four outputs are quarter turns of
    the same sign although the plain angle of the samples jumps from PI to -PI/2, so their sum is close to 2 PI. *)
Example C160_quarter_turns : let f := mkFty true 32 16 in let o := fone f in
  let z0 := (mkC o 0, 0%R) in let l := [(mkC 0 o, (PI / 2)%R); (mkC (- o) 0, PI); (mkC 0 (- o), (3 * (PI / 2))%R); (mkC o 0, (2 * PI)%R)] in
  has_phase (cval f) 1 1 z0 /\ Forall (has_phase (cval f) 1 1) l /\ turns_by (PI / 2) (snd z0) (map snd l) /\
  (23 * ulp f <= 1 /\ 40 * ulp f <= 1 /\ 3 / 2 * ((1 * 1 + 224 / 100 * ulp f) * (1 * 1 + 224 / 100 * ulp f)) <= fval f (fmax f) /\ PI / 2 + 896 / 100 * ulp f / (1 * 1) < PI)%R /\
  discriminator (fixed_ops Release f) (fixed_signed Release f) (fun p => fixed_atan2_poly Release f (im p) (re p)) (fst z0) (map fst l) = Ok [102943; 102943; 102943; 102943] /\
  accurate_atan2 f (ulp f) (ideal_atan f AtanReal.angle).
Proof.
  cbv zeta. pose proof pi_bounds as PB.
  assert (U : ulp (mkFty true 32 16) = (/ 65536)%R) by reflexivity.
  assert (FV : forall b, fval (mkFty true 32 16) b = (IZR b * / 65536)%R) by (intros b; reflexivity).
  assert (V0 : fval (mkFty true 32 16) 0 = 0%R) by (rewrite FV; ring).
  assert (V1 : fval (mkFty true 32 16) (fone (mkFty true 32 16)) = 1%R) by (rewrite FV; change (fone _) with 65536; field).
  assert (V2 : fval (mkFty true 32 16) (- fone (mkFty true 32 16)) = (-1)%R) by (rewrite FV; change (- fone _) with (-65536); field).
  assert (VM : fval (mkFty true 32 16) (fmax (mkFty true 32 16)) = (2147483647 / 65536)%R) by (rewrite FV; reflexivity).
  assert (HP : forall x y t, (x * x + y * y = 1)%R -> cis t = (x, y) -> forall z, cval (mkFty true 32 16) z = (x, y) -> has_phase (cval (mkFty true 32 16)) 1 1 (z, t)).
  { intros x y t H1 H2 z Hz. unfold has_phase. cbn [fst snd]. rewrite Hz, H2. assert (E : cabs (x, y) = 1%R) by (unfold cabs; cbn [fst snd]; rewrite H1; apply sqrt_1).
    rewrite E. split; [lra|]. unfold cunit. rewrite E. cbn [fst snd]. f_equal; field. }
  split; [apply (HP 1 0)%R; [ring|unfold cis; rewrite cos_0, sin_0; reflexivity|unfold cval; cbn [re im]; rewrite V0, V1; reflexivity]|].
  split.
  { repeat apply Forall_cons; [| | | |apply Forall_nil].
    - apply (HP 0 1)%R; [ring|unfold cis; rewrite cos_PI2, sin_PI2; reflexivity|unfold cval; cbn [re im]; rewrite V0, V1; reflexivity].
    - apply (HP (-1) 0)%R; [ring|unfold cis; rewrite cos_PI, sin_PI; reflexivity|unfold cval; cbn [re im]; rewrite V0, V2; reflexivity].
    - apply (HP 0 (-1))%R; [ring|unfold cis; rewrite cos_3PI2, sin_3PI2; reflexivity|unfold cval; cbn [re im]; rewrite V0, V2; reflexivity].
    - apply (HP 1 0)%R; [ring|unfold cis; rewrite cos_2PI, sin_2PI; reflexivity|unfold cval; cbn [re im]; rewrite V0, V1; reflexivity]. }
  split; [cbn [map snd turns_by]; repeat split; apply Rabs_le; lra|].
  split; [rewrite U, VM; repeat split; lra|]. split; [vm_compute; reflexivity|]. apply ideal_atan2_ok; reflexivity.
Qed.
(** From 1 to i on f64: a quarter turn, within the range the theorems ask for. *)
Example C160_f64_ex : let one := float_of_Z 53 1024 1 in let zero := float_of_Z 53 1024 0 in
  let z0 := (mkC one zero, 0%R) in let l := [(mkC zero one, (PI / 2)%R)] in
  has_phase (@cvalf 53 1024) 1 1 z0 /\ Forall (has_phase cvalf 1 1) l /\ turns_by (PI / 2) (snd z0) (map snd l) /\
  (PI / 2 <= 314159 / 100000)%R /\ finite (fst z0) /\ accurate_atan2_float (8 * bpow radix2 (-53)) (ideal_atan_float angle : MixedAtan f64) /\
  match discriminator float_ops float_signed (fun p => float_atan2_poly (im p) (re p)) (fst z0) (map fst l) with
  | Ok [c] => B2SF c = SpecFloat.S754_finite false 7074237752028440 (-52) | _ => False end.
Proof.
  cbv zeta. pose proof pi_bounds as PB.
  assert (E1 : B2R (float_of_Z 53 1024 1) = 1%R) by (unfold B2R, F2R; cbn; lra). assert (E0 : B2R (float_of_Z 53 1024 0) = 0%R) by reflexivity.
  assert (HP : forall x y t, (x * x + y * y = 1)%R -> cis t = (x, y) -> forall z : Cartesian f64, cvalf z = (x, y) -> has_phase (@cvalf 53 1024) 1 1 (z, t)).
  { intros x y t H1 H2 z Hz. unfold has_phase. cbn [fst snd]. rewrite Hz, H2. assert (E : cabs (x, y) = 1%R) by (unfold cabs; cbn [fst snd]; rewrite H1; apply sqrt_1).
    rewrite E. split; [lra|]. unfold cunit. rewrite E. cbn [fst snd]. f_equal; field. }
  split; [apply (HP 1 0)%R; [ring|unfold cis; rewrite cos_0, sin_0; reflexivity|unfold cvalf; cbn [re im]; rewrite E0, E1; reflexivity]|].
  split; [apply Forall_cons; [|apply Forall_nil]; apply (HP 0 1)%R; [ring|unfold cis; rewrite cos_PI2, sin_PI2; reflexivity|unfold cvalf; cbn [re im]; rewrite E0, E1; reflexivity]|].
  clear HP E1 E0. split; [cbn [map snd turns_by]; repeat split; apply Rabs_le; lra|]. split; [lra|]. split; [split; reflexivity|].
  split; [exact (@ideal_atan_ok 53 1024 _ _ ltac:(discriminate) ltac:(reflexivity))|]. vm_compute. reflexivity.
Qed.
