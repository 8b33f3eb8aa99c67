(** * Property C163: removing the phase of a pilot. *)

From Coq Require Import ZArith Reals Lra List Bool.
From Flocq Require Import Core.Core IEEE754.BinarySingleNaN.
From Verif Require Import Base FloatBase Traits FixedPrim FixedImpl FloatImpl Complex Spec SpecFilter SpecRotor SpecUnit SpecPhase SpecDerot DerotProofs.
Import ListNotations.
Open Scope Z_scope.

Notation finite z := (is_finite (re z) = true /\ is_finite (im z) = true).

(** C163.  A receiver divides a pilot by its magnitude, conjugates it and multiplies every sample by the result.  Every sample is
    turned back by the pilot's angle: whatever the list, each output is the sample times the conjugate of the pilot's direction to
    within the stated error ([unit_tol] is twice the relative error of mag plus 1.42 steps). *)
Theorem C163_fixed : forall m f, supported f = true -> fsigned f = true -> 2 <= ffrac f <= fwidth f - 4 -> forall z b, let N := cabs (cval f z) in
  (N * N <= fval f (fmax f))%R -> (2 * ((/ 1000 + 5 * ulp f) * N + 3 * ulp f + sqrt (2 * ulp f)) <= N)%R -> (b * (1 + unit_tol f z) + 224 / 100 * ulp f <= fval f (fmax f))%R ->
  forall ys, (forall y, In y ys -> (cabs (cval f y) <= b)%R) ->
  exists ps, returns (fun fuel => derotate (fixed_ops m f) (fixed_signed m f) (fixed_sqrt m f fuel) (fixed_powi m f) (ops_div_scalar_cartesian (fixed_ops m f) (fixed_real m f)) z ys) ps /\
  Forall2 (fun y p => (cabs (csub (cval f p) (cmul (cval f y) (cconj (cunit (cval f z))))) <= cabs (cval f y) * unit_tol f z + 224 / 100 * ulp f)%R) ys ps.
Proof. exact derotate_fixed. Qed.
Print Assumptions C163_fixed.
Theorem C163_float : forall p e {Hp : Prec_gt_0 p} {He : Prec_lt_emax p e}, 24 <= p -> 40 <= e -> forall m fuel sq, (forall x, sq x = Bsqrt mode_NE x) ->
  forall (z : Cartesian (binary_float p e)) k, 1 <= k -> 2 * k + 1 < e -> finite z ->
  (bpow radix2 (14 - e) <= cabs (cvalf z) * cabs (cvalf z))%R -> (cabs (cvalf z) <= bpow radix2 k)%R ->
  forall ys, (forall y, In y ys -> finite y /\ (cabs (cvalf y) <= bpow radix2 k)%R) ->
  exists ps, derotate float_ops float_signed (float_sqrt m sq fuel) float_powi (cartesian_div_scalar float_ops float_ops (float_conv_float p e) float_zero float_real) z ys = Ok ps /\
  Forall (fun p => finite p) ps /\
  Forall2 (fun y q => (cabs (csub (cvalf q) (cmul (cvalf y) (cconj (cunit (cvalf z))))) <= 8 * bpow radix2 (- p) * cabs (cvalf y) + 3 * bpow radix2 (3 - e - p))%R) ys ps.
Proof. exact @derotate_float. Qed.
Print Assumptions C163_float.
(** In terms of what was sent: if every sample is the pilot times a symbol, the outputs are the symbols times the pilot's magnitude. *)
Theorem C163_symbols_fixed : forall m f, supported f = true -> fsigned f = true -> 2 <= ffrac f <= fwidth f - 4 -> forall z b, let N := cabs (cval f z) in
  let e := (2 * ((/ 1000 + 5 * ulp f) * N + 3 * ulp f + sqrt (2 * ulp f)) / N + 142 / 100 * ulp f)%R in
  (N * N <= fval f (fmax f))%R -> (2 * ((/ 1000 + 5 * ulp f) * N + 3 * ulp f + sqrt (2 * ulp f)) <= N)%R -> (b * (1 + e) + 224 / 100 * ulp f <= fval f (fmax f))%R ->
  forall ys ss, (forall y, In y ys -> (cabs (cval f y) <= b)%R) -> map (cval f) ys = map (fun s => cmul (cval f z) s) ss ->
  exists ps, returns (fun fuel => derotate (fixed_ops m f) (fixed_signed m f) (fixed_sqrt m f fuel) (fixed_powi m f) (ops_div_scalar_cartesian (fixed_ops m f) (fixed_real m f)) z ys) ps /\
  Forall2 (fun s p => (cabs (csub (cval f p) (cscale N s)) <= N * cabs s * e + 224 / 100 * ulp f)%R) ss ps.
Proof. exact symbols_fixed. Qed.
Print Assumptions C163_symbols_fixed.
Theorem C163_symbols_float : forall p e {Hp : Prec_gt_0 p} {He : Prec_lt_emax p e}, 24 <= p -> 40 <= e -> forall m fuel sq, (forall x, sq x = Bsqrt mode_NE x) ->
  forall (z : Cartesian (binary_float p e)) k, 1 <= k -> 2 * k + 1 < e -> finite z -> let N := cabs (cvalf z) in
  (bpow radix2 (14 - e) <= N * N)%R -> (N <= bpow radix2 k)%R ->
  forall ys ss, (forall y, In y ys -> finite y /\ (cabs (cvalf y) <= bpow radix2 k)%R) -> map cvalf ys = map (fun s => cmul (cvalf z) s) ss ->
  exists ps, derotate float_ops float_signed (float_sqrt m sq fuel) float_powi (cartesian_div_scalar float_ops float_ops (float_conv_float p e) float_zero float_real) z ys = Ok ps /\
  Forall (fun p => finite p) ps /\
  Forall2 (fun s q => (cabs (csub (cvalf q) (cscale N s)) <= 8 * bpow radix2 (- p) * (N * cabs s) + 3 * bpow radix2 (3 - e - p))%R) ss ps.
Proof. exact @symbols_float. Qed.
Print Assumptions C163_symbols_float.

(** Pilot 3 + 4 i, symbols 1, i and -1, FixedI32<U16>: the outputs are near 5, 5 i and -5. *)
Example C163_ex : let f := mkFty true 32 16 in let o := fone f in let z := mkC (3 * o) (4 * o) in
  let ys := [mkC (3 * o) (4 * o); mkC (- (4 * o)) (3 * o); mkC (- (3 * o)) (- (4 * o))] in let ss := [(1, 0); (0, 1); (-1, 0)]%R in
  map (cval f) ys = map (fun s => cmul (cval f z) s) ss /\ (forall y, In y ys -> cabs (cval f y) = 5%R) /\
  (5 * 5 <= fval f (fmax f))%R /\ (2 * ((/ 1000 + 5 * ulp f) * 5 + 3 * ulp f + sqrt (2 * ulp f)) <= 5)%R /\ (5 * (1 + unit_tol f z) + 224 / 100 * ulp f <= fval f (fmax f))%R /\
  derotate (fixed_ops Debug f) (fixed_signed Debug f) (fixed_sqrt Debug f 64) (fixed_powi Debug f) (ops_div_scalar_cartesian (fixed_ops Debug f) (fixed_real Debug f)) z ys = Ok [mkC 327843 (-1); mkC 1 327843; mkC (-327843) 1].
Proof.
  cbv zeta. assert (FV : forall k, fval (mkFty true 32 16) k = (IZR k * / 65536)%R) by (intros; reflexivity). change (fone (mkFty true 32 16)) with 65536.
  assert (U : ulp (mkFty true 32 16) = (/ 65536)%R) by reflexivity. assert (C5 : forall x y, (x * x + y * y = 25)%R -> cabs (x, y) = 5%R) by (intros x y H; unfold cabs; cbn [fst snd]; rewrite H; replace 25%R with (5 * 5)%R by ring; apply sqrt_square; lra).
  assert (S : (sqrt (2 * ulp (mkFty true 32 16)) <= / 100)%R). { rewrite U. rewrite <- (sqrt_square (/ 100)) by lra. apply sqrt_le_1; lra. }
  assert (V : forall a b, cval (mkFty true 32 16) (mkC (a * 65536) (b * 65536)) = (IZR a, IZR b)). { intros a b. unfold cval. cbn [re im]. rewrite !FV, !mult_IZR. f_equal; field. }
  assert (VN : forall a, - (a * 65536) = (- a) * 65536) by (intros; ring). rewrite !VN.
  split; [cbn [map]; rewrite !V; unfold cmul; cbn [fst snd Z.opp]; repeat f_equal; ring|].
  split; [intros y [<-|[<-|[<-|[]]]]; rewrite V; apply C5; cbn; ring|].
  rewrite FV. change (fmax _) with 2147483647. split; [lra|]. split; [rewrite U in *; lra|]. split; [|vm_compute; reflexivity].
  unfold unit_tol. rewrite V, (C5 3 4)%R by ring. rewrite U in *. pose proof (sqrt_pos (2 * / 65536)). lra.
Qed.
(** The same in f32: samples 3 + 4 i and -4 + 3 i come out as 5 and 5 i. *)
Example C163_f32_ex : let n := float_of_Z 24 128 in let z := mkC (n 3) (n 4) in
  match derotate float_ops float_signed (float_sqrt Release (Bsqrt mode_NE) 10) float_powi (cartesian_div_scalar float_ops float_ops (float_conv_float 24 128) float_zero float_real) z [z; mkC (n (-4)) (n 3)]
  with Ok ps => map (fun q => (B2SF (re q), B2SF (im q))) ps =
    [(SpecFloat.S754_finite false 10485760 (-21), SpecFloat.S754_zero false); (SpecFloat.S754_zero false, SpecFloat.S754_finite false 10485760 (-21))] | _ => False end.
Proof. vm_compute. reflexivity. Qed.
