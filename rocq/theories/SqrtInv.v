(** * The square root undoes squaring, and squaring the square root. *)

From Coq Require Import ZArith Reals Lia Lra Psatz Bool List.
From Flocq Require Import Core.Core IEEE754.BinarySingleNaN.
From Flocq Require Import Relative.
From Verif Require Import Base FloatBase Literals Traits Trig IntImpl FixedPrim FixedImpl FloatImpl Complex Spec
  Lemmas FloatLemmas FloatKit ScalarProofs ScalarProofs2 WrapProofs FloatProofs ComplexProofs2 SinFixed TrigProofs NiirfFixed2 NiirfFixed4 NiirfFloat PolarProofs MagProofs.
Open Scope Z_scope.

(** ** fixed point *)
Lemma sqrt_minus : forall a b, (0 <= a -> 0 <= b -> a * a - b <= a * a -> 0 <= a * a - b ->
  a - sqrt b <= sqrt (a * a - b) <= a /\ (0 < a -> a - b / a <= sqrt (a * a - b)))%R.
Proof.
  intros a b A B _ N. set (t := sqrt (a * a - b)). assert (T0 : (0 <= t)%R) by apply sqrt_pos. assert (TT : (t * t = a * a - b)%R) by (apply sqrt_sqrt; auto).
  set (s := sqrt b). assert (S0 : (0 <= s)%R) by apply sqrt_pos. assert (SS : (s * s = b)%R) by (apply sqrt_sqrt; auto). split; [split|].
  - destruct (Rle_lt_dec (a - s) t) as [L|L]; auto. exfalso. assert ((t + s) * (t + s) < a * a)%R by (apply Rmult_le_0_lt_compat; lra). nra.
  - destruct (Rle_lt_dec t a) as [L|L]; auto. exfalso. nra.
  - intros A0. assert (TA : (t <= a)%R) by (destruct (Rle_lt_dec t a) as [L|L]; auto; exfalso; nra).
    apply Rmult_le_reg_r with a; auto. unfold Rdiv. rewrite Rmult_minus_distr_r, Rmult_assoc, Rinv_l by lra. nra.
Qed.
Lemma sqrt_of_square : forall m f, supported f = true -> fsigned f = true -> 2 <= ffrac f <= fwidth f - 4 ->
  forall x, (fval f x * fval f x <= fval f (fmax f))%R -> exists s r,
  o_mul (fixed_ops m f) x x = Ok s /\ mixed_powi (fixed_powi m f) x 2 = Ok s /\ returns (fun fuel => mixed_sqrt (fixed_sqrt m f fuel) s) r /\
  let e := ((/ 1000 + 5 * ulp f) * Rabs (fval f x) + 3 * ulp f)%R in
  (Rabs (fval f r - Rabs (fval f x)) <= e + sqrt (ulp f))%R /\ (x <> 0 -> (Rabs (fval f r - Rabs (fval f x)) <= e + ulp f / Rabs (fval f x))%R).
Proof.
  intros m f Hf S F x H. pose proof (supported_fwf f Hf) as W. set (v := fval f x) in *.
  assert (VV : (0 <= v * v)%R) by apply Rle_0_sqr.
  destruct (fmul_ok m f x x W S) as [E _]; [fold v; rewrite Rabs_pos_eq; auto|]. pose proof (fval_mul f x x (proj1 W)) as G. fold v in G.
  set (s := x * x / fone f) in *. pose proof (fone_pos f (proj1 W)) as Q. assert (S0 : 0 <= s) by (apply Z.div_pos; nia).
  assert (V : fvalid f s). { unfold fx_mul in E. fold s in E. apply fvalid_iff. rewrite S.
    pose proof (fval_le f s (fmax f) (proj1 W)) as L. rewrite (fmax_signed f) in L by auto. assert (s <= 2 ^ (fwidth f - 1) - 1) by (apply L; rewrite <- (fmax_signed f) by auto; lra).
    assert (0 < 2 ^ (fwidth f - 1)) by (apply Z.pow_pos_nonneg; lia). lia. }
  destruct (sqrt_fixed_api m f Hf S F s V S0) as (r & R & _ & A).
  exists s, r. split; [exact E|]. split; [rewrite sq_eq; exact E|]. split; [exact R|]. cbv zeta.
  assert (U : (0 < ulp f)%R) by apply bpow_gt_0. assert (SV : (0 <= fval f s)%R) by (unfold fval; apply Rmult_le_pos; [apply IZR_le; auto|apply bpow_ge_0]).
  set (a := Rabs v). assert (AA : (a * a = v * v)%R) by (unfold a, Rabs; destruct (Rcase_abs v); ring). assert (A0 : (0 <= a)%R) by apply Rabs_pos.
  set (b := (a * a - fval f s)%R). assert (B : (0 <= b <= ulp f)%R) by (unfold b; rewrite AA; lra). assert (EV : (fval f s = a * a - b)%R) by (unfold b; ring).
  destruct (sqrt_minus a b A0 (proj1 B)) as [[L1 L2] L3]; [lra|rewrite <- EV; auto|]. rewrite <- EV in L1, L2, L3. set (t := sqrt (fval f s)) in *.
  assert (K : ((/ 1000 + 5 * ulp f) * t <= (/ 1000 + 5 * ulp f) * a)%R) by (apply Rmult_le_compat_l; lra). apply Rabs_le_inv in A. split.
  - assert (sqrt b <= sqrt (ulp f))%R by (apply sqrt_le_1; lra). apply Rabs_le. lra.
  - intros NZ. assert (P : (0 < a)%R). { unfold a. apply Rabs_pos_lt. unfold v, fval. intros Z0. apply Rmult_integral in Z0. destruct Z0 as [Z0|Z0]; [apply (eq_IZR x 0) in Z0; auto|]. pose proof (bpow_gt_0 radix2 (- ffrac f)). lra. }
    specialize (L3 P). assert (b / a <= ulp f / a)%R by (unfold Rdiv; apply Rmult_le_compat_r; [left; apply Rinv_0_lt_compat; auto|lra]). apply Rabs_le. lra.
Qed.
Lemma square_of_sqrt : forall m f, supported f = true -> fsigned f = true -> 2 <= ffrac f <= fwidth f - 4 ->
  forall x, fvalid f x -> 0 <= x ->
  let a := (/ 1000 + 5 * ulp f)%R in let e := (a * (2 + a) * fval f x + 6 * (1 + a) * ulp f * sqrt (fval f x) + 9 * (ulp f * ulp f))%R in
  (fval f x + e <= fval f (fmax f))%R -> exists r s,
  returns (fun fuel => mixed_sqrt (fixed_sqrt m f fuel) x) r /\ o_mul (fixed_ops m f) r r = Ok s /\ mixed_powi (fixed_powi m f) r 2 = Ok s /\
  (Rabs (fval f s - fval f x) <= e + ulp f)%R.
Proof.
  intros m f Hf S F x V X0 a e H. pose proof (supported_fwf f Hf) as W. destruct (sqrt_fixed_api m f Hf S F x V X0) as (r & R & _ & A). fold a in A.
  set (t := sqrt (fval f x)) in *. assert (T0 : (0 <= t)%R) by apply sqrt_pos.
  assert (SV : (0 <= fval f x)%R) by (unfold fval; apply Rmult_le_pos; [apply IZR_le; auto|apply bpow_ge_0]). assert (TT : (t * t = fval f x)%R) by (apply sqrt_sqrt; auto).
  assert (U : (0 < ulp f)%R) by apply bpow_gt_0. assert (A0 : (0 < a)%R) by (unfold a; lra). set (d := (fval f r - t)%R) in *.
  assert (EE : (e = (a * t + 3 * ulp f) * (2 * t + (a * t + 3 * ulp f)))%R) by (unfold e; rewrite <- TT; ring).
  assert (B : (Rabs (fval f r * fval f r - fval f x) <= e)%R).
  { replace (fval f r * fval f r - fval f x)%R with (d * (2 * t + d))%R by (unfold d; rewrite <- TT; ring). rewrite Rabs_mult, EE. apply Rmult_le_compat; try apply Rabs_pos; auto.
    eapply Rle_trans; [apply Rabs_triang|]. rewrite (Rabs_pos_eq (2 * t)) by lra. lra. }
  apply Rabs_le_inv in B. assert (RR : (0 <= fval f r * fval f r)%R) by apply Rle_0_sqr.
  destruct (fmul_ok m f r r W S) as [E G]; [rewrite Rabs_pos_eq by auto; lra|]. exists r, (r * r / fone f). split; [exact R|]. split; [exact E|].
  split; [rewrite sq_eq; exact E|]. apply Rabs_lt_inv in G. apply Rabs_le. lra.
Qed.

(** ** floats with a correctly rounded root: the root of a square is exact *)
Section Flt.
Variables (emin prec : Z).
Hypothesis (P2 : 2 <= prec).
Context {Hp : Prec_gt_0 prec}.
Notation fx := (FLT_exp emin prec).
Notation rn := (round radix2 fx ZnearestE).
Lemma root_of_square : forall x, generic_format radix2 fx x -> (0 < x)%R -> (bpow radix2 (emin + prec - 1) <= x)%R -> (bpow radix2 (emin + prec - 1) <= x * x)%R ->
  rn (sqrt (rn (x * x))) = x.
Proof using P2 Hp.
  intros x Fx X0 N1 N2. set (e := Raux.mag radix2 x : Z). assert (ME : (bpow radix2 (e - 1) <= x < bpow radix2 e)%R).
  { unfold e. clear e. destruct (Raux.mag radix2 x) as [e' K]. cbn [mag_val]. rewrite Rabs_pos_eq in K by lra. apply K. lra. }
  assert (EP : emin <= e - prec). { assert (emin + prec - 1 < e); [|lia]. apply (lt_bpow radix2). lra. }
  assert (CE : fx e = e - prec) by (unfold FLT_exp; lia).
  assert (XM : exists k, x = (IZR k * bpow radix2 (e - prec))%R). { exists (Ztrunc (scaled_mantissa radix2 fx x)). pose proof Fx as Fx'. unfold generic_format, F2R in Fx'. cbn in Fx'. unfold cexp in Fx'. fold e in Fx'. rewrite CE in Fx'. exact Fx'. }
  destruct XM as (k & XK). set (w := bpow radix2 (e - prec)) in *. assert (W0 : (0 < w)%R) by apply bpow_gt_0.
  set (B := bpow radix2 e) in *. set (u := bpow radix2 (- prec)). assert (U0 : (0 < u)%R) by apply bpow_gt_0. assert (WB : (w = u * B)%R) by (unfold w, u, B; rewrite <- bpow_plus; f_equal; lia).
  assert (BK : (B = IZR (2 ^ prec) * w)%R). { unfold B, w. rewrite (IZR_Zpower radix2) by lia. rewrite <- bpow_plus. f_equal. lia. }
  assert (XB : (x <= B - w)%R). { rewrite XK, BK. assert (k <= 2 ^ prec - 1). { assert (IZR k < IZR (2 ^ prec))%R by (apply Rmult_lt_reg_r with w; auto; rewrite <- XK, <- BK; lra). apply lt_IZR in H. lia. }
    apply IZR_le in H. rewrite minus_IZR in H. replace (IZR (2 ^ prec) * w - w)%R with ((IZR (2 ^ prec) - 1) * w)%R by ring. apply Rmult_le_compat_r; lra. }
  set (y := rn (x * x)). assert (YE : (Rabs (y - x * x) <= u * (x * x))%R).
  { unfold y. assert (XX : (x * x = Rabs (x * x))%R) by (rewrite Rabs_pos_eq; [auto|apply Rle_0_sqr]). rewrite XX at 3. eapply Rle_trans; [apply (relative_error_N_FLT radix2 emin prec Hp (fun x => negb (Z.even x))); rewrite <- XX; exact N2|].
    replace (- prec + 1) with (1 + - prec) by ring. rewrite bpow_plus. change (bpow radix2 1) with 2%R. fold u. lra. }
  assert (YL : (bpow radix2 (2 * e - 2) <= y)%R).
  { unfold y. apply round_ge_generic; [apply FLT_exp_valid; auto|apply valid_rnd_N| |].
    - apply generic_format_bpow. unfold FLT_exp. assert (emin + prec - 1 < 2 * e); [|lia]. apply (lt_bpow radix2). replace (2 * e) with (e + e) by ring. rewrite bpow_plus. fold B.
      apply Rle_lt_trans with (1 := N2). apply Rmult_le_0_lt_compat; lra.
    - replace (2 * e - 2) with ((e - 1) + (e - 1)) by ring. rewrite bpow_plus. apply Rmult_le_compat; try lra; apply bpow_ge_0. }
  assert (U1 : (u <= / 4)%R). { change (/ 4)%R with (bpow radix2 (-2)). apply bpow_le. lia. }
  assert (Y0 : (0 < y)%R) by (eapply Rlt_le_trans; [apply bpow_gt_0|exact YL]).
  set (s := sqrt y). assert (S0 : (0 < s)%R) by (apply sqrt_lt_R0; auto). assert (SS : (s * s = y)%R) by (apply sqrt_sqrt; lra).
  apply Rabs_le_inv in YE. assert (XX0 : (0 < x * x)%R) by nra.
  assert (SL : ((1 - u) * x <= s)%R). { apply Rsqr_incr_0_var; [|lra]. unfold Rsqr. rewrite SS. assert ((1 - u) * x * ((1 - u) * x) <= (1 - u) * (x * x))%R; [|lra].
    replace ((1 - u) * x * ((1 - u) * x))%R with ((1 - u) * ((1 - u) * (x * x)))%R by ring. apply Rmult_le_compat_l; [lra|]. nra. }
  assert (D : (Rabs (s - x) * (2 - u) <= u * x)%R).
  { assert (Q : (Rabs (s - x) * (s + x) <= u * (x * x))%R). { rewrite <- (Rabs_pos_eq (s + x)) by lra. rewrite <- Rabs_mult. replace ((s - x) * (s + x))%R with (y - x * x)%R by (rewrite <- SS; ring). apply Rabs_le; lra. }
    apply Rmult_le_reg_r with x; auto. pose proof (Rabs_pos (s - x)) as Z0. assert (Rabs (s - x) * ((2 - u) * x) <= Rabs (s - x) * (s + x))%R by (apply Rmult_le_compat_l; lra). nra. }
  assert (DW : (Rabs (s - x) < w / 2)%R).
  { apply Rmult_lt_reg_r with (2 - u)%R; [lra|]. apply Rle_lt_trans with (1 := D). rewrite WB. assert (x < B * (1 - u / 2))%R by (rewrite WB in XB; assert (0 < u * B)%R by (rewrite <- WB; auto); lra).
    replace (u * B / 2 * (2 - u))%R with (u * (B * (1 - u / 2)))%R by (field). apply Rmult_lt_compat_l; auto. }
  assert (SB : (bpow radix2 (e - 1) <= s < bpow radix2 e)%R).
  { fold B. split; [|apply Rabs_lt_inv in DW; lra]. apply Rsqr_incr_0_var; [|lra]. unfold Rsqr. rewrite SS, <- bpow_plus. replace (e - 1 + (e - 1)) with (2 * e - 2) by ring. exact YL. }
  assert (MS : Raux.mag radix2 s = e :> Z) by (apply mag_unique; rewrite Rabs_pos_eq by lra; exact SB).
  unfold round, F2R. cbn. unfold scaled_mantissa, cexp. rewrite MS, CE. fold w. rewrite (Znearest_imp _ _ k); [auto|].
  assert (IW : (bpow radix2 (- (e - prec)) = / w)%R) by (unfold w; rewrite bpow_opp; auto). rewrite IW.
  replace (s * / w - IZR k)%R with ((s - x) * / w)%R by (rewrite XK; field; lra). rewrite Rabs_mult, (Rabs_pos_eq (/ w)) by (left; apply Rinv_0_lt_compat; auto).
  apply Rmult_lt_reg_r with w; auto. rewrite Rmult_assoc, Rinv_l by lra. lra.
Qed.
End Flt.

Section Float.
Context {prec emax : Z} {Hp : Prec_gt_0 prec} {He : Prec_lt_emax prec emax}.
Notation float := (binary_float prec emax).
Notation fexp := (SpecFloat.fexp prec emax).
Notation rnd := (round radix2 fexp ZnearestE).
Hypothesis (P2 : 2 <= prec) (E3 : 3 <= emax).

Lemma mult_fin : forall x y : float, is_finite (Bmult mode_NE x y) = true -> B2R (Bmult mode_NE x y) = rnd (B2R x * B2R y).
Proof using Type.
  intros x y F. pose proof (Bmult_correct prec emax _ _ mode_NE x y) as H. destruct (Rlt_bool _ _); [apply H|].
  destruct (Bmult mode_NE x y); try discriminate; cbn in H; discriminate.
Qed.
Lemma finite_pos_sign : forall z : float, is_finite z = true -> (0 < B2R z)%R -> Bsign z = false.
Proof using Type.
  intros [| | |[] mm ee H] F P; cbn in *; try discriminate; auto; try lra. exfalso. pose proof (F2R_lt_0 radix2 (Float radix2 (Z.neg mm) ee) eq_refl) as K. cbn in *. lra.
Qed.
Lemma root_sq : forall x : float, is_finite x = true -> is_finite (Bmult mode_NE x x) = true -> (bpow radix2 (2 - emax) <= B2R x * B2R x)%R ->
  Bsqrt mode_NE (Bmult mode_NE x x) = Babs x /\ Bsign (Bmult mode_NE x x) = false /\ (0 < B2R (Bmult mode_NE x x))%R.
Proof using P2 E3.
  intros x Fx Fy N. pose proof (mult_fin x x Fy) as VY. set (y := Bmult mode_NE x x) in *. set (v := Rabs (B2R x)).
  assert (VV : (B2R x * B2R x = v * v)%R) by (unfold v, Rabs; destruct (Rcase_abs _); ring). assert (V0 : (0 <= v)%R) by apply Rabs_pos. rewrite VV in *.
  assert (N1 : (bpow radix2 (2 - emax) <= v)%R). { apply Rsqr_incr_0_var; auto. unfold Rsqr. apply Rle_trans with (2 := N). rewrite <- bpow_plus. apply bpow_le. lia. }
  assert (VP : (0 < v)%R) by (eapply Rlt_le_trans; [apply bpow_gt_0|exact N1]).
  assert (FV : generic_format radix2 fexp v) by (unfold v; apply generic_format_abs, generic_format_B2R).
  assert (RS : rnd (sqrt (B2R y)) = v).
  { rewrite VY. apply (root_of_square (3 - emax - prec) prec P2 v); auto; replace (3 - emax - prec + prec - 1) with (2 - emax) by ring; auto. }
  assert (YP : (0 < B2R y)%R). { rewrite VY. eapply Rlt_le_trans; [apply (bpow_gt_0 radix2 (2 - emax))|]. apply round_ge_generic; auto; [apply (fexp_correct prec emax); auto|apply valid_rnd_N|].
    apply generic_format_bpow. unfold SpecFloat.fexp, SpecFloat.emin. pose proof (prec_gt_0 prec). lia. }
  pose proof (finite_pos_sign y Fy YP) as SY.
  destruct (Bsqrt_correct prec emax _ _ mode_NE y) as (VR & FR & SR). split; [|auto].
  assert (FF : is_finite (Bsqrt mode_NE y) = true). { rewrite FR. destruct y as [| | |[] ? ? ?]; try discriminate; auto. }
  apply B2R_Bsign_inj; auto; [rewrite is_finite_Babs; auto|rewrite VR, B2R_Babs; exact RS|].
  rewrite SR by (destruct (Bsqrt mode_NE y); auto; discriminate). rewrite SY. destruct x; reflexivity || discriminate.
Qed.
(** The magnitude of a real or imaginary float number is exact. *)
Lemma mag_axis : forall m fuel sq, (forall x : float, sq x = Bsqrt mode_NE x) -> forall x : float, is_finite x = true -> is_finite (Bmult mode_NE x x) = true -> (bpow radix2 (2 - emax) <= B2R x * B2R x)%R ->
  forall s, float_mag m sq fuel (mkC x (B754_zero s)) = Ok (Babs x) /\ float_mag m sq fuel (mkC (B754_zero s) x) = Ok (Babs x).
Proof using P2 E3.
  intros m fuel sq SQ x Fx Fy N s. destruct (root_sq x Fx Fy N) as (R & SY & YP). rewrite !float_mag_eq. cbn [re im]. set (y := Bmult mode_NE x x) in *.
  assert (Z0 : Bmult mode_NE (B754_zero s : float) (B754_zero s) = B754_zero false) by (destruct s; reflexivity). rewrite Z0.
  assert (P0 : Bplus mode_NE y (B754_zero false) = y). { destruct y as [| | |s' mm ee H]; try discriminate; try reflexivity. cbn in YP. lra. }
  rewrite (Bplus_comm _ y), P0, SQ, R. auto.
Qed.
Lemma sqrt_square_float : forall m fuel sq, (forall x : float, sq x = Bsqrt mode_NE x) -> forall x : float, is_finite x = true -> is_finite (Bmult mode_NE x x) = true -> (bpow radix2 (2 - emax) <= B2R x * B2R x)%R ->
  bind (o_mul float_ops x x) (mixed_sqrt (float_sqrt m sq fuel)) = Ok (Babs x) /\ bind (mixed_powi float_powi x 2) (mixed_sqrt (float_sqrt m sq fuel)) = Ok (Babs x).
Proof using P2 E3.
  intros m fuel sq SQ x Fx Fy N. destruct (root_sq x Fx Fy N) as (R & _ & _). destruct (powi_small x) as (_ & _ & -> & _). cbn [bind o_mul float_ops float_sqrt mixed_sqrt]. rewrite SQ, R. auto.
Qed.
End Float.

(** ** floats: the iterative root, and squaring a root *)
Lemma square_near : forall x r d, (0 <= x -> 0 <= d -> Rabs (r - sqrt x) <= d * sqrt x -> Rabs (r * r - x) <= d * (2 + d) * x)%R.
Proof.
  intros x r d X D H. set (t := sqrt x) in *. assert (T : (0 <= t)%R) by apply sqrt_pos. assert (TT : (t * t = x)%R) by (apply sqrt_sqrt; auto). rewrite <- TT.
  replace (r * r - t * t)%R with ((r - t) * (2 * t + (r - t)))%R by ring. rewrite Rabs_mult.
  replace (d * (2 + d) * (t * t))%R with ((d * t) * ((2 + d) * t))%R by ring. apply Rmult_le_compat; try apply Rabs_pos; auto.
  eapply Rle_trans; [apply Rabs_triang|]. rewrite (Rabs_pos_eq (2 * t)) by lra. lra.
Qed.
Section Float2.
Context {prec emax : Z} {Hp : Prec_gt_0 prec} {He : Prec_lt_emax prec emax}.
Notation float := (binary_float prec emax).
Notation fexp := (SpecFloat.fexp prec emax).
Notation rnd := (round radix2 fexp ZnearestE).
Notation ep := (bpow radix2 (- prec)).
Hypothesis (P24 : 24 <= prec) (E40 : 40 <= emax).

Lemma rnd_norm : forall v, (bpow radix2 (2 - emax) <= Rabs v)%R -> (Rabs (rnd v - v) <= ep * Rabs v)%R.
Proof using Hp.
  intros v N. eapply Rle_trans; [apply (relative_error_N_FLT radix2 (3 - emax - prec) prec Hp (fun x => negb (Z.even x)) v); replace (3 - emax - prec + prec - 1) with (2 - emax) by ring; exact N|].
  replace (- prec + 1) with (1 + - prec) by ring. rewrite bpow_plus. change (bpow radix2 1) with 2%R. lra.
Qed.
(** the square of any number near the root of x *)
Lemma square_mult : forall (x : float) (r : float) d, is_finite r = true -> (bpow radix2 (3 - emax) <= B2R x <= bpow radix2 (emax - 2))%R -> (0 <= d <= / 100)%R ->
  (Rabs (B2R r - sqrt (B2R x)) <= d * sqrt (B2R x))%R ->
  is_finite (Bmult mode_NE r r) = true /\ (Rabs (B2R (Bmult mode_NE r r) - B2R x) <= (d * (2 + d) + 103 / 100 * ep) * B2R x)%R.
Proof using P24 E40.
  intros x r d Fr [L U] D H. pose proof (@ep_small prec P24) as EP. assert (X0 : (0 < B2R x)%R) by (eapply Rlt_le_trans; [apply bpow_gt_0|exact L]).
  pose proof (square_near (B2R x) (B2R r) d ltac:(lra) ltac:(lra) H) as A. set (v := B2R x) in *. set (w := (B2R r * B2R r)%R) in *.
  assert (DD : (0 <= d * (2 + d) <= 201 / 10000)%R) by nra. assert (DV : (d * (2 + d) * v <= 201 / 10000 * v)%R) by (apply Rmult_le_compat_r; lra). apply Rabs_le_inv in A.
  assert (W0 : (0 <= w)%R) by apply Rle_0_sqr.
  destruct (mult_r r r Fr Fr (emax - 1)) as [F V]; [lia|fold w; rewrite Rabs_pos_eq by auto; replace (emax - 1) with (emax - 2 + 1) by ring; rewrite bpow_plus; change (bpow radix2 1) with 2%R; lra|].
  split; [exact F|]. rewrite V. fold w.
  assert (NW : (Rabs (rnd w - w) <= ep * Rabs w)%R). { apply rnd_norm. rewrite Rabs_pos_eq by auto. replace (3 - emax) with ((2 - emax) + 1) in L by ring. rewrite bpow_plus in L. change (bpow radix2 1) with 2%R in L. pose proof (bpow_gt_0 radix2 (2 - emax)). lra. }
  rewrite (Rabs_pos_eq w) in NW by auto. assert (ep * w <= ep * (103 / 100 * v))%R by (apply Rmult_le_compat_l; lra). apply Rabs_le_inv in NW. apply Rabs_le. lra.
Qed.
Lemma sqrt_val : forall x : float, is_finite x = true -> (bpow radix2 (3 - emax) <= B2R x)%R ->
  is_finite (Bsqrt mode_NE x) = true /\ (Rabs (B2R (Bsqrt mode_NE x) - sqrt (B2R x)) <= ep * sqrt (B2R x))%R.
Proof using P24 E40.
  intros x F L. assert (X0 : (0 < B2R x)%R) by (eapply Rlt_le_trans; [apply bpow_gt_0|exact L]). pose proof (finite_pos_sign x F X0) as S.
  destruct (Bsqrt_correct prec emax _ _ mode_NE x) as (VR & FR & _). split; [rewrite FR; destruct x as [| | |[] ? ? ?]; try discriminate; auto|].
  rewrite VR. change (round_mode mode_NE) with ZnearestE. set (t := sqrt (B2R x)). assert (T : (0 <= t)%R) by apply sqrt_pos. rewrite <- (Rabs_pos_eq t) at 3 by auto. apply rnd_norm. rewrite Rabs_pos_eq by auto.
  assert (TT : (t * t = B2R x)%R) by (apply sqrt_sqrt; lra).
  apply Rsqr_incr_0_var; auto. unfold Rsqr. rewrite TT, <- bpow_plus. apply Rle_trans with (2 := L). apply bpow_le. lia.
Qed.
Lemma square_sqrt_float : forall m fuel sq, (forall x : float, sq x = Bsqrt mode_NE x) -> forall x : float, is_finite x = true -> (bpow radix2 (3 - emax) <= B2R x <= bpow radix2 (emax - 2))%R ->
  exists r s, mixed_sqrt (float_sqrt m sq fuel) x = Ok r /\ o_mul float_ops r r = Ok s /\ is_finite s = true /\ (Rabs (B2R s - B2R x) <= 31 / 10 * ep * B2R x)%R.
Proof using P24 E40.
  intros m fuel sq SQ x F L. pose proof (@ep_small prec P24) as EP. destruct (sqrt_val x F (proj1 L)) as [Fr A]. destruct (square_mult x _ ep Fr L ltac:(lra) A) as [Fs B].
  exists (sq x), (Bmult mode_NE (sq x) (sq x)). split; [reflexivity|]. split; [reflexivity|]. rewrite SQ. split; [exact Fs|]. eapply Rle_trans; [exact B|].
  apply Rmult_le_compat_r; [pose proof (bpow_gt_0 radix2 (3 - emax)); lra|]. nra.
Qed.
(** [niirf] *)
Lemma niirf_square : forall x : float, is_finite x = true -> is_finite (Bmult mode_NE x x) = true -> (bpow radix2 (2 - emax) <= B2R x * B2R x)%R ->
  forall r : float, (Rabs (B2R r - sqrt (Rabs (B2R (Bmult mode_NE x x)))) <= / 1000 * sqrt (Rabs (B2R (Bmult mode_NE x x))))%R ->
  (Rabs (B2R r - Rabs (B2R x)) <= 1002 / 1000000 * Rabs (B2R x))%R.
Proof using P24 E40.
  intros x Fx Fy N r H. pose proof (@ep_small prec P24) as EP. destruct (root_sq (prec := prec) (emax := emax) ltac:(lia) ltac:(lia) x Fx Fy N) as (_ & _ & YP). pose proof (mult_fin x x Fy) as V. set (y := Bmult mode_NE x x) in *.
  rewrite (Rabs_pos_eq (B2R y)) in H by lra. set (a := Rabs (B2R x)) in *. assert (A0 : (0 <= a)%R) by apply Rabs_pos. assert (AA : (B2R x * B2R x = a * a)%R) by (unfold a, Rabs; destruct (Rcase_abs _); ring).
  rewrite AA in *. assert (AP : (0 < a * a)%R) by (eapply Rlt_le_trans; [apply bpow_gt_0|exact N]).
  assert (E : (Rabs (B2R y - a * a) <= ep * (a * a))%R). { rewrite V. rewrite <- (Rabs_pos_eq (a * a)) at 3 by lra. apply rnd_norm. rewrite Rabs_pos_eq by lra. exact N. }
  pose proof (sqrt_near (a * a) (B2R y) (ep / 2) AP ltac:(lra) ltac:(lra)) as K. rewrite (sqrt_square a A0) in K.
  assert (ep / 2 + ep / 2 * (ep / 2) <= / 1000000)%R by nra. assert (K' : ((ep / 2 + ep / 2 * (ep / 2)) * a <= / 1000000 * a)%R) by (apply Rmult_le_compat_r; auto).
  set (t := sqrt (B2R y)) in *. apply Rabs_le_inv in K, H. apply Rabs_le. lra.
Qed.
End Float2.

Lemma niirf_square_f32 : forall m it (x : f32), (2 <= it)%N -> is_finite x = true -> is_finite (Bmult mode_NE x x) = true -> (bpow radix2 (-126) <= B2R x * B2R x)%R ->
  exists y r, o_mul float_ops x x = Ok y /\ returns (fun fuel => NF m fuel y it) r /\ is_finite r = true /\ (Rabs (B2R r - Rabs (B2R x)) <= 1002 / 1000000 * Rabs (B2R x))%R.
Proof.
  intros m it x I Fx Fy N. destruct (niirf_f32 m _ it Fy I) as (r & R & Fr & A). exists (Bmult mode_NE x x), r. repeat (split; auto).
  apply (niirf_square (prec := 24) (emax := 128)); auto; lia.
Qed.
Lemma niirf_square_f64 : forall m it (x : f64), (2 <= it)%N -> is_finite x = true -> is_finite (Bmult mode_NE x x) = true -> (bpow radix2 (-1022) <= B2R x * B2R x)%R ->
  exists y r, o_mul float_ops x x = Ok y /\ returns (fun fuel => NF m fuel y it) r /\ is_finite r = true /\ (Rabs (B2R r - Rabs (B2R x)) <= 1002 / 1000000 * Rabs (B2R x))%R.
Proof.
  intros m it x I Fx Fy N. destruct (niirf_f64 m _ it Fy I) as (r & R & Fr & A). exists (Bmult mode_NE x x), r. repeat (split; auto).
  apply (niirf_square (prec := 53) (emax := 1024)); auto; lia.
Qed.
Lemma square_niirf_f32 : forall m it (x : f32), (2 <= it)%N -> is_finite x = true -> (bpow radix2 (-125) <= B2R x <= bpow radix2 126)%R ->
  exists r s, returns (fun fuel => NF m fuel x it) r /\ o_mul float_ops r r = Ok s /\ is_finite s = true /\ (Rabs (B2R s - B2R x) <= 2003 / 1000000 * B2R x)%R.
Proof.
  intros m it x I Fx N. assert (X0 : (0 < B2R x)%R) by (eapply Rlt_le_trans; [apply bpow_gt_0|apply N]). destruct (niirf_f32 m x it Fx I) as (r & R & Fr & A). rewrite (Rabs_pos_eq (B2R x)) in A by lra.
  destruct (square_mult (prec := 24) (emax := 128) ltac:(lia) ltac:(lia) x r (/ 1000) Fr N ltac:(lra) A) as [Fs B]. exists r, (Bmult mode_NE r r). repeat (split; auto).
  eapply Rle_trans; [exact B|]. apply Rmult_le_compat_r; [lra|]. pose proof (@ep_small 24 ltac:(lia)). lra.
Qed.
Lemma square_niirf_f64 : forall m it (x : f64), (2 <= it)%N -> is_finite x = true -> (bpow radix2 (-1021) <= B2R x <= bpow radix2 1022)%R ->
  exists r s, returns (fun fuel => NF m fuel x it) r /\ o_mul float_ops r r = Ok s /\ is_finite s = true /\ (Rabs (B2R s - B2R x) <= 2003 / 1000000 * B2R x)%R.
Proof.
  intros m it x I Fx N. assert (X0 : (0 < B2R x)%R) by (eapply Rlt_le_trans; [apply bpow_gt_0|apply N]). destruct (niirf_f64 m x it Fx I) as (r & R & Fr & A). rewrite (Rabs_pos_eq (B2R x)) in A by lra.
  destruct (square_mult (prec := 53) (emax := 1024) ltac:(lia) ltac:(lia) x r (/ 1000) Fr N ltac:(lra) A) as [Fs B]. exists r, (Bmult mode_NE r r). repeat (split; auto).
  eapply Rle_trans; [exact B|]. apply Rmult_le_compat_r; [lra|]. pose proof (@ep_small 53 ltac:(lia)). lra.
Qed.
