(** * The float cosine of any angle that the wrapping loop can reduce (proofs for C100). *)

From Coq Require Import ZArith Reals Lia Lra Psatz Bool List.
From Flocq Require Import Core.Core IEEE754.BinarySingleNaN.
From Verif Require Import Base FloatBase Literals Traits Trig FloatImpl Complex Spec Lemmas FloatLemmas FloatProofs FloatArith PowFloat FloatSum
  WrapProofs WrapProofs2 FloatWrap FloatWrap2 SinReal SinFloat TrigProofs PolarProofs FloatPolar.
Import ListNotations.
Open Scope Z_scope.

Section Cos.
Context {prec emax : Z} {Hp : Prec_gt_0 prec} {He : Prec_lt_emax prec emax}.
Notation float := (binary_float prec emax).
Notation u := (bpow radix2 (- prec)).
Notation pf := (float_of_float prec emax lit_pi).
Notation fh := (Bdiv mode_NE pf (float_of_Z prec emax 2)).
Notation fcos := (Trig.cos float_ops float_signed float_pi float_powi).
Notation fsin := (Trig.sin float_ops float_signed float_pi float_powi).

Lemma cos_large : prec + 4 < emax -> 5 <= prec ->
  is_finite fh = true -> (Rabs (B2R fh - PI / 2) <= 3 / 4 * u)%R ->
  (forall x : float, is_finite x = true -> (Rabs (B2R x) <= B2R pf)%R -> exists r, fsin x = Ok r /\ is_finite r = true /\ (Rabs (B2R r - Rtrigo_def.sin (B2R x)) <= 5 / 1000000)%R) ->
  (forall phi : float, is_finite phi = true -> (Rabs (B2R phi) < bpow radix2 prec)%R -> exists (r : float) k,
    returns (fun fuel => mixed_wrap_phase (float_wrap_phase fuel) phi) r /\ is_finite r = true /\ (Rabs (B2R r) <= B2R pf)%R /\
    (Rabs (B2R r - (B2R phi - IZR k * (2 * PI))) <= (B2R phi * B2R phi / 3 + Rabs (B2R phi)) * u)%R) ->
  forall x : float, is_finite x = true -> (Rabs (B2R x) <= bpow radix2 (prec - 2))%R -> exists r : float,
  returns (fun fuel => fcos fuel x) r /\ is_finite r = true /\
  (Rabs (B2R r - Rtrigo_def.cos (B2R x)) <= 5 / 1000000 + ((Rabs (B2R x) + 2) ^ 2 / 3 + 2 * Rabs (B2R x) + 5) * u)%R.
Proof.
  intros E4 P5 Fh Vh HS HW x Fx Hx. pose proof (u_bound (prec := prec)) as UB. pose proof pi_bounds as PB.
  assert (U32 : (u <= / 32)%R). { replace (/ 32)%R with (bpow radix2 (-5)) by (simpl; lra). apply bpow_le. lia. }
  assert (XU : (Rabs (B2R x) * u <= / 4)%R).
  { apply Rle_trans with (bpow radix2 (prec - 2) * u)%R; [apply Rmult_le_compat_r; lra|]. rewrite <- bpow_plus. replace (prec - 2 + - prec) with (-2) by ring. simpl. lra. }
  pose proof (plus_rel x fh Fx Fh) as PR. apply Rabs_le_inv in Vh.
  assert (XH : (Rabs (B2R x + B2R fh) <= Rabs (B2R x) + 160 / 100)%R).
  { eapply Rle_trans; [apply Rabs_triang|]. rewrite (Rabs_pos_eq (B2R fh)) by lra. lra. }
  assert (X0 := Rabs_pos (B2R x)).
  set (rs := round radix2 (SpecFloat.fexp prec emax) ZnearestE (B2R x + B2R fh)) in *.
  assert (RB : (Rabs rs <= Rabs (B2R x) + 2)%R).
  { replace rs with ((rs - (B2R x + B2R fh)) + (B2R x + B2R fh))%R by ring. eapply Rle_trans; [apply Rabs_triang|]. nra. }
  assert (P2 : (8 <= bpow radix2 (prec - 2))%R). { apply Rle_trans with (bpow radix2 3); [simpl; lra|]. apply bpow_le. lia. }
  assert (PP : (bpow radix2 prec = 4 * bpow radix2 (prec - 2))%R). { replace prec with (prec - 2 + 2) at 1 by ring. rewrite bpow_plus. simpl (bpow radix2 2). lra. }
  assert (PE : (bpow radix2 prec <= bpow radix2 emax)%R) by (apply bpow_le; lia).
  destruct (plus_ok x fh Fx Fh) as [Fy Vy]; [fold rs; lra|]. fold rs in Vy.
  destruct (HW (Bplus mode_NE x fh) Fy) as (z & k & [n Rz] & Fz & Bz & Az); [rewrite Vy; lra|]. rewrite Vy in Az.
  destruct (HS z Fz Bz) as (r & Er & Fr & Ar). exists r. split; [|split; auto].
  - exists n. intros fuel Hf. specialize (Rz fuel Hf). change (wrap_phase float_ops float_signed float_pi fuel (Bplus mode_NE x fh) = Ok z) in Rz.
    unfold Trig.cos. cbn [bind mixed_pi float_pi o_of_i32 float_ops o_div o_add]. change (wrap_phase _ _ _ fuel _) with (wrap_phase float_ops float_signed float_pi fuel (Bplus mode_NE x fh)). rewrite Rz. cbn [bind]. exact Er.
  - assert (S : (Rabs (Rtrigo_def.sin (B2R z) - Rtrigo_def.cos (B2R x)) <= Rabs (B2R z - (B2R x + PI / 2 - IZR k * (2 * PI))))%R).
    { replace (Rtrigo_def.cos (B2R x)) with (Rtrigo_def.sin (B2R x + PI / 2 - IZR k * (2 * PI))); [apply sin_lipschitz|].
      rewrite <- sin_shift. replace (Rtrigo_def.sin (PI / 2 - B2R x)) with (Rtrigo_def.sin (B2R x + PI / 2)).
      - rewrite <- (sin_turns (B2R x + PI / 2) (- k)). f_equal. rewrite opp_IZR. ring.
      - replace (B2R x + PI / 2)%R with (PI - (PI / 2 - B2R x))%R by field. apply sin_PI_x. }
    assert (Z : (Rabs (B2R z - (B2R x + PI / 2 - IZR k * (2 * PI))) <= ((Rabs (B2R x) + 2) ^ 2 / 3 + 2 * Rabs (B2R x) + 5) * u)%R).
    { replace (B2R z - (B2R x + PI / 2 - IZR k * (2 * PI)))%R with ((B2R z - (rs - IZR k * (2 * PI))) + (rs - (B2R x + B2R fh)) + (B2R fh - PI / 2))%R by ring.
      eapply Rle_trans; [apply Rabs_triang|]. assert (V : (Rabs (B2R fh - PI / 2) <= 3 / 4 * u)%R) by (apply Rabs_le; lra).
      assert (W : (Rabs (B2R z - (rs - IZR k * (2 * PI)) + (rs - (B2R x + B2R fh))) <= ((Rabs (B2R x) + 2) ^ 2 / 3 + (Rabs (B2R x) + 2) + (Rabs (B2R x) + 160 / 100)) * u)%R).
      { eapply Rle_trans; [apply Rabs_triang|]. assert (Q : (rs * rs <= (Rabs (B2R x) + 2) ^ 2)%R).
        { rewrite <- (Rabs_pos_eq (rs * rs)) by nra. rewrite Rabs_mult. pose proof (Rabs_pos rs). simpl. nra. }
        assert (T1 : ((rs * rs / 3 + Rabs rs) * u <= ((Rabs (B2R x) + 2) ^ 2 / 3 + (Rabs (B2R x) + 2)) * u)%R) by (apply Rmult_le_compat_r; lra).
        assert (T2 : (u * Rabs (B2R x + B2R fh) <= (Rabs (B2R x) + 160 / 100) * u)%R) by (rewrite Rmult_comm; apply Rmult_le_compat_r; lra). lra. }
      lra. }
    replace (B2R r - Rtrigo_def.cos (B2R x))%R with ((B2R r - Rtrigo_def.sin (B2R z)) + (Rtrigo_def.sin (B2R z) - Rtrigo_def.cos (B2R x)))%R by ring.
    eapply Rle_trans; [apply Rabs_triang|]. lra.
Qed.
End Cos.

Lemma cos_large_f32 : forall x : f32, is_finite x = true -> (Rabs (B2R x) <= bpow radix2 22)%R -> exists r : f32,
  returns (fun fuel => Trig.cos float_ops float_signed float_pi float_powi fuel x) r /\ is_finite r = true /\
  (Rabs (B2R r - Rtrigo_def.cos (B2R x)) <= 5 / 1000000 + ((Rabs (B2R x) + 2) ^ 2 / 3 + 2 * Rabs (B2R x) + 5) * bpow radix2 (-24))%R.
Proof.
  destruct f32_half_val as [Vh Fh]. pose proof pi_bounds as PB. apply (@cos_large 24 128 _ _); try lia.
  - exact Fh.
  - change (Rabs (B2R (@fhalf 24 128 _ _) - PI / 2) <= 3 / 4 * bpow radix2 (-24))%R. rewrite Vh.
    change (bpow radix2 (-23)) with (/ IZR 8388608)%R. change (bpow radix2 (-24)) with (/ IZR 16777216)%R. apply Rabs_le. lra.
  - destruct sin_claims_f32 as [_ (p & Ep & _ & H)]. assert (p = f32_pi) by (change (Ok f32_pi = Ok p) in Ep; congruence). subst p.
    intros x F X. destruct (H x F X) as [(r & A & B & C) _]. exists r. repeat split; auto. lra.
  - intros phi F X. destruct (wrap_f32 phi F X) as (r & k & R & Fr & _ & _ & B). exists r, k. repeat split; auto.
    destruct (c10_of 27 wrap_claims_f32) as (p & Ep & _ & _ & Rg). assert (p = f32_pi) by (change (Ok f32_pi = Ok p) in Ep; congruence). subst p.
    destruct R as [n R]. destruct (Rg n phi r (R n (le_n n))) as [[E _]|[_ [_ E]]]; [rewrite E in F; discriminate|]. apply Rabs_le. change (float_of_float 24 128 lit_pi) with f32_pi. lra.
Qed.
Lemma cos_large_f64 : forall x : f64, is_finite x = true -> (Rabs (B2R x) <= bpow radix2 51)%R -> exists r : f64,
  returns (fun fuel => Trig.cos float_ops float_signed float_pi float_powi fuel x) r /\ is_finite r = true /\
  (Rabs (B2R r - Rtrigo_def.cos (B2R x)) <= 5 / 1000000 + ((Rabs (B2R x) + 2) ^ 2 / 3 + 2 * Rabs (B2R x) + 5) * bpow radix2 (-53))%R.
Proof.
  destruct f64_half_val as [Vh Fh]. pose proof pi_bounds as PB. apply (@cos_large 53 1024 _ _); try lia.
  - exact Fh.
  - change (Rabs (B2R (@fhalf 53 1024 _ _) - PI / 2) <= 3 / 4 * bpow radix2 (-53))%R. rewrite Vh.
    change (bpow radix2 (-52)) with (/ IZR 4503599627370496)%R. change (bpow radix2 (-53)) with (/ IZR 9007199254740992)%R. apply Rabs_le. lra.
  - destruct sin_claims_f64 as [_ (p & Ep & _ & H)]. assert (p = f64_pi) by (change (Ok f64_pi = Ok p) in Ep; congruence). subst p.
    intros x F X. destruct (H x F X) as [(r & A & B & C) _]. exists r. repeat split; auto. lra.
  - intros phi F X. destruct (wrap_f64 phi F X) as (r & k & R & Fr & _ & _ & B). exists r, k. repeat split; auto.
    destruct (c10_of 56 wrap_claims_f64) as (p & Ep & _ & _ & Rg). assert (p = f64_pi) by (change (Ok f64_pi = Ok p) in Ep; congruence). subst p.
    destruct R as [n R]. destruct (Rg n phi r (R n (le_n n))) as [[E _]|[_ [_ E]]]; [rewrite E in F; discriminate|]. apply Rabs_le. change (float_of_float 53 1024 lit_pi) with f64_pi. lra.
Qed.

Section Div.
Context {prec emax : Z} {Hp : Prec_gt_0 prec} {He : Prec_lt_emax prec emax}.
Notation float := (binary_float prec emax).
Notation pf := (float_of_float prec emax lit_pi).
Notation fh := (Bdiv mode_NE pf (float_of_Z prec emax 2)).
Notation fcos := (Trig.cos float_ops float_signed float_pi float_powi).

Lemma cos_diverges : 5 <= prec -> forall thr, 3 <= thr -> thr + 1 < emax -> is_finite fh = true -> (0 <= B2R fh <= 2)%R ->
  (forall phi : float, (diverges (fun fuel => mixed_wrap_phase (float_wrap_phase fuel) phi) <->
       (exists s, phi = B754_infinity s) \/ (is_finite phi = true /\ (bpow radix2 thr < Rabs (B2R phi))%R))) ->
  forall x : float, (exists s, x = B754_infinity s) \/ (is_finite x = true /\ (bpow radix2 (thr + 1) <= Rabs (B2R x))%R) -> diverges (fun fuel => fcos fuel x).
Proof.
  intros P5 thr T3 TE Fh Vh HD x Hx. pose proof (u_bound (prec := prec)) as UB.
  assert (U32 : (bpow radix2 (- prec) <= / 32)%R). { replace (/ 32)%R with (bpow radix2 (-5)) by (simpl; lra). apply bpow_le. lia. }
  assert (D : diverges (fun fuel => mixed_wrap_phase (float_wrap_phase fuel) (Bplus mode_NE x fh))).
  { apply HD. destruct Hx as [[s ->]|[Fx Vx]].
    - left. exists s. destruct fh; try discriminate; reflexivity.
    - destruct (is_finite (Bplus mode_NE x fh)) eqn:Fy.
      + right. split; auto.
        pose proof (Bplus_correct prec emax _ _ mode_NE x fh Fx Fh) as BC. cbn [round_mode] in BC.
        destruct (Rlt_bool_spec (Rabs (round radix2 (SpecFloat.fexp prec emax) ZnearestE (B2R x + B2R fh))) (bpow radix2 emax)) as [L|L].
        * destruct BC as [-> _]. pose proof (plus_rel x fh Fx Fh) as PR.
          set (s := round radix2 (SpecFloat.fexp prec emax) ZnearestE (B2R x + B2R fh)) in *.
          assert (B8 : (8 <= bpow radix2 thr)%R). { apply Rle_trans with (bpow radix2 3); [simpl; lra|]. apply bpow_le. lia. }
          rewrite bpow_plus in Vx. change (bpow radix2 1) with 2%R in Vx.
          assert (SX : (Rabs (B2R x) - 2 <= Rabs (B2R x + B2R fh))%R).
          { pose proof (Rabs_triang (B2R x + B2R fh) (- B2R fh)) as T. replace (B2R x + B2R fh + - B2R fh)%R with (B2R x) in T by ring. rewrite Rabs_Ropp, (Rabs_pos_eq (B2R fh)) in T by lra. lra. }
          pose proof (Rabs_triang s (B2R x + B2R fh - s)) as T. replace (s + (B2R x + B2R fh - s))%R with (B2R x + B2R fh)%R in T by ring.
          rewrite Rabs_minus_sym in PR. nra.
        * exfalso. destruct BC as [BC _]. apply (f_equal is_finite_SF) in BC. rewrite is_finite_SF_B2SF, Fy in BC.
          unfold binary_overflow, overflow_to_inf in BC. discriminate BC.
      + left. pose proof (Bplus_correct prec emax _ _ mode_NE x fh Fx Fh) as BC. cbn [round_mode] in BC.
        destruct (Rlt_bool_spec (Rabs (round radix2 (SpecFloat.fexp prec emax) ZnearestE (B2R x + B2R fh))) (bpow radix2 emax)) as [L|L].
        * destruct BC as [_ [BC _]]. congruence.
        * destruct BC as [BC _]. unfold binary_overflow, overflow_to_inf in BC. exists (Bsign x). destruct (Bplus mode_NE x fh); try discriminate BC. cbn in BC. congruence. }
  intros fuel. specialize (D fuel). change (wrap_phase float_ops float_signed float_pi fuel (Bplus mode_NE x fh) = OutOfFuel) in D.
  unfold Trig.cos. cbn [bind mixed_pi float_pi o_of_i32 float_ops o_div o_add].
  change (wrap_phase _ _ _ fuel _) with (wrap_phase float_ops float_signed float_pi fuel (Bplus mode_NE x fh)). rewrite D. reflexivity.
Qed.
End Div.

Lemma cos_diverges_f32 : forall x : f32, (exists s, x = B754_infinity s) \/ (is_finite x = true /\ (bpow radix2 28 <= Rabs (B2R x))%R) ->
  diverges (fun fuel => Trig.cos float_ops float_signed float_pi float_powi fuel x).
Proof.
  destruct f32_half_val as [Vh Fh]. apply (@cos_diverges 24 128 _ _) with (thr := 27); try lia.
  - exact Fh.
  - change (0 <= B2R (@fhalf 24 128 _ _) <= 2)%R. rewrite Vh. change (bpow radix2 (-23)) with (/ IZR 8388608)%R. lra.
  - intros phi. apply (c11_of 27 wrap_claims_f32).
Qed.
Lemma cos_diverges_f64 : forall x : f64, (exists s, x = B754_infinity s) \/ (is_finite x = true /\ (bpow radix2 57 <= Rabs (B2R x))%R) ->
  diverges (fun fuel => Trig.cos float_ops float_signed float_pi float_powi fuel x).
Proof.
  destruct f64_half_val as [Vh Fh]. apply (@cos_diverges 53 1024 _ _) with (thr := 56); try lia.
  - exact Fh.
  - change (0 <= B2R (@fhalf 53 1024 _ _) <= 2)%R. rewrite Vh. change (bpow radix2 (-52)) with (/ IZR 4503599627370496)%R. lra.
  - intros phi. apply (c11_of 56 wrap_claims_f64).
Qed.

(** exactly when the cosine returns *)
Section Iff.
Context {prec emax : Z} {Hp : Prec_gt_0 prec} {He : Prec_lt_emax prec emax}.
Notation float := (binary_float prec emax).
Notation pf := (float_of_float prec emax lit_pi).
Notation fh := (Bdiv mode_NE pf (float_of_Z prec emax 2)).
Notation fcos := (Trig.cos float_ops float_signed float_pi float_powi).

Lemma cos_returns_iff : forall thr,
  (forall phi : float, ((exists r, returns (fun fuel => mixed_wrap_phase (float_wrap_phase fuel) phi) r) <->
     phi = B754_nan \/ (is_finite phi = true /\ (Rabs (B2R phi) <= bpow radix2 thr)%R)) /\
    (diverges (fun fuel => mixed_wrap_phase (float_wrap_phase fuel) phi) <->
       (exists s, phi = B754_infinity s) \/ (is_finite phi = true /\ (bpow radix2 thr < Rabs (B2R phi))%R))) ->
  forall x h : float, (p <- mixed_pi float_pi ;; two <- o_of_i32 float_ops 2 ;; o_div float_ops p two) = Ok h ->
  let y := Bplus mode_NE x h in
  ((exists r, returns (fun fuel => fcos fuel x) r) <-> y = B754_nan \/ (is_finite y = true /\ (Rabs (B2R y) <= bpow radix2 thr)%R)) /\
  (diverges (fun fuel => fcos fuel x) <-> (exists s, y = B754_infinity s) \/ (is_finite y = true /\ (bpow radix2 thr < Rabs (B2R y))%R)).
Proof.
  intros thr HD x h Hh y. assert (h = fh) by (change (Ok fh = Ok h) in Hh; congruence). subst h. clear Hh.
  assert (E : forall fuel, fcos fuel x = (w <- mixed_wrap_phase (float_wrap_phase fuel) y ;; Trig.sin float_ops float_signed float_pi float_powi w)) by reflexivity.
  destruct (HD y) as [H1 H2].
  assert (R : (exists r, returns (fun fuel => mixed_wrap_phase (float_wrap_phase fuel) y) r) -> exists r, returns (fun fuel => fcos fuel x) r).
  { intros [w [n Hw]]. eexists. exists n. intros fuel Hf. rewrite E, (Hw fuel Hf). cbn [bind]. exact (sin_float_eq w). }
  assert (D : diverges (fun fuel => mixed_wrap_phase (float_wrap_phase fuel) y) -> diverges (fun fuel => fcos fuel x)).
  { intros Hd fuel. rewrite E, (Hd fuel). reflexivity. }
  assert (X : ~ ((exists r, returns (fun fuel => fcos fuel x) r) /\ diverges (fun fuel => fcos fuel x))).
  { intros [[r [n Hr]] Hd]. specialize (Hr n (le_n n)). specialize (Hd n). cbv beta in Hr, Hd. rewrite Hd in Hr. discriminate. }
  assert (C : (y = B754_nan \/ (is_finite y = true /\ (Rabs (B2R y) <= bpow radix2 thr)%R)) \/ ((exists s, y = B754_infinity s) \/ (is_finite y = true /\ (bpow radix2 thr < Rabs (B2R y))%R))).
  { clearbody y. destruct y as [s|s| |s mm e Hb]; [| right; left; eauto | left; left; reflexivity |].
    - left. right. split; [reflexivity|]. cbn [B2R]. rewrite Rabs_R0. apply bpow_ge_0.
    - destruct (Rle_lt_dec (Rabs (B2R (B754_finite s mm e Hb : float))) (bpow radix2 thr)); [left|right]; right; split; auto. }
  split; split; intros H; try (apply R; apply H1; exact H); try (apply D; apply H2; exact H).
  - destruct C as [C|C]; auto. exfalso. apply X. split; auto. apply D, H2, C.
  - destruct C as [C|C]; auto. exfalso. apply X. split; auto. apply R, H1, C.
Qed.
End Iff.

Lemma cos_iff_f32 : forall x h : f32, (p <- mixed_pi float_pi ;; two <- o_of_i32 float_ops 2 ;; o_div float_ops p two) = Ok h ->
  let y := Bplus mode_NE x h in let C := fun fuel => Trig.cos float_ops float_signed float_pi float_powi fuel x in
  ((exists r, returns C r) <-> y = B754_nan \/ (is_finite y = true /\ (Rabs (B2R y) <= bpow radix2 27)%R)) /\
  (diverges C <-> (exists s, y = B754_infinity s) \/ (is_finite y = true /\ (bpow radix2 27 < Rabs (B2R y))%R)).
Proof. intros x h Hh. exact (cos_returns_iff 27 (c11_of 27 wrap_claims_f32) x h Hh). Qed.
Lemma cos_iff_f64 : forall x h : f64, (p <- mixed_pi float_pi ;; two <- o_of_i32 float_ops 2 ;; o_div float_ops p two) = Ok h ->
  let y := Bplus mode_NE x h in let C := fun fuel => Trig.cos float_ops float_signed float_pi float_powi fuel x in
  ((exists r, returns C r) <-> y = B754_nan \/ (is_finite y = true /\ (Rabs (B2R y) <= bpow radix2 56)%R)) /\
  (diverges C <-> (exists s, y = B754_infinity s) \/ (is_finite y = true /\ (bpow radix2 56 < Rabs (B2R y))%R)).
Proof. intros x h Hh. exact (cos_returns_iff 56 (c11_of 56 wrap_claims_f64) x h Hh). Qed.
