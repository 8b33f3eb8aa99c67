(** * Phase unwrapping: [acc += (w - prev).mixed_wrap_phase(); prev = w], any number of times. *)

From Coq Require Import ZArith Reals Lia Lra Psatz Bool List.
From Flocq Require Import Core.Core IEEE754.BinarySingleNaN Relative.
From Verif Require Import Base FloatBase Literals Traits Trig IntImpl FixedPrim FixedImpl FloatImpl Complex Spec SpecUnwrap
  Lemmas ScalarProofs ScalarProofs2 WrapProofs WrapProofs2 ProdProofs FloatKit FloatWrap FloatPolar PhaseAcc.
Import ListNotations.
Open Scope Z_scope.

Notation unw m f fuel := (fun (st : Z * Z) w => d <- o_sub (fixed_ops m f) w (fst st) ;; r <- mixed_wrap_phase (fixed_wrap_phase m f fuel) d ;;
  u <- o_add (fixed_ops m f) (snd st) r ;; Ok (w, u)).
Notation unwf fuel := (fun st w => d <- o_sub float_ops w (fst st) ;; r <- mixed_wrap_phase (float_wrap_phase fuel) d ;;
  u <- o_add float_ops (snd st) r ;; Ok (w, u)).

(** which turn a slow step belongs to *)
Lemma turn_core : forall p T e s g w w' d r ph ph' (k k' j : Z), (0 <= g)%R ->
  (Rabs (ph - (w + IZR k * (2 * T))) <= e)%R -> (Rabs (ph' - (w' + IZR k' * (2 * T))) <= e)%R -> (Rabs (ph' - ph) <= s)%R ->
  (s + 2 * e + 2 * Rabs (T - p) + g < p)%R -> (Rabs w <= p)%R -> (Rabs w' <= p)%R -> (Rabs (d - (w' - w)) <= g)%R ->
  (d - r = IZR j * (2 * p))%R -> (- p <= r < p)%R -> j = k - k'.
Proof.
  intros p T e s g w w' d r ph ph' k k' j G0 H1 H2 H3 HS W1 W2 HD HR HB.
  set (q := k' - k). assert (EQ : IZR q = (IZR k' - IZR k)%R) by (unfold q; apply minus_IZR).
  pose proof (Rabs_pos (T - p)) as D0. pose proof (Rabs_pos (ph' - ph)) as S0. pose proof (Rabs_pos (ph - (w + IZR k * (2 * T)))) as E0.
  assert (PT : (p - Rabs (T - p) <= T)%R). { destruct (Rcase_abs (T - p)); [rewrite Rabs_left by lra|rewrite Rabs_pos_eq by lra]; lra. }
  apply Rabs_le_inv in H1, H2, H3, W1, W2, HD.
  assert (Q1 : (Rabs (w' - w + IZR q * (2 * T)) <= s + 2 * e)%R) by (rewrite EQ; apply Rabs_le; lra).
  assert (Q2 : -1 <= q <= 1).
  { apply Rabs_le_inv in Q1. split; apply Znot_lt_ge || apply Z.nlt_ge; intros L.
    - apply Z.lt_le_pred in L. apply IZR_le in L. replace (IZR (Z.pred (-1))) with (-2)%R in L by reflexivity. nra.
    - apply Z.le_succ_l in L. apply IZR_le in L. change (IZR (Z.succ 1)) with 2%R in L. nra. }
  assert (Q3 : (Rabs (IZR q) <= 1)%R). { rewrite <- abs_IZR. apply (IZR_le _ 1). lia. }
  assert (Q4 : (Rabs (w' - w + IZR q * (2 * p)) < p - g)%R).
  { replace (w' - w + IZR q * (2 * p))%R with (w' - w + IZR q * (2 * T) - 2 * (IZR q * (T - p)))%R by ring.
    eapply Rle_lt_trans; [apply Rabs_triang|]. rewrite Rabs_Ropp, Rabs_mult, (Rabs_pos_eq 2) by lra. rewrite Rabs_mult. nra. }
  apply Rabs_lt_inv in Q4.
  assert (M : (- (2 * p) < IZR (j + q) * (2 * p) < 2 * p)%R). { rewrite plus_IZR. lra. }
  assert (PP : (0 < p)%R) by lra.
  assert (J : (-1 < IZR (j + q) < 1)%R) by nra. destruct J as [J1 J2]. apply lt_IZR in J1, J2. unfold q in *. lia.
Qed.

Lemma abs_fval : forall f a, (Rabs (fval f a) = fval f (Z.abs a))%R.
Proof. intros. unfold fval. rewrite Rabs_mult, <- abs_IZR, (Rabs_pos_eq (bpow _ _)); [reflexivity|apply bpow_ge_0]. Qed.
Lemma last_cons : forall A (l : list A) a b, last (a :: l) b = last l a.
Proof. induction l as [|x l IH]; intros a b; [reflexivity|]. change (last (a :: x :: l) b) with (last (x :: l) b). rewrite IH. symmetry. apply IH. Qed.

Lemma unwrap_fixed : forall m f, supported f = true -> fsigned f = true -> ffrac f <= fwidth f - 4 ->
  exists p, mixed_pi (fixed_pi m f) = Ok p /\
  forall T e s u0, (s + 2 * e + 2 * Rabs (T - fval f p) < fval f p)%R ->
  forall rs r0, Forall (fun r => reads (fval f) T e r /\ (Rabs (fval f (seen r)) <= fval f p)%R /\
      fvalid f (u0 + (seen r - seen r0) + (turns r - turns r0) * (2 * p))) (r0 :: rs) -> slow s (true_phase r0) rs ->
  let z := last rs r0 in let u := u0 + (seen z - seen r0) + (turns z - turns r0) * (2 * p) in
  returns (fun fuel => run (unw m f fuel) (seen r0, u0) (map seen rs)) (seen z, u) /\
  (Rabs (fval f u - fval f u0 - (true_phase z - true_phase r0)) <= 2 * e + 2 * IZR (Z.abs (turns z - turns r0)) * Rabs (T - fval f p))%R.
Proof.
  intros m f Hf Sg HF. pose proof (supported_fwf f Hf) as W. pose proof (proj1 W) as F0.
  destruct (fixed_wrap_all m f Hf Sg (or_intror HF)) as (p & Ep & Pp & H). exists p. split; auto. intros T e s u0 HS.
  assert (BP : p < 4 * fone f /\ 8 * fone f <= 2 ^ (fwidth f - 1)).
  { rewrite fixed_pi_eq in Ep by auto. inversion Ep. pose proof (pi_bits_bounds f W). split; [lia|].
    unfold fone. change 8 with (2 ^ 3). rewrite <- Z.pow_add_r by (destruct W; lia). apply Z.pow_le_mono_r; lia. }
  pose proof (fone_pos f F0) as FP.
  assert (main : forall rs r0 r1 u1, u1 = u0 + (seen r1 - seen r0) + (turns r1 - turns r0) * (2 * p) ->
    Forall (fun r => reads (fval f) T e r /\ (Rabs (fval f (seen r)) <= fval f p)%R /\
      fvalid f (u0 + (seen r - seen r0) + (turns r - turns r0) * (2 * p))) (r1 :: rs) -> slow s (true_phase r1) rs ->
    let z := last rs r1 in returns (fun fuel => run (unw m f fuel) (seen r1, u1) (map seen rs))
      (seen z, u0 + (seen z - seen r0) + (turns z - turns r0) * (2 * p))).
  { induction rs as [|r rs IH]; intros r0 r1 u1 U FA SL z.
    - exists 0%nat. intros n _. cbn. subst z u1. reflexivity.
    - apply Forall_inv_tail in FA as FA'. apply Forall_inv in FA as (R1 & B1 & V1). pose proof (Forall_inv FA') as (R & B & V).
      destruct SL as [SL1 SL]. unfold z. rewrite last_cons.
      pose proof B1 as B1'. pose proof B as B'. rewrite abs_fval in B1', B'. apply fval_le in B1', B'; auto.
      assert (VD : fvalid f (seen r - seen r1)). { apply fvalid_iff. rewrite Sg. lia. }
      destruct (H _ VD) as (t & [n1 T1] & TB & [j J] & _).
      assert (EJ : j = turns r1 - turns r).
      { apply (turn_core (fval f p) T e s 0 (fval f (seen r1)) (fval f (seen r)) (fval f (seen r - seen r1)) (fval f t) (true_phase r1) (true_phase r)); auto; try lra.
        rewrite <- Z.add_opp_r, fval_add, fval_neg. rewrite Rabs_pos_eq; lra. }
      assert (ET : t = seen r - seen r1 - j * (2 * p)).
      { pose proof (bpow_gt_0 radix2 (- ffrac f)) as BB. unfold fval in J. apply eq_IZR. rewrite !minus_IZR, !mult_IZR. rewrite minus_IZR in J.
        apply Rmult_eq_reg_r with (bpow radix2 (- ffrac f)); lra. }
      destruct (IH r0 r (u1 + t) ltac:(lia) FA' SL) as [n2 Z2]. exists (n1 + n2)%nat. intros n Hn. cbn [map]. rewrite run_cons.
      cbn [fst snd]. change (o_sub (fixed_ops m f) (seen r) (seen r1)) with (fx_fin m f (seen r - seen r1)). rewrite fx_fin_ok by auto. cbn [bind].
      rewrite T1 by lia. cbn [bind]. change (o_add (fixed_ops m f) u1 t) with (fx_fin m f (u1 + t)).
      rewrite fx_fin_ok; [|replace (u1 + t) with (u0 + (seen r - seen r0) + (turns r - turns r0) * (2 * p)) by lia; auto].
      cbn [bind]. apply Z2. lia. }
  intros rs r0 FA SL z u. split; [apply main; auto; lia|].
  assert (RZ : reads (fval f) T e r0 /\ reads (fval f) T e z).
  { rewrite Forall_forall in FA. split; [apply FA; left; auto|]. apply FA. unfold z. clear. revert r0.
    induction rs as [|r rs IH]; intros r0; [left; reflexivity|]. rewrite last_cons. right. apply IH. }
  destruct RZ as [RA RZ]. unfold reads in *. apply Rabs_le_inv in RA, RZ.
  assert (EU : (fval f u = fval f u0 + (fval f (seen z) - fval f (seen r0)) + IZR (turns z - turns r0) * (2 * fval f p))%R).
  { unfold u, fval. rewrite !plus_IZR, mult_IZR, !minus_IZR, mult_IZR. ring. }
  rewrite EU. set (q := turns z - turns r0) in *. assert (EQ : IZR q = (IZR (turns z) - IZR (turns r0))%R) by (unfold q; apply minus_IZR).
  assert (A : (Rabs (2 * (IZR q * (T - fval f p))) = 2 * IZR (Z.abs q) * Rabs (T - fval f p))%R).
  { rewrite !Rabs_mult, (Rabs_pos_eq 2) by lra. rewrite abs_IZR. ring. }
  rewrite <- A. set (x := (2 * (IZR q * (T - fval f p)))%R).
  replace (fval f u0 + (fval f (seen z) - fval f (seen r0)) + IZR q * (2 * fval f p) - fval f u0 - (true_phase z - true_phase r0))%R with
    (((fval f (seen z) + IZR (turns z) * (2 * T)) - true_phase z - ((fval f (seen r0) + IZR (turns r0) * (2 * T)) - true_phase r0)) + - x)%R
    by (unfold x; rewrite EQ; ring).
  eapply Rle_trans; [apply Rabs_triang|]. rewrite Rabs_Ropp. apply Rplus_le_compat_r. apply Rabs_le. lra.
Qed.

(** one step: the phase difference that is found is the true one exactly when it is less than half a turn *)
Lemma step_fixed : forall m f, supported f = true -> fsigned f = true -> ffrac f <= fwidth f - 4 ->
  exists p, mixed_pi (fixed_pi m f) = Ok p /\
  forall a b wa wb, fvalid f a -> fvalid f b -> returns (fun fuel => mixed_wrap_phase (fixed_wrap_phase m f fuel) a) wa ->
    returns (fun fuel => mixed_wrap_phase (fixed_wrap_phase m f fuel) b) wb ->
  exists d, returns (fun fuel => t <- o_sub (fixed_ops m f) wb wa ;; mixed_wrap_phase (fixed_wrap_phase m f fuel) t) d /\
  (exists k, d = b - a + k * (2 * p)) /\ (d = b - a <-> (- fval f p <= fval f b - fval f a < fval f p)%R).
Proof.
  intros m f Hf Sg HF. pose proof (supported_fwf f Hf) as W. pose proof (proj1 W) as F0.
  exists (pi_bits f). split; [apply fixed_pi_eq; auto|]. intros a b wa wb Va Vb Ra Rb.
  destruct (wrap_phase_fixed m f W Sg (or_intror HF) a Va) as (wa' & Ra' & [Ba [ka Ka]]).
  destruct (wrap_phase_fixed m f W Sg (or_intror HF) b Vb) as (wb' & Rb' & [Bb [kb Kb]]).
  assert (wa' = wa) by (eapply returns_det; eauto). assert (wb' = wb) by (eapply returns_det; eauto). subst wa' wb'.
  pose proof (pi_bits_bounds f W) as PB. pose proof (fone_pos f F0) as FP.
  assert (B8 : 8 * fone f <= 2 ^ (fwidth f - 1)). { unfold fone. change 8 with (2 ^ 3). rewrite <- Z.pow_add_r by (destruct W; lia). apply Z.pow_le_mono_r; lia. }
  assert (VD : fvalid f (wb - wa)). { apply fvalid_iff. rewrite Sg. lia. }
  destruct (wrap_phase_fixed m f W Sg (or_intror HF) _ VD) as (d & [n Rd] & [Bd [kd Kd]]).
  exists d. split; [|split].
  - exists n. intros i Hi. change (o_sub (fixed_ops m f) wb wa) with (fx_fin m f (wb - wa)). rewrite fx_fin_ok by auto. cbn [bind]. auto.
  - exists (ka - kb - kd). lia.
  - rewrite <- (fval_neg f (pi_bits f)). unfold Rminus. rewrite <- fval_neg, <- fval_add, fval_le, fval_lt by auto. split; intros Hd; [lia|].
    set (q := ka - kb - kd). assert (Q : d - (b - a) = q * (2 * pi_bits f)) by (unfold q; lia). assert (q = 0) by (clear - Q Hd Bd PB FP; nia). nia.
Qed.

(** ** floats *)
Section Float.
Context {prec emax : Z} {Hp : Prec_gt_0 prec} {He : Prec_lt_emax prec emax}.
Notation float := (binary_float prec emax).
Notation fexp := (SpecFloat.fexp prec emax).
Notation rnd := (round radix2 fexp ZnearestE).
Hypothesis P24 : 24 <= prec.
Hypothesis E10 : prec + 20 <= emax.
Variable p : float.
Hypothesis PB : (3 <= B2R p <= 22 / 7)%R.
Hypothesis WR : forall phi : float, is_finite phi = true -> (Rabs (B2R phi) <= 4 * B2R p)%R -> exists (r : float) k,
  returns (fun fuel => mixed_wrap_phase (float_wrap_phase fuel) phi) r /\ is_finite r = true /\
  (- B2R p <= B2R r < B2R p)%R /\ B2R r = (B2R phi - IZR k * (2 * B2R p))%R.

Lemma unwrap_float : forall T e s K (u0 : float), is_finite u0 = true -> 3 <= K < emax -> 
  (s + 2 * e + 2 * Rabs (T - B2R p) + bpow radix2 (2 - prec) < B2R p)%R ->
  let g := (bpow radix2 (2 - prec) + bpow radix2 (K - 1 - prec))%R in
  forall rs r0, 
  Forall (fun r : reading float => reads B2R T e r /\ is_finite (seen r) = true /\ (Rabs (B2R (seen r)) <= B2R p)%R /\
    (Rabs (B2R u0 + (B2R (seen r) - B2R (seen r0)) + IZR (turns r - turns r0) * (2 * B2R p)) + INR (length rs) * g <= bpow radix2 K)%R) (r0 :: rs) ->
  slow s (true_phase r0) rs ->
  let z := last rs r0 in exists u : float, returns (fun fuel => run (unwf fuel) (seen r0, u0) (map seen rs)) (seen z, u) /\ is_finite u = true /\
  (Rabs (B2R u - B2R u0 - (true_phase z - true_phase r0)) <=
    2 * e + 2 * IZR (Z.abs (turns z - turns r0)) * Rabs (T - B2R p) + INR (length rs) * g)%R.
Proof using P24 E10 PB WR.
  intros T e s K u0 F0 HK HS g.
  assert (G0 : (0 < g)%R). { unfold g. pose proof (bpow_gt_0 radix2 (2 - prec)). pose proof (bpow_gt_0 radix2 (K - 1 - prec)). lra. }
  assert (main : forall rs (r0 r1 : reading float) (u1 : float) i N, is_finite u1 = true -> (i + length rs <= N)%nat ->
    (Rabs (B2R u1 - (B2R u0 + (B2R (seen r1) - B2R (seen r0)) + IZR (turns r1 - turns r0) * (2 * B2R p))) <= INR i * g)%R ->
    Forall (fun r : reading float => reads B2R T e r /\ is_finite (seen r) = true /\ (Rabs (B2R (seen r)) <= B2R p)%R /\
      (Rabs (B2R u0 + (B2R (seen r) - B2R (seen r0)) + IZR (turns r - turns r0) * (2 * B2R p)) + INR N * g <= bpow radix2 K)%R) (r1 :: rs) ->
    slow s (true_phase r1) rs ->
    let z := last rs r1 in exists u : float, returns (fun fuel => run (unwf fuel) (seen r1, u1) (map seen rs)) (seen z, u) /\ is_finite u = true /\
    (Rabs (B2R u - (B2R u0 + (B2R (seen z) - B2R (seen r0)) + IZR (turns z - turns r0) * (2 * B2R p))) <= INR (i + length rs) * g)%R).
  { induction rs as [|r rs IH]; intros r0 r1 u1 i N Fu1 HN U FA SL z.
    - exists u1. split; [exists 0%nat; intros; reflexivity|]. split; auto. cbn [length]. rewrite Nat.add_0_r. exact U.
    - apply Forall_inv_tail in FA as FA'. apply Forall_inv in FA as (R1 & Fr1 & B1 & V1). pose proof (Forall_inv FA') as (R & Fr & B & V).
      destruct SL as [SL1 SL]. unfold z. rewrite last_cons.
      assert (D3 : (Rabs (B2R (seen r) - B2R (seen r1)) <= bpow radix2 3)%R).
      { change (bpow radix2 3) with 8%R. apply Rabs_le_inv in B1, B. apply Rabs_le. lra. }
      destruct (minus_r (seen r) (seen r1) Fr Fr1 3 ltac:(lia) D3) as [Fd Ed].
      pose proof (@rnd_err prec emax _ _ 3 D3 ltac:(lia)) as Er. rewrite <- Ed in Er.
      pose proof (@rnd_le prec emax _ _ 3 D3 ltac:(lia)) as L1. rewrite <- Ed in L1. change (bpow radix2 3) with 8%R in L1.
      assert (H2 : (/ 2 * bpow radix2 (3 - prec) = bpow radix2 (2 - prec))%R).
      { replace (3 - prec) with (2 - prec + 1) by lia. rewrite bpow_plus. change (bpow radix2 1) with 2%R. lra. }
      rewrite H2 in Er. set (d := Bminus mode_NE (seen r) (seen r1)) in *.
      destruct (WR d Fd ltac:(lra)) as (t & j & [n1 T1] & Ft & TB & J).
      assert (EJ : j = turns r1 - turns r).
      { apply (turn_core (B2R p) T e s (bpow radix2 (2 - prec)) (B2R (seen r1)) (B2R (seen r)) (B2R d) (B2R t) (true_phase r1) (true_phase r)); auto; try lra.
        apply bpow_ge_0. }
      set (y := (B2R u0 + (B2R (seen r) - B2R (seen r0)) + IZR (turns r - turns r0) * (2 * B2R p))%R) in *.
      assert (Y : (Rabs (B2R u1 + B2R t - y) <= INR i * g + bpow radix2 (2 - prec))%R).
      { apply Rabs_le_inv in U, Er. apply Rabs_le. unfold y. rewrite J, EJ. rewrite !minus_IZR in *. lra. }
      assert (NI : (INR i * g + g <= INR N * g)%R).
      { replace (INR i * g + g)%R with (INR (S i) * g)%R by (rewrite S_INR; ring). apply Rmult_le_compat_r; [lra|]. apply le_INR. cbn [length] in HN. lia. }
      assert (YK : (Rabs (B2R u1 + B2R t) <= bpow radix2 K)%R).
      { replace (B2R u1 + B2R t)%R with (y + (B2R u1 + B2R t - y))%R by ring. eapply Rle_trans; [apply Rabs_triang|].
        pose proof (bpow_gt_0 radix2 (K - 1 - prec)). unfold g in *. lra. }
      destruct (plus_r u1 t Fu1 Ft K ltac:(lia) YK) as [Fu Eu].
      pose proof (@rnd_err prec emax _ _ K YK ltac:(lia)) as Er2. rewrite <- Eu in Er2.
      assert (H3 : (/ 2 * bpow radix2 (K - prec) = bpow radix2 (K - 1 - prec))%R).
      { replace (K - prec) with (K - 1 - prec + 1) by lia. rewrite bpow_plus. change (bpow radix2 1) with 2%R. lra. }
      rewrite H3 in Er2.
      destruct (IH r0 r (Bplus mode_NE u1 t) (S i) N Fu ltac:(cbn [length] in HN; lia)) as (u & [n2 Z2] & Fz & Z); auto.
      { fold y. rewrite S_INR. replace (B2R (Bplus mode_NE u1 t) - y)%R with ((B2R (Bplus mode_NE u1 t) - (B2R u1 + B2R t)) + (B2R u1 + B2R t - y))%R by ring.
        eapply Rle_trans; [apply Rabs_triang|]. unfold g in *. lra. }
      exists u. split; [|split; auto].
      + exists (n1 + n2)%nat. intros n Hn. cbn [map]. rewrite run_cons. cbn [fst snd].
        change (o_sub float_ops (seen r) (seen r1)) with (Ok d). cbn [bind]. rewrite T1 by lia. cbn [bind].
        change (o_add float_ops u1 t) with (Ok (Bplus mode_NE u1 t)). cbn [bind]. apply Z2. lia.
      + cbn [length]. replace (i + S (length rs))%nat with (S i + length rs)%nat by lia. exact Z. }
  intros rs r0 FA SL z. destruct (main rs r0 r0 u0 0%nat (length rs) F0 (le_n _)) as (u & R & Fu & U); auto.
  { rewrite Z.sub_diag. rewrite Rabs_pos_eq; cbn; lra. }
  exists u. split; auto. split; auto. fold z in U. cbn [Nat.add] in U.
  assert (RZ : reads B2R T e r0 /\ reads B2R T e z).
  { rewrite Forall_forall in FA. split; [apply FA; left; auto|]. apply FA. unfold z. clear. revert r0.
    induction rs as [|r rs IH]; intros r0; [left; reflexivity|]. rewrite last_cons. right. apply IH. }
  destruct RZ as [RA RZ]. unfold reads in *. apply Rabs_le_inv in RA, RZ.
  set (q := turns z - turns r0) in *. assert (EQ : IZR q = (IZR (turns z) - IZR (turns r0))%R) by (unfold q; apply minus_IZR).
  assert (A : (Rabs (2 * (IZR q * (T - B2R p))) = 2 * IZR (Z.abs q) * Rabs (T - B2R p))%R).
  { rewrite !Rabs_mult, (Rabs_pos_eq 2) by lra. rewrite abs_IZR. ring. }
  rewrite <- A. set (x := (2 * (IZR q * (T - B2R p)))%R).
  set (v := (B2R u0 + (B2R (seen z) - B2R (seen r0)) + IZR q * (2 * B2R p))%R) in *.
  replace (B2R u - B2R u0 - (true_phase z - true_phase r0))%R with
    (((B2R (seen z) + IZR (turns z) * (2 * T)) - true_phase z - ((B2R (seen r0) + IZR (turns r0) * (2 * T)) - true_phase r0)) + - x + (B2R u - v))%R
    by (unfold x, v; rewrite EQ; ring).
  eapply Rle_trans; [apply Rabs_triang|]. apply Rplus_le_compat; auto.
  eapply Rle_trans; [apply Rabs_triang|]. rewrite Rabs_Ropp. apply Rplus_le_compat_r. apply Rabs_le. lra.
Qed.
End Float.

Definition unwrap_claim {prec emax : Z} {Hp : Prec_gt_0 prec} {He : Prec_lt_emax prec emax} : Prop :=
  exists p : binary_float prec emax, mixed_pi float_pi = Ok p /\
  forall T e s K (u0 : binary_float prec emax), is_finite u0 = true -> 3 <= K < emax -> 
  (s + 2 * e + 2 * Rabs (T - B2R p) + bpow radix2 (2 - prec) < B2R p)%R ->
  let g := (bpow radix2 (2 - prec) + bpow radix2 (K - 1 - prec))%R in
  forall rs r0, 
  Forall (fun r : reading (binary_float prec emax) => reads B2R T e r /\ is_finite (seen r) = true /\ (Rabs (B2R (seen r)) <= B2R p)%R /\
    (Rabs (B2R u0 + (B2R (seen r) - B2R (seen r0)) + IZR (turns r - turns r0) * (2 * B2R p)) + INR (length rs) * g <= bpow radix2 K)%R) (r0 :: rs) ->
  slow s (true_phase r0) rs ->
  let z := last rs r0 in exists u : binary_float prec emax, returns (fun fuel => run (unwf fuel) (seen r0, u0) (map seen rs)) (seen z, u) /\ is_finite u = true /\
  (Rabs (B2R u - B2R u0 - (true_phase z - true_phase r0)) <=
    2 * e + 2 * IZR (Z.abs (turns z - turns r0)) * Rabs (T - B2R p) + INR (length rs) * g)%R.

Lemma unwrap_f32 : @unwrap_claim 24 128 _ _.
Proof.
  exists f32_pi. split; [reflexivity|]. apply (@unwrap_float 24 128 _ _); try lia; [apply f32_pi_bounds|].
  intros phi F L. pose proof f32_pi_bounds as PB. destruct (wrap_f32 phi F) as (r & k & R & Fr & _ & E & _).
  { apply Rle_lt_trans with (1 := L). change (bpow radix2 24) with 16777216%R. lra. }
  exists r, k. split; auto. split; auto. split; auto.
  destruct (c10_of 27 wrap_claims_f32) as (p & Ep & _ & _ & Rg). assert (p = f32_pi) by (change (Ok f32_pi = Ok p) in Ep; congruence). subst p.
  destruct R as [n R]. destruct (Rg n phi r (R n (le_n n))) as [[E' _]|[_ [_ E']]]; [rewrite E' in F; discriminate|]. exact E'.
Qed.
Lemma unwrap_f64 : @unwrap_claim 53 1024 _ _.
Proof.
  exists f64_pi. split; [reflexivity|]. apply (@unwrap_float 53 1024 _ _); try lia; [apply f64_pi_bounds|].
  intros phi F L. pose proof f64_pi_bounds as PB. destruct (wrap_f64 phi F) as (r & k & R & Fr & _ & E & _).
  { apply Rle_lt_trans with (1 := L). change (bpow radix2 53) with 9007199254740992%R. lra. }
  exists r, k. split; auto. split; auto. split; auto.
  destruct (c10_of 56 wrap_claims_f64) as (p & Ep & _ & _ & Rg). assert (p = f64_pi) by (change (Ok f64_pi = Ok p) in Ep; congruence). subst p.
  destruct R as [n R]. destruct (Rg n phi r (R n (le_n n))) as [[E' _]|[_ [_ E']]]; [rewrite E' in F; discriminate|]. exact E'.
Qed.
