(** * Proofs: phase-locked loops on floats. *)

From Coq Require Import ZArith Reals Lia Lra Psatz List.
From Flocq Require Import Core.Core IEEE754.BinarySingleNaN.
From Verif Require Import Base FloatBase Literals Traits Trig FloatImpl Spec SpecPll
  Lemmas ScalarProofs ScalarProofs2 WrapProofs WrapProofs2 ProdProofs FloatKit FloatWrap FloatPolar PhaseAcc.
Import ListNotations.
Open Scope Z_scope.

Lemma fold_turn : forall p v e k, (0 < p -> - p <= e < p -> Rabs v <= p -> e = v + IZR k * (2 * p) -> Rabs e <= Rabs v)%R.
Proof.
  intros p v e k P0 E V H. destruct (Z.eq_dec k 0) as [->|K]; [right; f_equal; lra|].
  assert (1 <= Rabs (IZR k))%R by (rewrite <- abs_IZR; apply IZR_le; lia).
  assert (2 * p <= Rabs (e - v))%R by (replace (e - v)%R with (IZR k * (2 * p))%R by lra; rewrite Rabs_mult, (Rabs_pos_eq (2 * p)) by lra; nra).
  unfold Rabs in *. repeat destruct Rcase_abs; lra.
Qed.
Lemma geomR : forall g E (e : nat -> R) n, (0 < g <= 1)%R -> (0 <= E)%R -> (forall i, (S i < n)%nat -> Rabs (e (S i)) <= (1 - g) * Rabs (e i) + E)%R ->
  forall i, (i < n)%nat -> (Rabs (e i) <= (1 - g) ^ i * Rabs (e O) + E / g)%R.
Proof.
  intros g E e n G E0 H. assert (Q : (0 <= E / g)%R) by (apply Rmult_le_pos; [lra|left; apply Rinv_0_lt_compat; lra]).
  induction i as [|i IH]; intros I; [cbn; lra|]. specialize (H i I). specialize (IH ltac:(lia)). cbn [pow].
  assert ((1 - g) * Rabs (e i) <= (1 - g) * ((1 - g) ^ i * Rabs (e O) + E / g))%R by (apply Rmult_le_compat_l; lra).
  assert (E = g * (E / g))%R by (field; lra). lra.
Qed.

Section Float.
Context {prec emax : Z} {Hp : Prec_gt_0 prec} {He : Prec_lt_emax prec emax}.
Notation float := (binary_float prec emax).
Notation fexp := (SpecFloat.fexp prec emax).
Notation rnd := (round radix2 fexp ZnearestE).
Notation u := (bpow radix2 (- prec)).
Hypothesis P24 : 24 <= prec.
Hypothesis E10 : prec + 20 <= emax.
Variable p : float.
Hypothesis PB : (3 <= B2R p <= 22 / 7)%R.
Hypothesis WR : forall phi : float, is_finite phi = true -> (Rabs (B2R phi) <= 4 * B2R p)%R -> exists (r : float) k,
  returns (fun fuel => mixed_wrap_phase (float_wrap_phase fuel) phi) r /\ is_finite r = true /\
  (- B2R p <= B2R r < B2R p)%R /\ B2R r = (B2R phi - IZR k * (2 * B2R p))%R.
Variables (gain : float) (s : R).
Hypothesis FG : is_finite gain = true.
Hypothesis GB : (0 < B2R gain <= 1)%R.
Hypothesis S0 : (0 <= s)%R.
Hypothesis SB : (s + 14 * u <= B2R gain * B2R p)%R.
Notation L fuel := (pll float_ops (mixed_wrap_phase (float_wrap_phase fuel)) gain).
Lemma scale : forall j, bpow radix2 (j - prec) = (bpow radix2 j * u)%R.
Proof. intros. unfold Z.sub. apply bpow_plus. Qed.
Lemma measure : forall t phi : float, is_finite phi = true -> (- B2R p <= B2R phi < B2R p)%R -> is_finite t = true -> (- B2R p <= B2R t < B2R p)%R ->
  exists e k, returns (fun fuel => mixed_wrap_phase (float_wrap_phase fuel) (Bminus mode_NE t phi)) e /\ is_finite e = true /\ (- B2R p <= B2R e < B2R p)%R /\
  (Rabs (B2R e - (B2R t - B2R phi + IZR k * (2 * B2R p))) <= 4 * u)%R.
Proof using P24 E10 PB WR.
  intros t phi Fp Bp Ft Bt.
  assert (B3 : (Rabs (B2R t - B2R phi) <= bpow radix2 3)%R) by (change (bpow radix2 3) with 8%R; apply Rabs_le; lra).
  destruct (minus_r t phi Ft Fp 3 ltac:(lia) B3) as [Fd Ed]. pose proof (@rnd_err prec emax _ _ 3 B3 ltac:(lia)) as Er. rewrite <- Ed, scale in Er.
  pose proof (@rnd_le prec emax _ _ 3 B3 ltac:(lia)) as L1. rewrite <- Ed in L1. change (bpow radix2 3) with 8%R in *.
  destruct (WR (Bminus mode_NE t phi) Fd ltac:(lra)) as (e & k & R & Fe & Be & E). exists e, (- k). split; [exact R|]. split; auto. split; auto.
  rewrite E, opp_IZR. replace (_ - _)%R with (B2R (Bminus mode_NE t phi) - (B2R t - B2R phi))%R by ring. lra.
Qed.
Lemma update : forall e phi : float, is_finite phi = true -> (- B2R p <= B2R phi < B2R p)%R -> is_finite e = true -> (- B2R p <= B2R e < B2R p)%R ->
  exists r k, returns (fun fuel => mixed_wrap_phase (float_wrap_phase fuel) (Bplus mode_NE phi (Bmult mode_NE gain e))) r /\ is_finite r = true /\ (- B2R p <= B2R r < B2R p)%R /\
  (Rabs (B2R r - (B2R phi + B2R gain * B2R e + IZR k * (2 * B2R p))) <= 6 * u)%R.
Proof using P24 E10 PB WR FG GB.
  intros e phi Fp Bp Fe Be. assert (U1 : (u <= / 16)%R) by (change (/ 16)%R with (bpow radix2 (-4)); apply bpow_le; lia).
  assert (GE : (Rabs (B2R gain * B2R e) <= B2R p)%R).
  { rewrite Rabs_mult, (Rabs_pos_eq (B2R gain)) by lra. assert (Rabs (B2R e) <= B2R p)%R by (apply Rabs_le; lra). pose proof (Rabs_pos (B2R e)). nra. }
  assert (B2 : (Rabs (B2R gain * B2R e) <= bpow radix2 2)%R) by (change (bpow radix2 2) with 4%R; lra).
  destruct (mult_r gain e FG Fe 2 ltac:(lia) B2) as [Fc Ec]. pose proof (@rnd_err prec emax _ _ 2 B2 ltac:(lia)) as Er. rewrite <- Ec, scale in Er. change (bpow radix2 2) with 4%R in Er.
  set (c := Bmult mode_NE gain e) in *.
  assert (B3 : (Rabs (B2R phi + B2R c) <= bpow radix2 3)%R).
  { change (bpow radix2 3) with 8%R. apply Rabs_le_inv in Er. apply Rabs_le_inv in GE. apply Rabs_le. lra. }
  destruct (plus_r phi c Fp Fc 3 ltac:(lia) B3) as [Fa Ea]. pose proof (@rnd_err prec emax _ _ 3 B3 ltac:(lia)) as Er'. rewrite <- Ea, scale in Er'.
  pose proof (@rnd_le prec emax _ _ 3 B3 ltac:(lia)) as L1. rewrite <- Ea in L1. change (bpow radix2 3) with 8%R in *.
  destruct (WR (Bplus mode_NE phi c) Fa ltac:(lra)) as (r & k & R & Fr & Br & E). exists r, (- k). split; [exact R|]. split; auto. split; auto.
  rewrite E, opp_IZR. apply Rabs_le_inv in Er. apply Rabs_le_inv in Er'. apply Rabs_le. lra.
Qed.
Lemma pll_step : forall n phi t l, L n phi (t :: l) =
  (e <- mixed_wrap_phase (float_wrap_phase n) (Bminus mode_NE t phi) ;; phi' <- mixed_wrap_phase (float_wrap_phase n) (Bplus mode_NE phi (Bmult mode_NE gain e)) ;; r <- L n phi' l ;; Ok (e :: r)).
Proof. reflexivity. Qed.
Lemma loop : forall l (t phi : float), is_finite phi = true -> (- B2R p <= B2R phi < B2R p)%R -> is_finite t = true -> (- B2R p <= B2R t < B2R p)%R ->
  Forall (fun x => is_finite x = true) l -> turningR (B2R p) s (B2R t) (map B2R l) ->
  exists es, returns (fun fuel => L fuel phi (t :: l)) es /\ length es = S (length l) /\
  (exists e k, nth_error es 0 = Some e /\ (Rabs (B2R e - (B2R t - B2R phi + IZR k * (2 * B2R p))) <= 4 * u)%R) /\
  (forall i e, nth_error es i = Some e -> is_finite e = true /\ (- B2R p <= B2R e < B2R p)%R) /\
  forall i e e', nth_error es i = Some e -> nth_error es (S i) = Some e' -> (Rabs (B2R e') <= (1 - B2R gain) * Rabs (B2R e) + (s + 14 * u))%R.
Proof using P24 E10 PB WR FG GB S0 SB.
  assert (U0 : (0 < u)%R) by apply bpow_gt_0.
  induction l as [|t' l IH]; intros t phi Fp Bp Ft Bt FL TU;
    destruct (measure t phi Fp Bp Ft Bt) as (e & k & [n1 R1] & Fe & Be & Ke); destruct (update e phi Fp Bp Fe Be) as (phi' & k2 & [n2 R2] & Fp' & Bp' & Kp).
  - exists [e]. split; [|split; [reflexivity|split; [exists e, k; auto|split]]].
    + exists (n1 + n2)%nat. intros n N. specialize (R1 n ltac:(lia)). specialize (R2 n ltac:(lia)).
      rewrite pll_step, R1. cbn [bind]. rewrite R2. reflexivity.
    + intros [|[|i]] e' I; try discriminate. injection I as <-. auto.
    + intros [|i] a b A B; discriminate.
  - inversion FL as [|? ? Ft' FL']; subst. destruct TU as [[Bt' (d & j & Hd & Sd)] TU].
    destruct (IH t' phi' Fp' Bp' Ft' Bt' FL' TU) as (es & [n3 R3] & Len & (e' & k' & H0 & Ke') & HB & HR).
    exists (e :: es). split; [|split; [cbn [length]; f_equal; auto|split; [exists e, k; auto|split]]].
    + exists (n1 + n2 + n3)%nat. intros n N. specialize (R1 n ltac:(lia)). specialize (R2 n ltac:(lia)). specialize (R3 n ltac:(lia)).
      rewrite pll_step, R1. cbn [bind]. rewrite R2. cbn [bind]. rewrite R3. reflexivity.
    + intros [|i] x I; [injection I as <-; auto|apply (HB i x I)].
    + intros [|i] a b A B; [|apply (HR i a b A B)]. injection A as <-. change (nth_error es 0 = Some b) in B. rewrite H0 in B. injection B as <-.
      destruct (HB 0%nat e' H0) as [_ Be'].
      set (v := ((1 - B2R gain) * B2R e + d + (B2R e' - (B2R t' - B2R phi' + IZR k' * (2 * B2R p))) - (B2R e - (B2R t - B2R phi + IZR k * (2 * B2R p))) - (B2R phi' - (B2R phi + B2R gain * B2R e + IZR k2 * (2 * B2R p))))%R).
      assert (V : (Rabs v <= (1 - B2R gain) * Rabs (B2R e) + (s + 14 * u))%R).
      { unfold v. apply Rabs_le_inv in Ke. apply Rabs_le_inv in Ke'. apply Rabs_le_inv in Kp. apply Rabs_le_inv in Sd.
        assert (A1 : (Rabs ((1 - B2R gain) * B2R e) = (1 - B2R gain) * Rabs (B2R e))%R) by (rewrite Rabs_mult, (Rabs_pos_eq (1 - B2R gain)); lra).
        assert (A2 : (Rabs ((1 - B2R gain) * B2R e) <= (1 - B2R gain) * Rabs (B2R e))%R) by lra. apply Rabs_le_inv in A2. apply Rabs_le. lra. }
      assert (EP : (Rabs (B2R e) <= B2R p)%R) by (apply Rabs_le; lra).
      assert (VP : (Rabs v <= B2R p)%R) by (assert ((1 - B2R gain) * Rabs (B2R e) <= (1 - B2R gain) * B2R p)%R by (apply Rmult_le_compat_l; lra); lra).
      apply Rle_trans with (2 := V). apply (fold_turn (B2R p) v (B2R e') (k' + j - k - k2)); auto; [lra|].
      rewrite !minus_IZR, plus_IZR. unfold v. rewrite Hd. ring.
Qed.
Lemma pll_float : forall l (t phi : float), is_finite phi = true -> (- B2R p <= B2R phi < B2R p)%R -> is_finite t = true -> (- B2R p <= B2R t < B2R p)%R ->
  Forall (fun x => is_finite x = true) l -> turningR (B2R p) s (B2R t) (map B2R l) ->
  exists es e0 k, returns (fun fuel => L fuel phi (t :: l)) es /\ length es = S (length l) /\
  nth_error es 0 = Some e0 /\ (Rabs (B2R e0 - (B2R t - B2R phi + IZR k * (2 * B2R p))) <= 4 * u)%R /\
  forall i e, nth_error es i = Some e -> is_finite e = true /\ (- B2R p <= B2R e < B2R p)%R /\
  (Rabs (B2R e) <= (1 - B2R gain) ^ i * Rabs (B2R e0) + (s + 14 * u) / B2R gain)%R.
Proof using P24 E10 PB WR FG GB S0 SB.
  intros l t phi Fp Bp Ft Bt FL TU. destruct (loop l t phi Fp Bp Ft Bt FL TU) as (es & R & Len & (e0 & k & H0 & K0) & HB & HR).
  exists es, e0, k. split; auto. split; auto. split; auto. split; auto. intros i e I. destruct (HB i e I) as [Fe Be]. split; auto. split; auto.
  assert (U0 : (0 < u)%R) by apply bpow_gt_0.
  pose proof (geomR (B2R gain) (s + 14 * u) (fun i => B2R (nth i es e0)) (length es) GB ltac:(lra)) as G. cbv beta in G.
  rewrite (nth_error_nth _ _ e0 H0) in G. assert (I' : (i < length es)%nat) by (apply nth_error_Some; congruence).
  specialize (fun H => G H i I'). rewrite (nth_error_nth _ _ e0 I) in G. apply G. intros j J.
  destruct (nth_error es j) as [a|] eqn:A; [|apply nth_error_None in A; lia]. destruct (nth_error es (S j)) as [b|] eqn:B; [|apply nth_error_None in B; lia].
  rewrite (nth_error_nth _ _ e0 A), (nth_error_nth _ _ e0 B). apply (HR j a b A B).
Qed.
End Float.

Lemma pll_f32 : exists p : f32, mixed_pi float_pi = Ok p /\ forall (gain : f32) s, is_finite gain = true -> (0 < B2R gain <= 1)%R -> (0 <= s)%R -> (s + 14 * bpow radix2 (-24) <= B2R gain * B2R p)%R ->
  forall l (t phi : f32), is_finite phi = true -> (- B2R p <= B2R phi < B2R p)%R -> is_finite t = true -> (- B2R p <= B2R t < B2R p)%R ->
  Forall (fun x => is_finite x = true) l -> turningR (B2R p) s (B2R t) (map B2R l) ->
  exists es e0 k, returns (fun fuel => pll float_ops (mixed_wrap_phase (float_wrap_phase fuel)) gain phi (t :: l)) es /\ length es = S (length l) /\
  nth_error es 0 = Some e0 /\ (Rabs (B2R e0 - (B2R t - B2R phi + IZR k * (2 * B2R p))) <= 4 * bpow radix2 (-24))%R /\
  forall i e, nth_error es i = Some e -> is_finite e = true /\ (- B2R p <= B2R e < B2R p)%R /\
  (Rabs (B2R e) <= (1 - B2R gain) ^ i * Rabs (B2R e0) + (s + 14 * bpow radix2 (-24)) / B2R gain)%R.
Proof.
  exists f32_pi. split; [reflexivity|]. intros gain s FG GB S0 SB. apply (@pll_float 24 128 _ _ ltac:(lia) ltac:(lia)); auto; [apply f32_pi_bounds|].
  intros phi F L. pose proof f32_pi_bounds as PB. destruct (wrap_f32 phi F) as (r & k & R & Fr & _ & E & _).
  { apply Rle_lt_trans with (1 := L). change (bpow radix2 24) with 16777216%R. lra. }
  exists r, k. split; auto. split; auto. split; auto.
  destruct (c10_of 27 wrap_claims_f32) as (p & Ep & _ & _ & Rg). assert (p = f32_pi) by (change (Ok f32_pi = Ok p) in Ep; congruence). subst p.
  destruct R as [n R]. destruct (Rg n phi r (R n (le_n n))) as [[E' _]|[_ [_ E']]]; [rewrite E' in F; discriminate|]. exact E'.
Qed.
Lemma pll_f64 : exists p : f64, mixed_pi float_pi = Ok p /\ forall (gain : f64) s, is_finite gain = true -> (0 < B2R gain <= 1)%R -> (0 <= s)%R -> (s + 14 * bpow radix2 (-53) <= B2R gain * B2R p)%R ->
  forall l (t phi : f64), is_finite phi = true -> (- B2R p <= B2R phi < B2R p)%R -> is_finite t = true -> (- B2R p <= B2R t < B2R p)%R ->
  Forall (fun x => is_finite x = true) l -> turningR (B2R p) s (B2R t) (map B2R l) ->
  exists es e0 k, returns (fun fuel => pll float_ops (mixed_wrap_phase (float_wrap_phase fuel)) gain phi (t :: l)) es /\ length es = S (length l) /\
  nth_error es 0 = Some e0 /\ (Rabs (B2R e0 - (B2R t - B2R phi + IZR k * (2 * B2R p))) <= 4 * bpow radix2 (-53))%R /\
  forall i e, nth_error es i = Some e -> is_finite e = true /\ (- B2R p <= B2R e < B2R p)%R /\
  (Rabs (B2R e) <= (1 - B2R gain) ^ i * Rabs (B2R e0) + (s + 14 * bpow radix2 (-53)) / B2R gain)%R.
Proof.
  exists f64_pi. split; [reflexivity|]. intros gain s FG GB S0 SB. apply (@pll_float 53 1024 _ _ ltac:(lia) ltac:(lia)); auto; [apply f64_pi_bounds|].
  intros phi F L. pose proof f64_pi_bounds as PB. destruct (wrap_f64 phi F) as (r & k & R & Fr & _ & E & _).
  { apply Rle_lt_trans with (1 := L). change (bpow radix2 53) with 9007199254740992%R. lra. }
  exists r, k. split; auto. split; auto. split; auto.
  destruct (c10_of 56 wrap_claims_f64) as (p & Ep & _ & _ & Rg). assert (p = f64_pi) by (change (Ok f64_pi = Ok p) in Ep; congruence). subst p.
  destruct R as [n R]. destruct (Rg n phi r (R n (le_n n))) as [[E' _]|[_ [_ E']]]; [rewrite E' in F; discriminate|]. exact E'.
Qed.
