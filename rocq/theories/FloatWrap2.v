(** * Accuracy of phase wrapping on floats (proofs for C85). *)

From Coq Require Import ZArith Reals Lia Lra Psatz List Bool.
From Flocq Require Import Core.Core IEEE754.BinarySingleNaN.
From Flocq Require Import Sterbenz.
From Verif Require Import Base FloatBase Literals Traits Trig FixedPrim FloatImpl Spec
  Lemmas FloatLemmas FloatProofs WrapProofs FloatWrap FloatKit WrapProofs2 SinReal.
Open Scope Z_scope.

Section FW.
Context {prec emax : Z} {Hp : Prec_gt_0 prec} {He : Prec_lt_emax prec emax}.
Notation float := (binary_float prec emax).
Notation fexp := (SpecFloat.fexp prec emax).
Notation rnd := (round radix2 fexp ZnearestE).
Notation format := (generic_format radix2 fexp).
Hypothesis P5 : 5 <= prec.
Hypothesis E4 : prec + 4 < emax.
Let Vexp : Valid_exp fexp := fexp_correct prec emax _.
Let Mexp : Monotone_exp fexp := fexp_monotone prec emax.

Variables pf tau : float.
Hypothesis Hpi : float_of_float prec emax lit_pi = pf.
Hypothesis Htau : Bmult mode_NE (float_of_Z prec emax 2) pf = tau.
Hypothesis Fpf : is_finite pf = true.
Hypothesis Ftau : is_finite tau = true.
Hypothesis Vpf : (3 <= B2R pf <= 22 / 7)%R.
Hypothesis Vtau : (B2R tau = 2 * B2R pf)%R.

Let c1 := fun t : float => Ok (o_lt float_ops t (Bopp pf)).
Let b1 := fun t : float => Ok (Bplus mode_NE t tau).
Let c2 := fun t : float => Ok (o_le float_ops pf t).
Let b2 := fun t : float => Ok (Bminus mode_NE t tau).

Lemma sterb : forall t : float, (B2R pf <= B2R t <= 2 * B2R tau)%R -> rnd (B2R t - B2R tau) = (B2R t - B2R tau)%R.
Proof using Vexp Mexp Vtau Vpf. clear P5 E4 Hpi Htau Fpf Ftau.
  intros t H. apply round_generic; [apply valid_rnd_N|]. apply sterbenz; auto; try apply generic_format_B2R. lra.
Qed.

Variable e : Z.
Hypothesis Ee : 3 <= e <= prec.
Let d := (/ 2 * bpow radix2 (e - prec))%R.
Lemma d_small : (0 < d <= / 2)%R.
Proof using Ee.
  unfold d. pose proof (bpow_gt_0 radix2 (e - prec)). assert (bpow radix2 (e - prec) <= bpow radix2 0)%R by (apply bpow_le; lia). change (bpow radix2 0) with 1%R in *. lra.
Qed.
Lemma e_big : (8 <= bpow radix2 e)%R.
Proof using Ee. clear -Ee. change 8%R with (bpow radix2 3). apply bpow_le. lia. Qed.

(** the number of subtractions *)
Definition downs (t0 : float) (t : float) : Prop := is_finite t = true /\ (- B2R pf <= B2R t <= B2R t0)%R /\
  exists k, 0 <= k /\ (Rabs (B2R t - (B2R t0 - IZR k * B2R tau)) <= IZR k * d)%R /\
  ((B2R t0 <= 2 * B2R tau)%R -> B2R t = (B2R t0 - IZR k * B2R tau)%R) /\
  (k = 0 \/ (IZR (k - 1) * (B2R tau - d) <= B2R t0 - B2R pf)%R).
Lemma down_inv : forall t0 : float, (B2R t0 <= bpow radix2 e)%R ->
  forall s s', downs t0 s -> c2 s = Ok true -> b2 s = Ok s' -> downs t0 s'.
Proof using All.
  intros t0 L s s' (F & R & k & K0 & A & X & N) C B. injection B as <-. 
  destruct (c2_fin pf Fpf s F) as [[_ V]|[C' _]]; [|unfold c2 in C; congruence].
  destruct (step_down pf tau Ftau Vpf Vtau s F V) as (F' & V' & R'). pose proof d_small as D. pose proof e_big as E8.
  split; [exact F'|]. split; [lra|]. exists (k + 1). split; [lia|].
  assert (Er : (Rabs (rnd (B2R s - B2R tau) - (B2R s - B2R tau)) <= d)%R) by (apply rnd_err; [apply Rabs_le; lra|lia]).
  rewrite V', plus_IZR. split; [|split].
  - replace (rnd (B2R s - B2R tau) - (B2R t0 - (IZR k + 1) * B2R tau))%R with ((rnd (B2R s - B2R tau) - (B2R s - B2R tau)) + (B2R s - (B2R t0 - IZR k * B2R tau)))%R by ring.
    eapply Rle_trans; [apply Rabs_triang|]. lra.
  - intros T. rewrite sterb by lra. rewrite (X T). ring.
  - right. replace (k + 1 - 1) with k by ring. apply Rabs_le_inv in A. lra.
Qed.
Definition ups (t0 : float) (t : float) : Prop := is_finite t = true /\ (B2R t0 <= B2R t)%R /\ (t = t0 \/ (B2R t <= B2R pf)%R) /\
  exists k, 0 <= k /\ (k = 0 -> t = t0) /\ (Rabs (B2R t - (B2R t0 + IZR k * B2R tau)) <= IZR k * d)%R /\
  ((- (2 * B2R tau) <= B2R t0)%R -> B2R t = (B2R t0 + IZR k * B2R tau)%R) /\
  (k = 0 \/ (IZR (k - 1) * (B2R tau - d) <= - B2R t0 - B2R pf)%R).
Lemma up_inv : forall t0 : float, (- bpow radix2 e <= B2R t0)%R ->
  forall s s', ups t0 s -> c1 s = Ok true -> b1 s = Ok s' -> ups t0 s'.
Proof using All.
  intros t0 L s s' (F & R & RR & k & K0 & KE & A & X & N) C B. injection B as <-. 
  destruct (c1_fin pf Fpf s F) as [[_ V]|[C' _]]; [|unfold c1 in C; congruence].
  destruct (step_up pf tau Ftau Vpf Vtau s F V) as (F' & V' & R'). pose proof d_small as D. pose proof e_big as E8.
  split; [exact F'|]. split; [lra|]. split; [right; apply R'|]. exists (k + 1). split; [lia|]. split; [lia|].
  assert (Er : (Rabs (rnd (B2R s + B2R tau) - (B2R s + B2R tau)) <= d)%R) by (apply rnd_err; [apply Rabs_le; lra|lia]).
  rewrite V', plus_IZR. split; [|split].
  - replace (rnd (B2R s + B2R tau) - (B2R t0 + (IZR k + 1) * B2R tau))%R with ((rnd (B2R s + B2R tau) - (B2R s + B2R tau)) + (B2R s - (B2R t0 + IZR k * B2R tau)))%R by ring.
    eapply Rle_trans; [apply Rabs_triang|]. lra.
  - intros T. assert (S : rnd (B2R (Bopp s) - B2R tau) = (B2R (Bopp s) - B2R tau)%R) by (apply sterb; rewrite B2R_Bopp; lra).
    rewrite B2R_Bopp in S. replace (- B2R s - B2R tau)%R with (- (B2R s + B2R tau))%R in S by ring. rewrite round_NE_opp in S.
    assert (S2 : rnd (B2R s + B2R tau) = (B2R s + B2R tau)%R) by lra. rewrite S2, (X T). ring.
  - right. replace (k + 1 - 1) with k by ring. apply Rabs_le_inv in A. lra.
Qed.
Lemma count_le : forall k x t, 0 <= k -> (6 <= t)%R -> (k = 0 \/ (IZR (k - 1) * (t - d) <= x - B2R pf)%R) -> (IZR k <= Rabs x / 3)%R /\ (k <> 0 -> (B2R pf <= x)%R).
Proof using Ee Vpf.
  intros k x t K T [->|N]; pose proof d_small as D. { split; [pose proof (Rabs_pos x); lra|lia]. }
  pose proof (RRle_abs x) as AX. destruct (Z.eq_dec k 0) as [->|NZ]. { split; [pose proof (Rabs_pos x); lra|lia]. }
  assert (K1 : (1 <= IZR k)%R) by (apply IZR_le; lia). rewrite minus_IZR in N.
  assert (N2 : ((IZR k - 1) * 5.5 <= x - B2R pf)%R). { eapply Rle_trans; [|exact N]. apply Rmult_le_compat_l; lra. }
  split; [lra|]. intros _. assert (0 <= (IZR k - 1) * 5.5)%R by (apply Rmult_le_pos; lra). lra.
Qed.

Lemma wrap_acc : forall fuel (phi r : float), is_finite phi = true -> (Rabs (B2R phi) <= bpow radix2 e)%R ->
  mixed_wrap_phase (float_wrap_phase fuel) phi = Ok r ->
  exists k, (Rabs (IZR k) <= Rabs (B2R phi) / 3)%R /\
  (Rabs (B2R r - (B2R phi - IZR k * B2R tau)) <= Rabs (B2R phi) / 3 * d)%R /\
  ((Rabs (B2R phi) <= 2 * B2R tau)%R -> B2R r = (B2R phi - IZR k * B2R tau)%R).
Proof using All.
  intros fuel phi r F L H. rewrite (wrap_eq pf tau Hpi Htau) in H. fold c1 b1 c2 b2 in H. pose proof d_small as D. apply Rabs_le_inv in L.
  destruct (while fuel c1 b1 phi) as [t1| |] eqn:W1; cbn [bind] in H; try discriminate.
  destruct (while_inv c1 b1 (ups phi) (up_inv phi ltac:(lra)) fuel phi t1) as [(F1 & G1 & RR & k1 & K1 & Z1 & A1 & X1 & N1) C1]; auto.
  { split; auto. split; [lra|]. split; auto. exists 0. split; [lia|]. split; auto. split; [|split; [|auto]].
    - replace (B2R phi - (B2R phi + 0 * B2R tau))%R with 0%R by ring. rewrite Rabs_R0. lra.
    - intros _. ring. }
  assert (Q1 : (- B2R pf <= B2R t1)%R). { destruct (c1_fin pf Fpf t1 F1) as [[C' _]|[_ V]]; [unfold c1 in C1; congruence|exact V]. }
  pose proof e_big as E8. destruct (Z.eq_dec k1 0) as [E|NE].
  - assert (t1 = phi) by auto. subst t1.
    destruct (while_inv c2 b2 (downs phi) (down_inv phi ltac:(lra)) fuel phi r) as [(F2 & G2 & k & K & A & X & N) C2]; auto.
    { split; auto. split; [lra|]. exists 0. split; [lia|]. split; [|split; [|auto]].
      - replace (B2R phi - (B2R phi - 0 * B2R tau))%R with 0%R by ring. rewrite Rabs_R0. lra.
      - intros _. ring. }
    destruct (count_le k (B2R phi) (B2R tau) K ltac:(lra) N) as [CL _].
    exists k. assert (0 <= IZR k)%R by (apply IZR_le; lia). rewrite (Rabs_pos_eq (IZR k)) by auto. split; [exact CL|]. split.
    + eapply Rle_trans; [exact A|]. apply Rmult_le_compat_r; lra.
    + intros T. apply X. pose proof (RRle_abs (B2R phi)). lra.
  - destruct (count_le k1 (- B2R phi) (B2R tau) K1 ltac:(lra) N1) as [CL PP]. specialize (PP NE). rewrite Rabs_Ropp in CL.
    assert (T1 : (B2R t1 <= B2R pf)%R) by (destruct RR; [subst t1; lra|auto]).
    destruct (while_inv c2 b2 (downs t1) (down_inv t1 ltac:(lra)) fuel t1 r) as [(F2 & G2 & k & K & A & X & N) C2]; auto.
    { split; auto. split; [lra|]. exists 0. split; [lia|]. split; [|split; [|auto]].
      - replace (B2R t1 - (B2R t1 - 0 * B2R tau))%R with 0%R by ring. rewrite Rabs_R0. lra.
      - intros _. ring. }
    specialize (X ltac:(lra)).
    assert (K2 : k <= 1). { destruct N as [->|N]; [lia|]. destruct (Z_le_gt_dec k 1); auto. exfalso.
      assert (1 <= IZR (k - 1))%R by (apply IZR_le; lia). assert (1 * (B2R tau - d) <= IZR (k - 1) * (B2R tau - d))%R by (apply Rmult_le_compat_r; lra). lra. }
    exists (k - k1). assert (IK : (0 <= IZR k <= 1)%R) by (split; apply IZR_le; lia). assert (IK1 : (1 <= IZR k1)%R) by (apply IZR_le; lia).
    rewrite minus_IZR. split; [rewrite Rabs_minus_sym, Rabs_pos_eq; lra|].
    rewrite X. split.
    + replace (B2R t1 - IZR k * B2R tau - (B2R phi - (IZR k - IZR k1) * B2R tau))%R with (B2R t1 - (B2R phi + IZR k1 * B2R tau))%R by ring.
      eapply Rle_trans; [exact A1|]. apply Rmult_le_compat_r; lra.
    + intros T. rewrite X1; [ring|]. rewrite Rabs_left1 in T by lra. lra.
Qed.
End FW.

(** relative to the true 2 pi *)
Section FPi.
Context {prec emax : Z} {Hp : Prec_gt_0 prec} {He : Prec_lt_emax prec emax}.
Notation float := (binary_float prec emax).
Notation u := (bpow radix2 (- prec)).
Hypothesis P5 : 5 <= prec.
Hypothesis E4 : prec + 4 < emax.
Variables pf tau : float.
Hypothesis Hpi : float_of_float prec emax lit_pi = pf.
Hypothesis Htau : Bmult mode_NE (float_of_Z prec emax 2) pf = tau.
Hypothesis Fpf : is_finite pf = true.
Hypothesis Ftau : is_finite tau = true.
Hypothesis Vpf : (3 <= B2R pf <= 22 / 7)%R.
Hypothesis Vtau : (B2R tau = 2 * B2R pf)%R.
Hypothesis Vpi : (Rabs (B2R pf - PI) <= 3 / 2 * u)%R.

Lemma wrap_pi : forall phi : float, is_finite phi = true -> (Rabs (B2R phi) < bpow radix2 prec)%R ->
  exists r k, returns (fun fuel => mixed_wrap_phase (float_wrap_phase fuel) phi) r /\ is_finite r = true /\
  (- B2R pf <= B2R r < B2R pf)%R /\
  (Rabs (IZR k) <= Rabs (B2R phi) / 3)%R /\
  ((Rabs (B2R phi) <= 4 * B2R pf)%R -> B2R r = (B2R phi - IZR k * (2 * B2R pf))%R) /\
  ((Rabs (B2R phi) <= 4 * B2R pf)%R -> (Rabs (B2R r - (B2R phi - IZR k * (2 * PI))) <= Rabs (IZR k) * (3 * u))%R) /\
  (Rabs (B2R r - (B2R phi - IZR k * (2 * PI))) <= (B2R phi * B2R phi / 3 + Rabs (B2R phi)) * u)%R.
Proof using All.
  intros phi F L.
  destruct (wrap_returns P5 E4 pf tau Hpi Htau Fpf Ftau Vpf Vtau phi F) as [r Rr].
  { apply Rlt_le, Rlt_le_trans with (1 := L). apply bpow_le. lia. }
  pose proof (bpow_gt_0 radix2 (- prec)) as U0. pose proof (Rabs_pos (B2R phi)) as A0.
  assert (C : exists k, (Rabs (IZR k) <= Rabs (B2R phi) / 3)%R /\
    ((Rabs (B2R phi) <= 2 * B2R tau)%R -> B2R r = (B2R phi - IZR k * B2R tau)%R) /\
    (Rabs (B2R r - (B2R phi - IZR k * B2R tau)) <= B2R phi * B2R phi / 3 * u)%R).
  { destruct Rr as [n0 Rr]. specialize (Rr n0 (le_n _)).
    assert (SQ : (B2R phi * B2R phi = Rabs (B2R phi) * Rabs (B2R phi))%R) by (rewrite <- Rabs_mult, Rabs_pos_eq; auto; apply Rle_0_sqr).
    destruct (Rle_lt_dec 8 (Rabs (B2R phi))) as [B|B].
    - destruct (mag radix2 (B2R phi)) as [e Me]. specialize (Me ltac:(intros Z; rewrite Z, Rabs_R0 in B; lra)).
      assert (E3 : 3 < e) by (apply (lt_bpow radix2); change (bpow radix2 3) with 8%R; lra).
      assert (E5 : e <= prec) by (assert (e - 1 < prec); [apply (lt_bpow radix2); lra|lia]).
      destruct (wrap_acc P5 E4 pf tau Hpi Htau Fpf Ftau Vpf Vtau e ltac:(lia) n0 phi r F ltac:(lra) Rr) as (k & K & A & X).
      exists k. split; auto. split; auto. eapply Rle_trans; [exact A|]. rewrite SQ. 
      replace (Rabs (B2R phi) * Rabs (B2R phi) / 3 * u)%R with (Rabs (B2R phi) / 3 * (Rabs (B2R phi) * u))%R by field.
      apply Rmult_le_compat_l; [lra|]. replace (e - prec) with (1 + ((e - 1) + - prec)) by ring. rewrite !bpow_plus. change (bpow radix2 1) with 2%R.
      replace (/ 2 * (2 * (bpow radix2 (e - 1) * u)))%R with (bpow radix2 (e - 1) * u)%R by field. apply Rmult_le_compat_r; lra.
    - destruct (wrap_acc P5 E4 pf tau Hpi Htau Fpf Ftau Vpf Vtau 3 ltac:(lia) n0 phi r F ltac:(change (bpow radix2 3) with 8%R; lra) Rr) as (k & K & A & X).
      exists k. split; auto. split; auto. rewrite X by lra. replace (B2R phi - IZR k * B2R tau - (B2R phi - IZR k * B2R tau))%R with 0%R by ring. rewrite Rabs_R0.
      apply Rmult_le_pos; [rewrite SQ; nra|lra]. }
  destruct C as (k & K & X & A). exists r, k. split; auto.
  assert (W : is_finite r = true /\ (- B2R pf <= B2R r < B2R pf)%R).
  { destruct Rr as [n0 Rr]. specialize (Rr n0 (le_n _)). destruct (wrap_range_float pf tau Hpi Htau Fpf Ftau Vpf Vtau n0 phi r Rr) as [[-> _]|[_ W]]; [discriminate|exact W]. }
  destruct W as [Fr Wr]. split; auto. split; auto. split; auto.
  assert (T : (Rabs (IZR k * B2R tau - IZR k * (2 * PI)) <= Rabs (IZR k) * (3 * u))%R).
  { rewrite <- Rmult_minus_distr_l, Rabs_mult. apply Rmult_le_compat_l; [apply Rabs_pos|]. rewrite Vtau, <- Rmult_minus_distr_l, Rabs_mult, (Rabs_pos_eq 2); lra. }
  split; [|split].
  - intros H. rewrite X by lra. rewrite Vtau. reflexivity.
  - intros H. rewrite X by lra. replace (B2R phi - IZR k * B2R tau - (B2R phi - IZR k * (2 * PI)))%R with (- (IZR k * B2R tau - IZR k * (2 * PI)))%R by ring. rewrite Rabs_Ropp. exact T.
  - replace (B2R r - (B2R phi - IZR k * (2 * PI)))%R with ((B2R r - (B2R phi - IZR k * B2R tau)) - (IZR k * B2R tau - IZR k * (2 * PI)))%R by ring.
    unfold Rminus at 1. eapply Rle_trans; [apply Rabs_triang|]. rewrite Rabs_Ropp.
    assert (Rabs (IZR k) * (3 * u) <= Rabs (B2R phi) * u)%R by (replace (Rabs (B2R phi) * u)%R with (Rabs (B2R phi) / 3 * (3 * u))%R by field; apply Rmult_le_compat_r; lra). lra.
Qed.
End FPi.

Lemma f32_pi_err : (Rabs (B2R f32_pi - PI) <= 3 / 2 * bpow radix2 (-24))%R.
Proof. pose proof pi_bounds. rewrite (proj1 f32_pi_val). change (bpow radix2 (-22)) with (/ IZR 4194304)%R. change (bpow radix2 (-24)) with (/ IZR 16777216)%R. apply Rabs_le. lra. Qed.
Lemma f64_pi_err : (Rabs (B2R f64_pi - PI) <= 3 / 2 * bpow radix2 (-53))%R.
Proof. pose proof pi_bounds. rewrite (proj1 f64_pi_val). change (bpow radix2 (-51)) with (/ IZR 2251799813685248)%R. change (bpow radix2 (-53)) with (/ IZR 9007199254740992)%R. apply Rabs_le. lra. Qed.
