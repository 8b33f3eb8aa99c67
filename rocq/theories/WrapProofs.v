(** * Phase wrapping on fixed-point types. *)

From Coq Require Import ZArith Reals Lia Lra List Bool.
From Flocq Require Import Core.Core IEEE754.BinarySingleNaN.
From Verif Require Import Base FloatBase Literals Traits Trig IntImpl FixedPrim FixedImpl FloatImpl Complex Spec
  Lemmas ScalarProofs ScalarProofs2.
Open Scope Z_scope.

(** ** float literals as fixed-point bits *)
Lemma rne_div_spec : forall n d, 0 < d -> 2 * Z.abs (rne_div n d * d - n) <= d.
Proof.
  intros n d D. unfold rne_div. pose proof (Z.div_mod n d ltac:(lia)). pose proof (Z.mod_pos_bound n d D).
  set (q := n / d) in *. set (r := n mod d) in *.
  assert (A0 : q * d - n = - r) by lia. assert (A1 : (q + 1) * d - n = d - r) by lia.
  destruct (Z.compare_spec (2 * r) d); [destruct (Z.even q)| |]; rewrite ?A0, ?A1; lia.
Qed.

Lemma rne_scale_real : forall n k, (Rabs (IZR (rne_scale n k) - IZR n * bpow radix2 k) <= / 2)%R.
Proof.
  intros n k. unfold rne_scale. destruct (Z.leb_spec 0 k).
  - rewrite mult_IZR. change 2 with (radix_val radix2). rewrite IZR_Zpower by auto.
    rewrite Rminus_diag_eq, Rabs_R0 by reflexivity. change (IZR radix2) with 2%R; lra.
  - assert (D : 0 < 2 ^ (- k)) by (apply Z.pow_pos_nonneg; lia).
    pose proof (rne_div_spec n (2 ^ - k) D) as S. apply IZR_le in S.
    rewrite mult_IZR, abs_IZR, minus_IZR, mult_IZR in S.
    assert (EB : IZR (2 ^ (- k)) = bpow radix2 (- k)) by (apply (IZR_Zpower radix2); lia).
    rewrite EB in S.
    replace (bpow radix2 k) with (/ bpow radix2 (- k))%R by (rewrite <- bpow_opp; f_equal; lia).
    pose proof (bpow_gt_0 radix2 (- k)) as P. set (b := bpow radix2 (- k)) in *.
    set (r := IZR (rne_div n (2 ^ (- k)))) in *.
    replace (r - IZR n * / b)%R with ((r * b - IZR n) * / b)%R by (field; lra).
    rewrite Rabs_mult, (Rabs_pos_eq (/ b)) by (apply Rlt_le, Rinv_0_lt_compat; auto).
    apply Rmult_le_reg_r with b; auto. rewrite Rmult_assoc, Rinv_l, Rmult_1_r by lra. lra.
Qed.

(** the bits [from_num] produces, before the range check *)
Definition fx_bits (f : fty) {p e} (x : binary_float p e) : Z :=
  match x with
  | B754_finite s mx ex _ => cond_Zopp s (rne_scale (Zpos mx) (ex + ffrac f))
  | _ => 0
  end.
Lemma fx_of_float_bits : forall m f p e (x : binary_float p e), is_finite x = true ->
  1 <= iwidth (fity f) ->
  fx_of_float m f x = fx_fin m f (fx_bits f x).
Proof.
  intros m f p e x F W. destruct x; try discriminate; simpl; auto.
  rewrite fx_fin_ok; auto. apply (zero_in_range (fity f)); auto.
Qed.

Lemma fone_bpow : forall f, 0 <= ffrac f -> IZR (fone f) = bpow radix2 (ffrac f).
Proof. intros. unfold fone. change 2 with (radix_val radix2). apply IZR_Zpower; auto. Qed.

Lemma fx_bits_real : forall f p e (x : binary_float p e), 0 <= ffrac f -> 
  (Rabs (IZR (fx_bits f x) - B2R x * IZR (fone f)) <= / 2)%R.
Proof.
  intros f p e x F. rewrite fone_bpow by auto.
  destruct x as [s|s| |s mx ex Hb]; simpl; try (rewrite Rmult_0_l, Rminus_0_r, Rabs_R0; lra).
  pose proof (rne_scale_real (Zpos mx) (ex + ffrac f)) as H.
  unfold F2R. cbn [Fnum Fexp]. rewrite Rmult_assoc, <- bpow_plus.
  destruct s; cbn [cond_Zopp]; auto.
  rewrite opp_IZR. change (Zneg mx) with (- Zpos mx). rewrite opp_IZR.
  rewrite <- Rabs_Ropp. replace (- _)%R with (IZR (rne_scale (Zpos mx) (ex + ffrac f)) - IZR (Zpos mx) * bpow radix2 (ex + ffrac f))%R by ring.
  exact H.
Qed.

(** integer bounds for the bits *)
Lemma fx_bits_ge : forall f p e (x : binary_float p e) a, 0 <= ffrac f -> 
  (IZR a <= B2R x * IZR (fone f))%R -> a <= fx_bits f x.
Proof.
  intros f p e x a F H. pose proof (fx_bits_real f p e x F) as B. apply Rabs_le_inv in B.
  assert (a - 1 < fx_bits f x); [|lia]. apply lt_IZR. rewrite minus_IZR. lra.
Qed.
Lemma fx_bits_le : forall f p e (x : binary_float p e) a, 0 <= ffrac f -> 
  (B2R x * IZR (fone f) <= IZR a)%R -> fx_bits f x <= a.
Proof.
  intros f p e x a F H. pose proof (fx_bits_real f p e x F) as B. apply Rabs_le_inv in B.
  assert (fx_bits f x < a + 1); [|lia]. apply lt_IZR. rewrite plus_IZR. lra.
Qed.
Lemma fx_bits_exact : forall f p e (x : binary_float p e) a, 0 <= ffrac f -> 
  (B2R x * IZR (fone f) = IZR a)%R -> fx_bits f x = a.
Proof.
  intros. apply Z.le_antisymm; [apply fx_bits_le | apply fx_bits_ge]; auto; lra.
Qed.

Lemma lit_pi_value : B2R lit_pi = (IZR 7074237752028440 / IZR (2 ^ 51))%R.
Proof. unfold lit_pi. simpl. unfold F2R. simpl. unfold Rdiv. reflexivity. Qed.
Lemma lit_tau_value : B2R lit_tau = (IZR 7074237752028440 / IZR (2 ^ 50))%R.
Proof. unfold lit_tau. simpl. unfold F2R. simpl. unfold Rdiv. reflexivity. Qed.

Definition pi_bits (f : fty) : Z := fx_bits f lit_pi.

Lemma pi_bits_bounds : forall f, fwf f -> 3 * fone f <= pi_bits f < 4 * fone f.
Proof.
  intros f [F0 F1]. pose proof (fone_pos f F0) as P. apply IZR_lt in P.
  split.
  - apply fx_bits_ge; auto. rewrite mult_IZR. apply Rmult_le_compat_r; [lra|]. rewrite lit_pi_value.
    apply Rmult_le_reg_r with (IZR (2 ^ 51)); [apply IZR_lt; reflexivity|].
    unfold Rdiv. rewrite Rmult_assoc, Rinv_l, Rmult_1_r by (apply not_0_IZR; discriminate).
    rewrite <- mult_IZR. apply IZR_le. vm_compute. discriminate.
  - pose proof (fx_bits_real f _ _ lit_pi F0) as B. apply Rabs_le_inv in B. fold (pi_bits f) in B.
    apply lt_IZR. rewrite mult_IZR. 
    assert (L : (B2R lit_pi <= 22/7)%R).
    { rewrite lit_pi_value. apply Rmult_le_reg_r with (IZR (2 ^ 51) * 7)%R; [apply Rmult_lt_0_compat; [apply IZR_lt; reflexivity|lra]|].
      unfold Rdiv. replace (IZR 7074237752028440 * / IZR (2 ^ 51) * (IZR (2 ^ 51) * 7))%R with (IZR 7074237752028440 * 7)%R
        by (field; apply not_0_IZR; discriminate).
      replace (22 * / 7 * (IZR (2 ^ 51) * 7))%R with (22 * IZR (2 ^ 51))%R by field.
      rewrite <- !mult_IZR. apply IZR_le. vm_compute. discriminate. }
    assert (1 <= fone f) as G by (pose proof (fone_pos f F0); lia). apply IZR_le in G.
    assert (B2R lit_pi * IZR (fone f) <= 22/7 * IZR (fone f))%R by (apply Rmult_le_compat_r; lra).
    lra.
Qed.

Lemma lit_finite : forall s m e H, is_finite (@B754_finite 53 1024 s m e H) = true.
Proof. reflexivity. Qed.

Lemma fixed_pi_eq : forall m f, fwf f -> mixed_pi (fixed_pi m f) = Ok (pi_bits f).
Proof.
  intros m f W. cbn [mixed_pi fixed_pi]. rewrite fx_of_float_bits by (auto; apply fwf_width; auto).
  apply fx_fin_ok. pose proof (pi_bits_bounds f W). pose proof (fone_le_max f W). pose proof (fone_pos f (proj1 W)).
  pose proof (half_le_full (fwidth f) ltac:(destruct W; lia)).
  unfold pi_bits in *. apply fvalid_iff. destruct (fsigned f); lia.
Qed.

(** [2 * pi] on the bits is exact *)
Lemma two_pi_bits : forall f, 0 <= ffrac f -> 2 * fone f * pi_bits f / fone f = 2 * pi_bits f.
Proof. intros f F. pose proof (fone_pos f F). replace (2 * fone f * pi_bits f) with (2 * pi_bits f * fone f) by ring. apply Z.div_mul. lia. Qed.

Section Wrap.
Variables (m : mode) (f : fty).
Hypothesis W : fwf f.
Hypothesis S : fsigned f = true.
Hypothesis HM : m = Release \/ ffrac f <= fwidth f - 4.
Let p := pi_bits f.
Let B := 2 ^ (fwidth f - 1).

Lemma B_bounds : 3 * fone f <= p < 4 * fone f /\ 4 * fone f <= B /\ 0 < fone f.
Proof. unfold p, B. split; [apply pi_bits_bounds; auto|]. split; [apply fone_le_max; auto | apply fone_pos; apply W]. Qed.

Lemma valid_iff : forall z, fvalid f z <-> - B <= z <= B - 1.
Proof. intros. rewrite fvalid_iff, S. unfold B. tauto. Qed.

(** whatever [two * pi] is, adding it to (subtracting it from) a value acts as adding [2p] *)
Lemma tau_ok : exists tau, fx_mul m f (2 * fone f) p = Ok tau /\
  (forall t, fvalid f (t + 2 * p) -> fx_add m f t tau = Ok (t + 2 * p)) /\
  (forall t, fvalid f (t - 2 * p) -> fx_sub m f t tau = Ok (t - 2 * p)).
Proof.
  pose proof B_bounds as [H1 [H2 H3]]. unfold fx_mul. unfold p. rewrite two_pi_bits by apply W. fold p.
  destruct HM as [Em|HF].
  - exists (wrap (fity f) (2 * p)). unfold fx_fin, fx_add, fx_sub. rewrite Em.
    assert (Hw : 1 <= iwidth (fity f)) by (apply fwf_width; auto).
    rewrite fin_release by auto. split; [reflexivity|]. split; intros t V; unfold fx_fin; rewrite fin_release by auto.
    + rewrite wrap_add_r, wrap_id by auto. reflexivity.
    + rewrite wrap_sub_r, wrap_id by auto. reflexivity.
  - exists (2 * p). assert (8 * fone f <= B).
    { unfold fone, B. change 8 with (2 ^ 3). rewrite <- Z.pow_add_r by (destruct W; lia). apply Z.pow_le_mono_r; lia. }
    split; [|split]; intros; apply fx_fin_ok; auto. apply valid_iff. lia.
Qed.

Definition wrap_target (phi r : Z) : Prop := - p <= r < p /\ exists k, phi - r = k * (2 * p).

Lemma wrap_target_unique : forall phi r r', wrap_target phi r -> wrap_target phi r' -> r = r'.
Proof.
  intros phi r r' [H1 [k H2]] [H1' [k' H2']]. pose proof B_bounds.
  assert (r' - r = (k - k') * (2 * p)) by lia. assert (k - k' = 0) by nia. nia.
Qed.
Lemma wrap_target_congr : forall phi phi' r, (exists k, phi - phi' = k * (2 * p)) -> wrap_target phi' r -> wrap_target phi r.
Proof. intros phi phi' r [k E] [H1 [k' H2]]. split; auto. exists (k + k'). lia. Qed.

Lemma wrap_phase_fixed : forall phi, fvalid f phi -> exists r,
  returns (fun fuel => mixed_wrap_phase (fixed_wrap_phase m f fuel) phi) r /\ wrap_target phi r.
Proof.
  intros phi V. rewrite valid_iff in V. pose proof B_bounds as [H1 [H2 H3]].
  destruct tau_ok as [tau [T0 [T1 T2]]].
  assert (NP : fx_neg m f p = Ok (- p)). { apply fx_fin_ok. apply valid_iff. lia. }
  set (c1 := fun t : Z => npi <- fx_neg m f p ;; Ok (o_lt (fixed_ops m f) t npi)).
  set (b1 := fun t : Z => fx_add m f t tau).
  set (c2 := fun t : Z => Ok (o_le (fixed_ops m f) p t)).
  set (b2 := fun t : Z => fx_sub m f t tau).
  set (I1 := fun t => - B <= t <= B - 1 /\ exists k, phi - t = k * (2 * p)).
  set (I2 := fun t => - p <= t <= B - 1 /\ exists k, phi - t = k * (2 * p)).
  assert (L1 : forall n t, I1 t -> (Z.to_nat (- t + B) < n)%nat -> exists t', while n c1 b1 t = Ok t' /\ I1 t' /\ c1 t' = Ok false).
  { apply while_total. intros t [It [k Ek]]. unfold c1. rewrite NP. cbn [bind]. unfold o_lt. cbn [o_cmp fixed_ops].
    unfold fx_cmp. destruct (Z.compare_spec t (- p)); auto. right. split; auto.
    exists (t + 2 * p). split; [apply T1; apply valid_iff; lia|]. split; [|lia].
    split; [lia|]. exists (k - 1). lia. }
  assert (L2 : forall n t, I2 t -> (Z.to_nat (t + B) < n)%nat -> exists t', while n c2 b2 t = Ok t' /\ I2 t' /\ c2 t' = Ok false).
  { apply while_total. intros t [It [k Ek]]. unfold c2. unfold o_le. cbn [o_cmp fixed_ops].
    unfold fx_cmp. destruct (Z.compare_spec p t); auto; right; (split; [reflexivity|]);
    (exists (t - 2 * p); split; [apply T2; apply valid_iff; lia|]; split; [|lia];
    split; [lia|]; exists (k + 1); lia). }
  destruct (L1 (Datatypes.S (Z.to_nat (- phi + B))) phi) as [t1 [E1 [[R1 [k1 K1]] C1]]]; [split; [lia|exists 0; lia]|lia|].
  assert (G1 : - p <= t1).
  { unfold c1 in C1. rewrite NP in C1. cbn [bind] in C1. unfold o_lt in C1. cbn [o_cmp fixed_ops] in C1. unfold fx_cmp in C1.
    destruct (Z.compare_spec t1 (- p)); try lia. discriminate. }
  destruct (L2 (Datatypes.S (Z.to_nat (t1 + B))) t1) as [t2 [E2 [[R2 [k2 K2]] C2]]]; [split; [lia|exists k1; lia]|lia|].
  assert (G2 : t2 < p).
  { unfold c2 in C2. unfold o_le in C2. cbn [o_cmp fixed_ops] in C2. unfold fx_cmp in C2.
    destruct (Z.compare_spec p t2); try lia; discriminate. }
  exists t2. split.
  - exists (Datatypes.S (Z.to_nat (- phi + B)) + Datatypes.S (Z.to_nat (t1 + B)))%nat. intros n Hn.
    cbn [mixed_wrap_phase fixed_wrap_phase]. unfold wrap_phase.
    rewrite fixed_pi_eq by auto. cbn [bind o_of_i32 o_mul o_add o_sub fixed_ops o_neg fixed_signed].
    rewrite fx_of_int_small by (auto; lia). cbn [bind]. fold p. rewrite T0. cbn [bind].
    fold c1 b1 c2 b2. rewrite (while_mono _ _ _ _ _ E1) by (try discriminate; lia). cbn [bind].
    apply (while_mono _ _ _ _ _ E2); [discriminate|lia].
  - split; [lia|]. exists k2. lia.
Qed.
End Wrap.

(** three integer bits: [2 * pi] overflows *)
Lemma wrap_phase_3bits : forall f, fwf f -> fsigned f = true -> ffrac f = fwidth f - 3 ->
  forall fuel phi, mixed_wrap_phase (fixed_wrap_phase Debug f fuel) phi = Panic POverflow.
Proof.
  intros f W S F fuel phi. cbn [mixed_wrap_phase fixed_wrap_phase]. unfold wrap_phase.
  rewrite fixed_pi_eq by auto. cbn [bind o_of_i32 o_mul fixed_ops].
  rewrite fx_of_int_small by (auto; lia). cbn [bind]. unfold fx_mul. rewrite two_pi_bits by apply W.
  unfold fx_fin. rewrite fin_debug_over; auto.
  change (~ fvalid f (2 * pi_bits f)). rewrite fvalid_iff, S.
  pose proof (pi_bits_bounds f W). 
  assert (2 ^ (fwidth f - 1) = 4 * fone f).
  { unfold fone. change 4 with (2 ^ 2). rewrite <- Z.pow_add_r by (destruct W; lia). f_equal. lia. }
  pose proof (fone_pos f (proj1 W)). lia.
Qed.
