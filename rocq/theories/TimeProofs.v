(** * Proofs: running time of phase wrapping and of the square root. *)

From Coq Require Import ZArith Reals Lia Lra Psatz List Bool.
From Flocq Require Import Core.Core IEEE754.BinarySingleNaN.
From Verif Require Import Base FloatBase Literals Traits Trig FixedPrim FixedImpl FloatImpl Spec SpecTime Lemmas
  ScalarProofs ScalarProofs2 FloatLemmas FloatProofs FloatWrap WrapProofs WrapProofs2 NiirfZ NiirfFixed NiirfFixed2 NiirfFixed3 NiirfFixed4 NiirfInt NiirfFloat.
Open Scope Z_scope.

(** ** a loop that ended ran its body a definite number of times *)
Section Count.
Context {S : Type}.
Variable cond : S -> res bool.
Variable body : S -> res S.
Fixpoint passes (j : nat) (s s' : S) : Prop :=
  match j with
  | O => s = s'
  | Datatypes.S j => exists u, cond s = Ok true /\ body s = Ok u /\ passes j u s'
  end.

Lemma while_passes : forall n s s', while n cond body s = Ok s' -> exists j, (j < n)%nat /\ passes j s s' /\
  forall k, while k cond body s = if (k <=? j)%nat then OutOfFuel else Ok s'.
Proof.
  induction n; intros s s' E; [discriminate|]. rewrite while_S in E.
  destruct (cond s) as [[]| |] eqn:C; cbn [bind] in E; try discriminate.
  - destruct (body s) as [u| |] eqn:B; cbn [bind] in E; try discriminate.
    destruct (IHn u s' E) as (j & Hj & P & K). exists (Datatypes.S j). split; [lia|]. split; [exists u; auto|].
    intros [|k]; [reflexivity|]. rewrite while_S, C. cbn [bind]. rewrite B. cbn [bind]. rewrite K. reflexivity.
  - inversion E; subst s'. exists O. split; [lia|]. split; [reflexivity|]. intros [|k]; [reflexivity|]. rewrite while_S, C. reflexivity.
Qed.

Lemma passes_sum : forall (mu : S -> Z) (d : Z) (I : S -> Prop), (forall s u, I s -> cond s = Ok true -> body s = Ok u -> mu u = mu s + d) ->
  forall j s s', (forall i u, (i < j)%nat -> passes i s u -> I u) -> passes j s s' -> mu s' = mu s + Z.of_nat j * d.
Proof.
  intros mu d I H. induction j; intros s s' HI P.
  - cbn in P. subst. lia.
  - destruct P as (u & C & B & P). rewrite (IHj u s'); auto.
    + rewrite (H s u); auto; [lia|]. apply (HI O s); [lia|reflexivity].
    + intros i v Hi Pi. apply (HI (Datatypes.S i) v); [lia|]. exists u. auto.
Qed.
End Count.

(** a counter in [i32] that goes by one *)
Lemma passes_up : forall T (cond : Z * T -> res bool) body d, Z.abs d = 1 ->
  (forall m s u, body m s = Ok u -> exists c, fin m i32 (fst s + d) = Ok c /\ fst u = c) ->
  forall m j s s', Z.abs (fst s) + Z.of_nat j <= 1000000 -> passes cond (body m) j s s' -> fst s' = fst s + Z.of_nat j * d.
Proof.
  intros T cond body d D H m. induction j; intros s s' B P.
  - cbn in P. subst. lia.
  - destruct P as (u & C & E & P). destruct (H m s u E) as (c & Ec & Eu).
    rewrite fin_ok in Ec by (unfold in_range, imin, imax; cbn; lia). inversion Ec as [Ec']. 
    rewrite (IHj u s' ltac:(lia) P). lia.
Qed.

Lemma while_again : forall S (c : S -> res bool) b n s, c s = Ok false -> while (Datatypes.S n) c b s = Ok s.
Proof. intros. rewrite while_S, H. reflexivity. Qed.

(** ** the square root, whatever the type *)
Section Rounds.
Context {T : Type}.
Variables (O : MixedOps T) (Z0 : MixedZero T) (A : MixedAbs T) (W : MixedPowi T) (m : mode).
Let c1 := fun s : Z * T => q <- o_of_f64 O lit_quarter ;; Ok (o_lt O (snd s) q).
Let b1 := fun (m : mode) (s : Z * T) => n <- fin m i32 (fst s - 1) ;; four <- o_of_i32 O 4 ;; x <- o_mul O (snd s) four ;; Ok (n, x).
Let c2 := fun s : Z * T => one <- o_of_f64 O lit_one ;; Ok (o_le O one (snd s)).
Let b2 := fun (m : mode) (s : Z * T) => n <- fin m i32 (fst s + 1) ;; four <- o_of_i32 O 4 ;; x <- o_div O (snd s) four ;; Ok (n, x).
Let c3 := fun s : Z * T => a <- fin m i32 (Z.abs (fst s)) ;; Ok (negb (a =? 0)).
Let b3 := fun s : Z * T => if 0 <? fst s then two <- o_of_i32 O 2 ;; y <- o_mul O (snd s) two ;; n <- fin m i32 (fst s - 1) ;; Ok (n, y)
              else if fst s <? 0 then two <- o_of_i32 O 2 ;; y <- o_div O (snd s) two ;; n <- fin m i32 (fst s + 1) ;; Ok (n, y) else Ok s.

Lemma passes3 : forall j s s', Z.abs (fst s) <= 1000000 -> fst s' = 0 -> passes c3 b3 j s s' -> Z.of_nat j = Z.abs (fst s).
Proof.
  induction j; intros s s' B S0 P.
  - cbn in P. subst s'. rewrite S0. reflexivity.
  - destruct P as (u & C & E & P). unfold c3 in C. rewrite fin_ok in C by (unfold in_range, imin, imax; cbn; lia). cbn [bind] in C. injection C as C.
    apply negb_true_iff, Z.eqb_neq in C.
    assert (U : Z.abs (fst u) = Z.abs (fst s) - 1).
    { unfold b3 in E. destruct (Z.ltb_spec 0 (fst s)).
      - destruct (o_of_i32 O 2); cbn [bind] in E; try discriminate. destruct (o_mul O (snd s) a); cbn [bind] in E; try discriminate.
        rewrite fin_ok in E by (unfold in_range, imin, imax; cbn; lia). cbn [bind] in E. injection E as E. subst u. cbn [fst]. lia.
      - destruct (Z.ltb_spec (fst s) 0); [|lia].
        destruct (o_of_i32 O 2); cbn [bind] in E; try discriminate. destruct (o_div O (snd s) a); cbn [bind] in E; try discriminate.
        rewrite fin_ok in E by (unfold in_range, imin, imax; cbn; lia). cbn [bind] in E. injection E as E. subst u. cbn [fst]. lia. }
    pose proof (IHj u s' ltac:(lia) S0 P). lia.
Qed.

Lemma niirf_takes : forall x it z a K n1 t1 n2 t y r, Z.of_nat K <= 100000 ->
  mixed_zero Z0 = Ok z -> o_eq O x z = false -> mixed_abs A x = Ok a ->
  while K c1 (b1 m) (0, a) = Ok (n1, t1) -> while K c2 (b2 m) (n1, t1) = Ok (n2, t) -> (n1 < 0 -> n2 = n1) ->
  niirf_iterate O W it t = Ok y -> while K c3 b3 (n2, y) = Ok (0, r) ->
  takes (fun n => niirf O Z0 A W m n x it) (Z.abs n2) r.
Proof.
  intros x it z a K n1 t1 n2 t y r HK Ez Eq Ea E1 E2 N12 Ey E3 n.
  destruct (while_passes _ _ _ _ _ E1) as (j1 & J1 & P1 & K1).
  destruct (while_passes _ _ _ _ _ E2) as (j2 & J2 & P2 & K2).
  destruct (while_passes _ _ _ _ _ E3) as (j3 & J3 & P3 & K3).
  assert (F1 : n1 = 0 + Z.of_nat j1 * -1).
  { apply (passes_up T c1 b1 (-1) eq_refl) in P1; [exact P1| |cbn [fst]; lia].
    intros m' s u E. unfold b1 in E. binv E. exists v. split; auto. binv E. binv E. injection E as E. subst u. reflexivity. }
  assert (F2 : n2 = n1 + Z.of_nat j2 * 1).
  { apply (passes_up T c2 b2 1 eq_refl) in P2; [exact P2| |cbn [fst]; lia].
    intros m' s u E. unfold b2 in E. binv E. exists v. split; auto. binv E. binv E. injection E as E. subst u. reflexivity. }
  assert (F3 : Z.of_nat j3 = Z.abs n2). { exact (passes3 j3 (n2, y) (0, r) ltac:(cbn [fst]; lia) eq_refl P3). }
  unfold niirf. rewrite Ez. cbn [bind]. rewrite Eq, Ea. cbn [bind]. unfold niirf_normalize. fold c1 (b1 m) c2 (b2 m). rewrite K1.
  destruct (Z.leb_spec (Z.of_nat n) (Z.abs n2)) as [L|L].
  - destruct (Nat.leb_spec n j1) as [Q|Q]; [reflexivity|]. cbn [bind]. rewrite K2.
    destruct (Nat.leb_spec n j2) as [Q2|Q2]; [reflexivity|]. exfalso. destruct (Z.eq_dec n1 0); [lia|]. specialize (N12 ltac:(lia)). lia.
  - assert (G1 : (j1 < n)%nat) by (destruct (Z.eq_dec n1 0); [lia|]; specialize (N12 ltac:(lia)); lia).
    destruct (Nat.leb_spec n j1) as [Q|Q]; [lia|]. cbn [bind]. rewrite K2.
    assert (G2 : (j2 < n)%nat) by (destruct (Z.eq_dec n1 0); [lia|]; specialize (N12 ltac:(lia)); lia).
    destruct (Nat.leb_spec n j2) as [Q2|Q2]; [lia|]. cbn [bind fst snd]. rewrite Ey. cbn [bind].
    unfold niirf_denormalize. fold c3 b3. rewrite K3. destruct (Nat.leb_spec n j3) as [Q3|Q3]; [lia|]. reflexivity.
Qed.
End Rounds.

(** ** fixed point *)
Lemma niirf_fixed_takes : forall m f, supported f = true -> fsigned f = true -> 2 <= ffrac f <= fwidth f - 4 ->
  forall x it, fvalid f x -> 0 < x -> exists k r,
  (bpow radix2 (2 * k - 2) <= fval f x < bpow radix2 (2 * k))%R /\
  takes (fun fuel => niirf (fixed_ops m f) (fixed_zero m f) (fixed_abs m f) (fixed_powi m f) m fuel x it) (Z.abs k) r.
Proof.
  intros m f Sp Sg F x it V X0. pose proof (supported_fwf f Sp) as W. pose proof (q_pos f W) as P.
  assert (W64 : fwidth f <= 64) by (apply supported_inv in Sp; lia).
  assert (V4 : fvalid f (4 * fone f)).
  { apply fvalid_iff. rewrite Sg. assert (8 * fone f <= 2 ^ (fwidth f - 1)).
    { unfold fone. change 8 with (2 ^ 3). rewrite <- Z.pow_add_r by lia. apply Z.pow_le_mono_r; lia. } lia. }
  assert (F2 : 2 <= ffrac f) by lia.
  pose proof (valid_lt f W W64 x V) as X64.
  destruct (loop1 m f W F2 V4 W64 x 101 X0 X64 ltac:(lia)) as (n1 & x1 & E1 & N1 & Hx1 & L1 & U1).
  assert (Vx1 : fvalid f x1).
  { destruct (Z_lt_le_dec n1 0) as [L|L].
    - apply (fv_small f W). specialize (U1 L). lia.
    - replace n1 with 0 in Hx1 by lia. change (4 ^ (- 0)) with 1 in Hx1. replace x1 with x by lia. exact V. }
  destruct (loop2 m f W F2 V4 x1 101 Vx1 L1 (valid_lt f W W64 _ Vx1) ltac:(lia) n1 N1) as (j & x2 & E2 & J & Hx2 & L2 & U2).
  assert (N12 : n1 < 0 -> j = 0).
  { intros N. specialize (U1 N). rewrite while_again in E2.
    - injection E2 as E2 _. lia.
    - unfold cond2. rewrite one_bits by auto. cbn [bind snd]. rewrite o_le_spec. destruct (Z.leb_spec (fone f) x1); [lia|reflexivity]. }
  assert (NM : normed f x (n1 + j) x2).
  { unfold normed. destruct (Z_lt_le_dec n1 0) as [L|L].
    - specialize (N12 L). subst j. change (4 ^ 0) with 1 in Hx2. rewrite Z.div_1_r in Hx2. subst x2. rewrite Z.add_0_r. repeat split; try lia.
    - assert (n1 = 0) by lia. subst n1. change (4 ^ (- 0)) with 1 in Hx1. rewrite Z.mul_1_r in Hx1. subst x1. rewrite Z.add_0_l. repeat split; try lia. }

  pose proof (core f x2 (it - 1) F2 L2 U2) as [Sm _].
  set (y := ziter (it - 1) (fone f) (beta_bits f x2) x2 (start f x2)) in *.
  exists (n1 + j), (scaled (n1 + j) y). split.
  - (* the value *)
    assert (BP : forall e, (0 < bpow radix2 e)%R) by (intros; apply bpow_gt_0). unfold fval.
    assert (Q : IZR (fone f) = bpow radix2 (ffrac f)) by (apply fone_bpow; lia).
    assert (P4 : forall e, 0 <= e -> IZR (4 ^ e) = bpow radix2 (2 * e)).
    { intros e He. change 4 with (2 ^ 2). rewrite <- Z.pow_mul_r by lia. rewrite <- (IZR_Zpower radix2) by lia. reflexivity. }
    destruct NM as [_ [A [B C]]].
    assert (G : (IZR (fone f) * bpow radix2 (2 * (n1 + j) - 2) <= IZR x < IZR (fone f) * bpow radix2 (2 * (n1 + j)))%R).
    { set (k := n1 + j) in *. clearbody k. clear - A B C P4 P BP. destruct C as [[N C]|[N C]].
      - assert (Hx : (IZR x * bpow radix2 (2 * (- k)) = IZR x2)%R) by (rewrite <- P4 by lia; rewrite <- mult_IZR; f_equal; lia).
        assert (Hx' : (IZR x = IZR x2 * bpow radix2 (2 * k))%R).
        { rewrite <- Hx, Rmult_assoc, <- bpow_plus. replace (2 * - k + 2 * k) with 0 by lia. cbn. ring. }
        rewrite Hx'. replace (2 * k - 2) with (-2 + 2 * k) by lia. rewrite bpow_plus. change (bpow radix2 (-2)) with (/ 4)%R.
        apply IZR_le in A. rewrite mult_IZR in A. apply IZR_lt in B. specialize (BP (2 * k)). split; nra.
      - assert (P0 : 0 < 4 ^ k) by (apply Z.pow_pos_nonneg; lia).
        assert (x2 * 4 ^ k <= x < (x2 + 1) * 4 ^ k).
        { pose proof (Z.div_mod x (4 ^ k) ltac:(lia)). pose proof (Z.mod_pos_bound x (4 ^ k) P0). rewrite <- C in *. nia. }
        destruct H as [H1 H2]. assert (H3 : (x2 + 1) * 4 ^ k <= fone f * 4 ^ k) by (apply Z.mul_le_mono_nonneg_r; lia).
        assert (H4 : fone f * 4 ^ k <= 4 * x2 * 4 ^ k) by (apply Z.mul_le_mono_nonneg_r; lia).
        assert (H5 : fone f * 4 ^ k <= 4 * x) by lia. assert (H6 : x < fone f * 4 ^ k) by lia.
        apply IZR_le in H5. apply IZR_lt in H6. rewrite !mult_IZR, P4 in * by lia.
        replace (2 * k - 2) with (-2 + 2 * k) by lia. rewrite bpow_plus. change (bpow radix2 (-2)) with (/ 4)%R. split; lra. }
    rewrite Q in G. assert (R1 : (bpow radix2 (ffrac f) * bpow radix2 (- ffrac f) = 1)%R) by (rewrite <- bpow_plus; replace (ffrac f + - ffrac f) with 0 by lia; reflexivity).
    specialize (BP (- ffrac f)). split; [apply Rle_trans with (bpow radix2 (ffrac f) * bpow radix2 (2 * (n1 + j) - 2) * bpow radix2 (- ffrac f))%R
      |apply Rlt_le_trans with (bpow radix2 (ffrac f) * bpow radix2 (2 * (n1 + j)) * bpow radix2 (- ffrac f))%R].
    + right. replace (bpow radix2 (ffrac f) * bpow radix2 (2 * (n1 + j) - 2) * bpow radix2 (- ffrac f))%R with
        (bpow radix2 (2 * (n1 + j) - 2) * (bpow radix2 (ffrac f) * bpow radix2 (- ffrac f)))%R by ring. rewrite R1. ring.
    + apply Rmult_le_compat_r; lra.
    + apply Rmult_lt_compat_r; lra.
    + right. replace (bpow radix2 (ffrac f) * bpow radix2 (2 * (n1 + j)) * bpow radix2 (- ffrac f))%R with
        (bpow radix2 (2 * (n1 + j)) * (bpow radix2 (ffrac f) * bpow radix2 (- ffrac f)))%R by ring. rewrite R1. ring.
  - apply (niirf_takes (fixed_ops m f) (fixed_zero m f) (fixed_abs m f) (fixed_powi m f) m x it 0 x 101 n1 x1 (n1 + j) x2 y).
    + lia.
    + cbn [mixed_zero fixed_zero]. rewrite fx_of_int_small by (auto; lia). f_equal.
    + rewrite o_eq_spec. apply Z.eqb_neq. lia.
    + rewrite fixed_abs_spec; auto; [rewrite Z.abs_eq by lia; reflexivity|].
      intros [_ E]. rewrite fmin_signed in E by auto. assert (0 < 2 ^ (fwidth f - 1)) by (apply Z.pow_pos_nonneg; destruct W; lia). lia.
    + exact E1.
    + exact E2.
    + intros N. rewrite (N12 N). lia.
    + apply (iterate_ok m f W it x2 Sg F2 L2 U2).
    + apply (loop3 m f W (n1 + j) y 101); try lia; [apply Sm|apply small_valid; auto|]. apply (scaled_valid f W V4 x (n1 + j) x2 y V X0 NM Sm).
Qed.

(** every value of a supported format is between 4^-31 and 4^32 *)
Lemma fixed_rounds : forall f x k, supported f = true -> fvalid f x -> 0 < x -> 
  (bpow radix2 (2 * k - 2) <= fval f x < bpow radix2 (2 * k))%R -> 2 * Z.abs k <= fwidth f.
Proof.
  intros f x k Sp V X0 [L U]. pose proof (supported_inv f Sp) as [W F]. pose proof (supported_fwf f Sp) as WF.
  assert (XU : x < 2 ^ fwidth f).
  { apply fvalid_iff in V. assert (2 ^ (fwidth f - 1) <= 2 ^ fwidth f) by (apply Z.pow_le_mono_r; lia). destruct (fsigned f); lia. }
  assert (A : (IZR x < bpow radix2 (fwidth f))%R) by (rewrite <- IZR_Zpower by lia; apply IZR_lt; exact XU).
  assert (B : (1 <= IZR x)%R) by (apply IZR_le; lia). unfold fval in *. pose proof (bpow_gt_0 radix2 (- ffrac f)) as P.
  assert (H1 : (bpow radix2 (2 * k - 2) < bpow radix2 (fwidth f + - ffrac f))%R).
  { rewrite (bpow_plus _ (fwidth f)). eapply Rle_lt_trans; [exact L|]. apply Rmult_lt_compat_r; auto. }
  assert (H2 : (bpow radix2 (- ffrac f) < bpow radix2 (2 * k))%R).
  { eapply Rle_lt_trans; [|exact U]. rewrite <- (Rmult_1_l (bpow _ (- ffrac f))) at 1. apply Rmult_le_compat_r; lra. }
  apply lt_bpow in H1, H2. destruct W as [W|[W|[W|W]]]; rewrite W in *; lia.
Qed.

(** ** phase wrapping, fixed point *)
Section Wrap.
Variables (m : mode) (f : fty).
Hypothesis W : fwf f.
Hypothesis S : fsigned f = true.
Hypothesis HM : m = Release \/ ffrac f <= fwidth f - 4.
Notation p := (pi_bits f).

Lemma wrap_takes : forall phi r k, fvalid f phi -> - p <= r < p -> phi = r + k * (2 * p) ->
  takes (fun fuel => mixed_wrap_phase (fixed_wrap_phase m f fuel) phi) (Z.abs k) r.
Proof.
  intros phi r k V R E n. pose proof (B_bounds f W) as [H1 [H2 H3]]. cbv zeta in H1, H2.
  destruct (tau_ok m f W S HM) as (tau & T0 & T1 & T2).
  assert (VI : forall z, fvalid f z <-> - 2 ^ (fwidth f - 1) <= z <= 2 ^ (fwidth f - 1) - 1) by (intros; rewrite fvalid_iff, S; tauto).
  assert (NP : fx_neg m f p = Ok (- p)). { apply fx_fin_ok. apply VI. lia. }
  cbn [mixed_wrap_phase fixed_wrap_phase]. unfold wrap_phase.
  rewrite fixed_pi_eq by auto. cbn [bind o_of_i32 o_mul o_add o_sub fixed_ops o_neg fixed_signed].
  rewrite fx_of_int_small by (auto; lia). cbn [bind]. rewrite T0. cbn [bind].
  set (c1 := fun t : Z => npi <- fx_neg m f p ;; Ok (o_lt (fixed_ops m f) t npi)).
  set (b1 := fun t : Z => fx_add m f t tau).
  set (c2 := fun t : Z => Ok (o_le (fixed_ops m f) p t)).
  set (b2 := fun t : Z => fx_sub m f t tau).
  assert (C1 : forall t, c1 t = Ok (t <? - p)) by (intros; unfold c1; rewrite NP; cbn [bind]; rewrite o_lt_spec; reflexivity).
  assert (C2 : forall t, c2 t = Ok (p <=? t)) by (intros; unfold c2; rewrite o_le_spec; reflexivity).
  assert (L1 : forall n j r0, - p <= r0 < p -> fvalid f (r0 - Z.of_nat j * (2 * p)) ->
            while n c1 b1 (r0 - Z.of_nat j * (2 * p)) = if (n <=? j)%nat then OutOfFuel else Ok r0).
  { clear - C1 T1 VI H1 H2 H3. induction n; intros j r0 R0 V0; [reflexivity|]. rewrite while_S, C1. cbn [bind]. destruct j.
    - cbn [Z.of_nat] in *. rewrite Z.mul_0_l, Z.sub_0_r. destruct (Z.ltb_spec r0 (- p)); [lia|reflexivity].
    - apply VI in V0. destruct (Z.ltb_spec (r0 - Z.of_nat (Datatypes.S j) * (2 * p)) (- p)); [|nia].
      assert (ES : r0 - Z.of_nat (Datatypes.S j) * (2 * p) + 2 * p = r0 - Z.of_nat j * (2 * p)) by lia.
      assert (V1 : fvalid f (r0 - Z.of_nat j * (2 * p))) by (apply VI; rewrite <- ES; lia).
      unfold b1 at 1. rewrite T1 by (rewrite ES; exact V1). cbn [bind]. rewrite ES, (IHn j r0 R0 V1). reflexivity. }
  assert (L2 : forall n j r0, - p <= r0 < p -> fvalid f (r0 + Z.of_nat j * (2 * p)) ->
            while n c2 b2 (r0 + Z.of_nat j * (2 * p)) = if (n <=? j)%nat then OutOfFuel else Ok r0).
  { clear - C2 T2 VI H1 H2 H3. induction n; intros j r0 R0 V0; [reflexivity|]. rewrite while_S, C2. cbn [bind]. destruct j.
    - cbn [Z.of_nat] in *. rewrite Z.mul_0_l, Z.add_0_r. destruct (Z.leb_spec p r0); [lia|reflexivity].
    - apply VI in V0. destruct (Z.leb_spec p (r0 + Z.of_nat (Datatypes.S j) * (2 * p))); [|nia].
      assert (ES : r0 + Z.of_nat (Datatypes.S j) * (2 * p) - 2 * p = r0 + Z.of_nat j * (2 * p)) by lia.
      assert (V1 : fvalid f (r0 + Z.of_nat j * (2 * p))) by (apply VI; rewrite <- ES; lia).
      unfold b2 at 1. rewrite T2 by (rewrite ES; exact V1). cbn [bind]. rewrite ES, (IHn j r0 R0 V1). reflexivity. }
  destruct (Z_lt_le_dec k 0) as [K|K].
  - replace phi with (r - Z.of_nat (Z.to_nat (- k)) * (2 * p)) in * by (rewrite Z2Nat.id by lia; lia).
    rewrite L1 by auto. destruct (Nat.leb_spec n (Z.to_nat (- k))); destruct (Z.leb_spec (Z.of_nat n) (Z.abs k)); try lia; [reflexivity|].
    cbn [bind]. destruct n; [lia|]. rewrite while_S, C2. cbn [bind]. destruct (Z.leb_spec p r); [lia|reflexivity].
  - destruct n; [destruct (Z.leb_spec (Z.of_nat 0) (Z.abs k)); [reflexivity|lia]|].
    rewrite (while_S c1), C1. cbn [bind]. destruct (Z.ltb_spec phi (- p)); [nia|]. cbn [bind].
    replace phi with (r + Z.of_nat (Z.to_nat k) * (2 * p)) in * by (rewrite Z2Nat.id by lia; lia).
    rewrite L2 by auto. destruct (Nat.leb_spec (Datatypes.S n) (Z.to_nat k)); destruct (Z.leb_spec (Z.of_nat (Datatypes.S n)) (Z.abs k)); try lia; reflexivity.
Qed.
End Wrap.

Lemma wrap_rounds_fixed : forall m f, supported f = true -> fsigned f = true -> (m = Release \/ ffrac f <= fwidth f - 4) ->
  exists p, mixed_pi (fixed_pi m f) = Ok p /\ (0 < fval f p)%R /\ forall phi, fvalid f phi -> exists k r,
  (- fval f p <= fval f r < fval f p)%R /\ (fval f phi = fval f r + IZR k * (2 * fval f p))%R /\
  takes (fun fuel => mixed_wrap_phase (fixed_wrap_phase m f fuel) phi) (Z.abs k) r.
Proof.
  intros m f Sp Sg HM. pose proof (supported_fwf f Sp) as W. exists (pi_bits f). split; [apply fixed_pi_eq; auto|].
  pose proof (pi_bits_bounds f W) as PB. pose proof (q_pos f W) as P. pose proof (bpow_gt_0 radix2 (- ffrac f)) as BP.
  split. { unfold fval. apply Rmult_lt_0_compat; auto. apply IZR_lt. lia. }
  intros phi V. set (k := (phi + pi_bits f) / (2 * pi_bits f)). exists k, (phi - k * (2 * pi_bits f)).
  assert (D : - pi_bits f <= phi - k * (2 * pi_bits f) < pi_bits f).
  { pose proof (Z.div_mod (phi + pi_bits f) (2 * pi_bits f) ltac:(lia)). pose proof (Z.mod_pos_bound (phi + pi_bits f) (2 * pi_bits f) ltac:(lia)). fold k in H. lia. }
  split; [|split].
  - unfold fval. destruct D as [D1 D2]. apply IZR_le in D1. apply IZR_lt in D2. rewrite opp_IZR in D1. set (b := bpow radix2 (- ffrac f)) in *. split; [|apply Rmult_lt_compat_r; lra].
    replace (- (IZR (pi_bits f) * b))%R with (- IZR (pi_bits f) * b)%R by ring. apply Rmult_le_compat_r; lra.
  - unfold fval. rewrite minus_IZR, !mult_IZR. ring.
  - apply wrap_takes; auto. lia.
Qed.

(** ** phase wrapping, floats *)
Section FW.
Context {prec emax : Z} {Hp : Prec_gt_0 prec} {He : Prec_lt_emax prec emax}.
Notation float := (binary_float prec emax).
Notation fexp := (SpecFloat.fexp prec emax).
Notation rnd := (round radix2 fexp ZnearestE).
Variables pf tau : float.
Hypothesis Hpi : float_of_float prec emax lit_pi = pf.
Hypothesis Htau : Bmult mode_NE (float_of_Z prec emax 2) pf = tau.
Hypothesis Fpf : is_finite pf = true.
Hypothesis Ftau : is_finite tau = true.
Hypothesis Vpf : (3 <= B2R pf <= 22 / 7)%R.
Hypothesis Vtau : (B2R tau = 2 * B2R pf)%R.

(** rounding to nearest at most doubles a step *)
Lemma step_double : forall x d, generic_format radix2 fexp x -> (Rabs (rnd (x + d) - x) <= 2 * Rabs d)%R.
Proof.
  intros x d G. destruct (round_N_pt radix2 fexp (fun x => negb (Z.even x)) (x + d)) as [_ N]. specialize (N x G).
  replace (x - (x + d))%R with (- d)%R in N by ring. rewrite Rabs_Ropp in N.
  replace (rnd (x + d) - x)%R with ((rnd (x + d) - (x + d)) + d)%R by ring. eapply Rle_trans; [apply Rabs_triang|]. 
  replace (2 * Rabs d)%R with (Rabs d + Rabs d)%R by ring. apply Rplus_le_compat_r. exact N.
Qed.

Lemma wrap_slow : forall (phi : float), is_finite phi = true -> forall n, (B2R pf + 2 * IZR n * B2R tau < Rabs (B2R phi))%R ->
  takes_at_least (fun fuel => mixed_wrap_phase (float_wrap_phase fuel) phi) n.
Proof using Fpf Ftau Hpi Htau Vpf Vtau.
  intros phi F k Hk n L. rewrite (wrap_eq pf tau Hpi Htau).
  assert (Hn : (B2R pf + 2 * IZR (Z.of_nat n) * B2R tau < Rabs (B2R phi))%R).
  { apply IZR_le in L. eapply Rle_lt_trans; [|exact Hk]. nra. } clear k Hk L.
  unfold Rabs in Hn. destruct (Rcase_abs (B2R phi)) as [Neg|Pos].
  - assert (G : forall n t, is_finite t = true -> (B2R pf + 2 * IZR (Z.of_nat n) * B2R tau < - B2R t)%R ->
      while n (fun t : float => Ok (o_lt float_ops t (Bopp pf))) (fun t : float => Ok (Bplus mode_NE t tau)) t = OutOfFuel).
    { clear - Fpf Ftau Vpf Vtau. induction n; intros t F H; [reflexivity|]. rewrite while_S.
      rewrite Nat2Z.inj_succ, succ_IZR in H. assert (0 <= IZR (Z.of_nat n) * B2R tau)%R by (apply Rmult_le_pos; [apply IZR_le; lia|lra]).
      destruct (c1_fin pf Fpf t F) as [[C V]|[C V]]; [|lra]. rewrite C. cbn [bind].
      destruct (step_up pf tau Ftau Vpf Vtau t F V) as (F' & V' & _). apply IHn; auto. rewrite V'.
      pose proof (step_double (B2R t) (B2R tau) (generic_format_B2R _ _ t)) as D. rewrite (Rabs_pos_eq (B2R tau)) in D by lra. apply Rabs_le_inv in D. lra. }
    rewrite G; auto.
  - destruct n; [reflexivity|]. rewrite while_S.
    assert (0 <= IZR (Z.of_nat (S n)) * B2R tau)%R by (apply Rmult_le_pos; [apply IZR_le; lia|lra]).
    destruct (c1_fin pf Fpf phi F) as [[C V]|[C V]]; [lra|]. rewrite C. cbn [bind].
    assert (G : forall n t, is_finite t = true -> (B2R pf + 2 * IZR (Z.of_nat n) * B2R tau < B2R t)%R ->
      while n (fun t : float => Ok (o_le float_ops pf t)) (fun t : float => Ok (Bminus mode_NE t tau)) t = OutOfFuel).
    { clear - Fpf Ftau Vpf Vtau. induction n; intros t F H; [reflexivity|]. rewrite while_S.
      rewrite Nat2Z.inj_succ, succ_IZR in H. assert (0 <= IZR (Z.of_nat n) * B2R tau)%R by (apply Rmult_le_pos; [apply IZR_le; lia|lra]).
      destruct (c2_fin pf Fpf t F) as [[C V]|[C V]]; [|lra]. rewrite C. cbn [bind].
      destruct (step_down pf tau Ftau Vpf Vtau t F V) as (F' & V' & _). apply IHn; auto. rewrite V'.
      pose proof (step_double (B2R t) (- B2R tau) (generic_format_B2R _ _ t)) as D. rewrite Rabs_Ropp, (Rabs_pos_eq (B2R tau)) in D by lra. apply Rabs_le_inv in D.
      replace (B2R t - B2R tau)%R with (B2R t + - B2R tau)%R by ring. lra. }
    apply G; auto.
Qed.
End FW.

Lemma wrap_slow_f32 : exists p : f32, mixed_pi float_pi = Ok p /\ forall (phi : f32), is_finite phi = true -> forall k,
  (B2R p + IZR k * (4 * B2R p) < Rabs (B2R phi))%R -> takes_at_least (fun fuel => mixed_wrap_phase (float_wrap_phase fuel) phi) k.
Proof.
  exists f32_pi. split; [reflexivity|]. intros phi F k H. pose proof f32_tau_two as T.
  apply (wrap_slow f32_pi f32_tau); auto; try reflexivity; [apply f32_pi_bounds|]. rewrite T. lra.
Qed.
Lemma wrap_slow_f64 : exists p : f64, mixed_pi float_pi = Ok p /\ forall (phi : f64), is_finite phi = true -> forall k,
  (B2R p + IZR k * (4 * B2R p) < Rabs (B2R phi))%R -> takes_at_least (fun fuel => mixed_wrap_phase (float_wrap_phase fuel) phi) k.
Proof.
  exists f64_pi. split; [reflexivity|]. intros phi F k H. pose proof f64_tau_two as T.
  apply (wrap_slow f64_pi f64_tau); auto; try reflexivity; [apply f64_pi_bounds|]. rewrite T. lra.
Qed.

(** ** square root, floats *)
Section NFT.
Context {prec emax : Z} {Hp : Prec_gt_0 prec} {He : Prec_lt_emax prec emax}.
Notation float := (binary_float prec emax).
Hypothesis P24 : 24 <= prec <= 100.
Hypothesis E10 : prec + 20 <= emax <= 2000.

Lemma niirf_float_takes : forall m (x : float) it, is_finite x = true -> B2R x <> 0%R -> (2 <= it)%N -> exists k r,
  (bpow radix2 (2 * k - 2) <= Rabs (B2R x) < bpow radix2 (2 * k))%R /\
  takes (fun fuel => niirf float_ops float_zero float_abs float_powi m fuel x it) (Z.abs k) r.
Proof using E10 P24.
  intros m x it F X0 Hit. destruct (float_zero_eq x F) as [[E X0']|[E _]]; [contradiction|].
  assert (FA : is_finite (Babs x) = true) by (rewrite is_finite_Babs; auto).
  assert (XA : (0 < B2R (Babs x))%R) by (rewrite B2R_Babs; apply Rabs_pos_lt; auto).
  destruct (fnorm1 P24 E10 m (Babs x) (Z.to_nat 5001) FA XA ltac:(lia)) as [n1 [t1 [E1 [F1 [V1 [N1 [L1 U1]]]]]]].
  destruct (fnorm2 P24 E10 m n1 (Babs x) t1 (Z.to_nat 5001) F1 XA V1 N1 U1 L1 ltac:(lia)) as [n2 [t2 [E2 [F2 [V2 [N2 LU]]]]]].
  destruct (fiterate P24 E10 t2 it F2 LU Hit) as [y [E3 [[F3 [G3 G3']] [YR A3]]]].
  destruct (fdenorm P24 E10 m n2 y (Z.to_nat 5001) F3 YR N2 ltac:(lia)) as [r [E4 [F4 V4]]].
  exists n2, r. split.
  - rewrite <- B2R_Babs. assert (XV : (B2R (Babs x) = B2R t2 * bpow radix2 (2 * n2))%R).
    { rewrite V2, Rmult_assoc, <- bpow_plus. replace (-2 * n2 + 2 * n2) with 0 by lia. cbn. ring. }
    rewrite XV. replace (2 * n2 - 2) with (-2 + 2 * n2) by lia. rewrite bpow_plus. change (bpow radix2 (-2)) with (/ 4)%R.
    pose proof (bpow_gt_0 radix2 (2 * n2)) as BP. split; nra.
  - assert (N12 : n1 < 0 -> n2 = n1).
    { intros N. specialize (U1 N). destruct (one_lit P24 E10) as [Q1 Q2].
      replace (Z.to_nat 5001) with (S (Z.to_nat 5000)) in E2 by lia. rewrite while_again in E2; [injection E2 as E2 _; auto|].
      cbn [o_of_f64 float_ops bind snd]. destruct (leb_cmp (float_of_float prec emax lit_one) t1 Q1 F1) as [[_ L]|[-> _]]; [lra|reflexivity]. }
    apply (niirf_takes float_ops float_zero float_abs float_powi m x it (float_of_Z prec emax 0) (Babs x) (Z.to_nat 5001) n1 t1 n2 t2 y r); auto.
    lia.
Qed.
End NFT.

Lemma niirf_f32_takes : forall m (x : f32) it, is_finite x = true -> B2R x <> 0%R -> (2 <= it)%N -> exists k r,
  (bpow radix2 (2 * k - 2) <= Rabs (B2R x) < bpow radix2 (2 * k))%R /\ Z.abs k <= 74 /\
  takes (fun fuel => niirf float_ops float_zero float_abs float_powi m fuel x it) (Z.abs k) r.
Proof.
  intros m x it F X I. destruct (niirf_float_takes (prec := 24) (emax := 128) ltac:(lia) ltac:(lia) m x it F X I) as (k & r & [L U] & T). exists k, r. split; auto. split; auto.
  assert (A : (bpow radix2 (-149) <= Rabs (B2R x))%R). { apply (abs_B2R_ge_emin 24 128). destruct x; try discriminate; auto; cbn in X; try lra. }
  pose proof (abs_B2R_lt_emax _ _ x) as B.
  assert (H1 : 2 * k - 2 < 128) by (apply (lt_bpow radix2); lra). assert (H2 : -149 < 2 * k) by (apply (lt_bpow radix2); lra). lia.
Qed.
Lemma niirf_f64_takes : forall m (x : f64) it, is_finite x = true -> B2R x <> 0%R -> (2 <= it)%N -> exists k r,
  (bpow radix2 (2 * k - 2) <= Rabs (B2R x) < bpow radix2 (2 * k))%R /\ Z.abs k <= 536 /\
  takes (fun fuel => niirf float_ops float_zero float_abs float_powi m fuel x it) (Z.abs k) r.
Proof.
  intros m x it F X I. destruct (niirf_float_takes (prec := 53) (emax := 1024) ltac:(lia) ltac:(lia) m x it F X I) as (k & r & [L U] & T). exists k, r. split; auto. split; auto.
  assert (A : (bpow radix2 (-1074) <= Rabs (B2R x))%R). { apply (abs_B2R_ge_emin 53 1024). destruct x; try discriminate; auto; cbn in X; try lra. }
  pose proof (abs_B2R_lt_emax _ _ x) as B.
  assert (H1 : 2 * k - 2 < 1024) by (apply (lt_bpow radix2); lra). assert (H2 : -1074 < 2 * k) by (apply (lt_bpow radix2); lra). lia.
Qed.
Lemma niirf_fixed_rounds : forall m f, supported f = true -> fsigned f = true -> 2 <= ffrac f <= fwidth f - 4 ->
  forall x it, fvalid f x -> 0 < x -> exists k r,
  (bpow radix2 (2 * k - 2) <= fval f x < bpow radix2 (2 * k))%R /\ 2 * Z.abs k <= fwidth f /\
  takes (fun fuel => niirf (fixed_ops m f) (fixed_zero m f) (fixed_abs m f) (fixed_powi m f) m fuel x it) (Z.abs k) r.
Proof.
  intros m f Sp Sg F x it V X0. destruct (niirf_fixed_takes m f Sp Sg F x it V X0) as (k & r & A & T). exists k, r. split; auto. split; auto.
  apply (fixed_rounds f x k); auto.
Qed.

(** the largest value of [FixedI64<U32>] goes round 341 million times *)
Lemma slow_i64 : forall m, exists r, takes (fun fuel => mixed_wrap_phase (fixed_wrap_phase m (mkFty true 64 32) fuel) (2 ^ 63 - 1)) 341782638 r.
Proof.
  intros m. assert (E : exists r, - pi_bits (mkFty true 64 32) <= r < pi_bits (mkFty true 64 32) /\ 2 ^ 63 - 1 = r + 341782638 * (2 * pi_bits (mkFty true 64 32))).
  { exists (2 ^ 63 - 1 - 341782638 * (2 * pi_bits (mkFty true 64 32))). split; [|lia].
    replace (pi_bits (mkFty true 64 32)) with 13493037705 by (vm_compute; reflexivity). lia. }
  destruct E as (r & R & E). exists r. change 341782638 with (Z.abs 341782638). apply wrap_takes; auto.
  - apply supported_fwf. reflexivity.
  - right. cbn. lia.
  - vm_compute. split; discriminate.
Qed.
