(** * The NIIRF square root: sign, formats at the edges, unsigned formats, integers. *)

From Coq Require Import ZArith Reals Lia Lra Psatz List Bool.
From Flocq Require Import Core.Core IEEE754.BinarySingleNaN.
From Verif Require Import Base FloatBase Literals Traits Trig IntImpl FixedPrim FixedImpl FloatImpl Spec
  Lemmas ScalarProofs ScalarProofs2 WrapProofs SqrtReal NiirfZ NiirfFixed NiirfFixed2 NiirfFixed3.
Open Scope Z_scope.

(** ** more fuel never changes an answer *)
Lemma bind_mono : forall A B (r r' : res A) (k k' : A -> res B) b, 
  (forall a, r = Ok a -> r' = Ok a) -> (forall a b, k a = Ok b -> k' a = Ok b) -> bind r k = Ok b -> bind r' k' = Ok b.
Proof. intros. apply bind_ok_inv in H1. destruct H1 as [a [E K]]. rewrite (H a E). cbn. auto. Qed.

Lemma niirf_mono : forall T (O : MixedOps T) Z0 A W m n k x it r, (n <= k)%nat ->
  niirf O Z0 A W m n x it = Ok r -> niirf O Z0 A W m k x it = Ok r.
Proof.
  intros T O Z0 A W m n k x it r L. unfold niirf. apply bind_mono; auto. intros z b. destruct (o_eq O x z); auto.
  apply bind_mono; auto. intros a b'. apply bind_mono.
  - intros s. unfold niirf_normalize. apply bind_mono.
    + intros s' H. eapply while_mono; eauto. discriminate.
    + intros s1 s2 H. eapply while_mono; eauto. discriminate.
  - intros s b''. apply bind_mono; auto. intros y b3. apply bind_mono; auto. 
    intros s' H. unfold niirf_denormalize in *. eapply while_mono; eauto. discriminate.
Qed.
Lemma NI_returns : forall m f n x it r, NI m f n x it = Ok r -> returns (fun fuel => NI m f fuel x it) r.
Proof. intros m f n x it r H. exists n. intros k Hk. eapply niirf_mono; eauto. Qed.

(** ** C03: negative arguments *)
Lemma niirf_neg_fixed : forall m f, supported f = true -> fsigned f = true -> forall x, fvalid f x -> x <> fmin f ->
  forall fuel it, NI m f fuel (- x) it = NI m f fuel x it.
Proof.
  intros m f Sp Sg x V Nm fuel it. pose proof (supported_fwf f Sp) as W. pose proof (q_pos f W) as P.
  unfold NI, niirf. cbn [mixed_zero fixed_zero]. rewrite fx_of_int_small by (auto; lia). cbn [bind]. rewrite !o_eq_spec.
  rewrite fmin_signed in Nm by auto. pose proof V as V'. apply fvalid_iff in V'. rewrite Sg in V'.
  assert (V2 : fvalid f (- x)) by (apply fvalid_iff; rewrite Sg; lia).
  replace (- x =? 0 * fone f) with (x =? 0 * fone f) by (destruct (Z.eqb_spec x (0 * fone f)), (Z.eqb_spec (- x) (0 * fone f)); lia).
  rewrite !fixed_abs_spec; auto; try (rewrite fmin_signed by auto; lia). rewrite Z.abs_opp. reflexivity.
Qed.

(** ** three integer bits *)
Lemma of4_panic : forall f, fwf f -> fsigned f = true -> ffrac f = fwidth f - 3 -> o_of_i32 (fixed_ops Debug f) 4 = Panic POverflow.
Proof.
  intros f W Sg F3. cbn [o_of_i32 fixed_ops]. unfold fx_of_int, fx_fin. apply fin_debug_over.
  intros [_ H]. unfold imax in H. cbn [isigned fity iwidth] in H. rewrite Sg in H. 
  assert (4 * fone f = 2 ^ (fwidth f - 1)); [|lia].
  unfold fone. change 4 with (2 ^ 2). destruct W. rewrite <- Z.pow_add_r by lia. f_equal. lia.
Qed.

Lemma niirf_3bits : forall f, supported f = true -> fsigned f = true -> ffrac f = fwidth f - 3 ->
  forall x, fvalid f x -> 0 < x -> 4 * x < fone f \/ fone f <= x -> forall fuel it, 
  NI Debug f (S fuel) x it = Panic POverflow.
Proof.
  intros f Sp Sg F3 x V X0 Hx fuel it. pose proof (supported_fwf f Sp) as W. pose proof (q_pos f W) as P.
  assert (F2 : 2 <= ffrac f) by (apply supported_inv in Sp; lia).
  unfold NI, niirf. cbn [mixed_zero fixed_zero]. rewrite fx_of_int_small by (auto; lia). cbn [bind]. rewrite !o_eq_spec.
  destruct (Z.eqb_spec x (0 * fone f)); [lia|].
  rewrite fixed_abs_spec; auto.
  2:{ intros [_ E]. rewrite fmin_signed in E by auto. pose proof (fmin_neg f W). lia. }
  rewrite Z.abs_eq by lia. cbn [bind]. unfold niirf_normalize. rewrite while_S. rewrite quarter_bits by auto. cbn [bind fst snd]. rewrite o_lt_spec.
  pose proof (q_quarter f F2) as Q4. set (h := 2 ^ (ffrac f - 2)) in *.
  destruct (Z.ltb_spec x h).
  - rewrite i32_small by lia. cbn [bind]. rewrite of4_panic by auto. reflexivity.
  - cbn [bind]. rewrite while_S. rewrite one_bits by auto. cbn [bind fst snd]. rewrite o_le_spec.
    destruct (Z.leb_spec (fone f) x); [|lia]. rewrite i32_small by lia. cbn [bind]. rewrite of4_panic by auto. reflexivity.
Qed.

(** in release builds sqrt(1) is negative there *)
Lemma niirf_3bits_release : forall f, supported f = true -> fsigned f = true -> ffrac f = fwidth f - 3 ->
  exists x r, fval f x = 1%R /\ returns (fun fuel => NI Release f fuel x 2) r /\ (fval f r < 0)%R.
Proof.
  intros f Sp Sg F3. pose proof (supported_inv f Sp) as [Hw _].
  assert (exists r, r < 0 /\ NI Release f 9 (fone f) 2 = Ok r) as [r [R0 E]].
  { destruct f as [sg w F]. cbn [fsigned fwidth ffrac] in *. subst sg F.
    destruct Hw as [ | [ | [ | ]]]; subst w; eexists; (split; [|vm_compute; reflexivity]); reflexivity. }
  exists (fone f), r. pose proof (fone_IZR_pos f ltac:(lia)) as P. split.
  - rewrite fval_eq by lia. field. lra.
  - split; [eapply NI_returns; eauto|]. rewrite fval_eq by lia. apply IZR_lt in R0. 
    unfold Rdiv. assert (0 < / IZR (fone f))%R by (apply Rinv_0_lt_compat; auto). nra.
Qed.

(** ** fewer than two fractional bits *)
Section Few.
Variables (m : mode) (f : fty).
Hypothesis W : fwf f.
Hypothesis F1 : 0 <= ffrac f <= 1.
Hypothesis V4 : fvalid f (4 * fone f).
Hypothesis W64 : fwidth f <= 64.
Notation q := (fone f).
Notation O := (fixed_ops m f).

Lemma few_cases : (ffrac f = 0 /\ q = 1) \/ (ffrac f = 1 /\ q = 2).
Proof. unfold fone. destruct (Z.eq_dec (ffrac f) 0) as [E|E]; [left; rewrite E|right; replace (ffrac f) with 1 by lia]; auto. Qed.

Lemma few_quarter : o_of_f64 O lit_quarter = Ok 0.
Proof.
  cbn [o_of_f64 fixed_ops]. rewrite unit_lit_ok by (auto; unit_val). f_equal. clear - F1.
  destruct f as [sg w F]. cbn [ffrac] in *. assert (F = 0 \/ F = 1) as [|] by lia; subst F; reflexivity.
Qed.
Lemma few_one : o_of_f64 O lit_one = Ok q.
Proof.
  cbn [o_of_f64 fixed_ops]. rewrite unit_lit_ok by (auto; unit_val). f_equal.
  apply fx_bits_exact; [lia|]. unfold lit_one, B2R, F2R. cbn [Fnum Fexp cond_Zopp]. 
  change (bpow radix2 (-52)) with (/ IZR (2 ^ 52))%R. lra.
Qed.

Lemma few_normalize : forall X, 0 < X -> fvalid f X -> exists n x, 
  0 <= n <= 33 /\ x = X / 4 ^ n /\ 0 <= x < q /\ (0 < n -> q * 4 ^ (n - 1) <= X) /\
  forall fuel, (34 < fuel)%nat -> niirf_normalize O m fuel (0, X) = Ok (n, x).
Proof.
  intros X X0 V. pose proof (q_pos f W) as P. pose proof (valid_lt f W W64 X V) as X64.
  destruct (while_total (cond2 m f) (body2 m f)
    (fun s => 0 <= fst s <= 33 /\ snd s = X / 4 ^ (fst s) /\ 0 <= snd s /\ (0 < fst s -> q * 4 ^ (fst s - 1) <= X))
    (fun s => Z.to_nat (33 - (fst s)))) with (n := 34%nat) (s := (0, X)) as [[n x] [E [[I1 [I2 [I3 I4]]] C]]].
  - intros [n x] [I1 [I2 [I3 I4]]]. cbn [fst snd] in *. unfold cond2, body2. rewrite few_one. cbn [bind fst snd].
    rewrite o_le_spec. destruct (Z.leb_spec q x) as [G|G]; [right|left; reflexivity]. split; auto.
    assert (P4 : 0 < 4 ^ n) by (apply Z.pow_pos_nonneg; lia).
    assert (XX : x * 4 ^ n <= X) by (rewrite I2, Z.mul_comm; apply Z.mul_div_le; auto). 
    assert (N32 : n < 32) by (apply pow4_lt; [lia|]; nia).
    exists (n + 1, x / 4). rewrite i32_small by lia. rewrite four_bits by auto. cbn [bind]. cbn [o_div fixed_ops]. unfold fx_div.
    destruct (Z.eqb_spec (4 * q) 0); [lia|]. rewrite div_int by (auto; lia).
    assert (D : 0 <= x / 4 <= x) by (split; [apply Z.div_pos; lia | apply Z.div_le_upper_bound; lia]).
    assert (Vx : fvalid f (x / 4)) by (apply (fv_le f _ X); auto; nia).
    rewrite fx_fin_ok by auto. cbn [bind fst snd]. split; auto.
    split; [split; [lia|split; [|split; [lia|]]]|lia].
    + rewrite Z.pow_add_r, I2, Z.div_div by lia. reflexivity.
    + intros _. replace (n + 1 - 1) with n by lia. nia.
  - cbn [fst snd]. rewrite Z.div_1_r. lia.
  - cbn [fst]. lia.
  - cbn [fst snd] in *. exists n, x. split; auto. split; auto. 
    unfold cond2 in C. rewrite few_one in C. cbn [bind fst snd] in C. rewrite o_le_spec in C. 
    inversion C as [C']. apply Z.leb_gt in C'. split; [lia|]. split; auto.
    intros fuel Hf. unfold niirf_normalize. destruct fuel; [lia|]. rewrite while_S, few_quarter. cbn [bind fst snd].
    rewrite o_lt_spec. destruct (Z.ltb_spec X 0); [lia|]. cbn [bind].
    apply (while_mono _ _ 34 (0, X) _ E); [discriminate|lia].
Qed.

(** the start value is a fixed point of the iteration: 0 without fractional bits, one ulp with one *)
Lemma few_iterate : forall it X, 0 <= X < q -> niirf_iterate O (fixed_powi m f) it X = Ok (ffrac f).
Proof.
  intros it X HX. rewrite iterate_unfold by auto. 
  assert (B : forall X y, fvalid f y -> 0 <= y * y / q <= X -> X < q -> 0 <= zstep q (beta_bits f X) X y < 4 * q -> body m f X y = Ok (zstep q (beta_bits f X) X y)).
  { intros X1 y Vy H1 H2 H3. unfold body. rewrite beta_eq by auto. cbn [bind]. rewrite sq_eq. pose proof (q_pos f W) as P.
    pose proof (beta_bits_range f W X1) as BB. set (b := beta_bits f X1) in *. unfold fx_mul. rewrite fx_fin_ok by (apply fv_small; auto; lia). cbn [bind].
    cbn [o_sub o_mul o_add fixed_ops]. unfold fx_sub. rewrite fx_fin_ok by (apply fv_small; auto; lia). cbn [bind].
    unfold fx_mul. rewrite fx_fin_ok. 
    - cbn [bind]. unfold fx_add. apply fx_fin_ok. apply fv_small; auto.
    - apply fv_small; auto. split; [apply Z.div_pos; nia|]. apply Z.div_lt_upper_bound; nia. }
  assert (VF : fvalid f (ffrac f)). { pose proof (q_pos f W). apply fv_small; auto; lia. }
  destruct few_cases as [[E Q]|[E Q]].
  - assert (X = 0) by lia. subst X. assert (S0 : start f 0 = 0). { clear - E. destruct f as [sg w F]. cbn [ffrac] in E. subst F. reflexivity. }
    rewrite S0, E. apply for_fixpoint. rewrite B; rewrite ?Q; cbn; auto; try lia; unfold zstep; rewrite ?Z.mul_0_r; cbn; auto; try lia.
    rewrite E in VF. exact VF.
  - assert (S1 : start f X = 1). { clear - E Q HX. rewrite Q in HX. assert (X = 0 \/ X = 1) as [|] by lia; subst X; destruct f as [sg w F]; cbn [ffrac] in E; subst F; reflexivity. }
    rewrite S1, E. apply for_fixpoint. 
    assert (ZS : zstep q (beta_bits f X) X 1 = 1).
    { clear - E Q HX. rewrite Q in *. assert (X = 0 \/ X = 1) as [|] by lia; subst X; destruct f as [sg w F]; cbn [ffrac] in E; subst F; reflexivity. }
    rewrite B; rewrite ?ZS; auto.
    + rewrite <- E. exact VF.
    + rewrite Q in *. change (1 * 1 / 2) with 0. lia.
    + lia.
    + lia.
Qed.

Lemma few_niirf : forall X it, 0 < X -> fvalid f X -> exists n,
  0 <= n /\ X < q * 4 ^ n /\ (0 < n -> q * 4 ^ (n - 1) <= X) /\
  returns (fun fuel => NI m f fuel X it) (ffrac f * 2 ^ n).
Proof.
  intros X it X0 V. destruct (few_normalize X X0 V) as [n [x [N [Hx [Rx [Ln E]]]]]]. exists n. pose proof (q_pos f W) as P.
  assert (P4 : 0 < 4 ^ n) by (apply Z.pow_pos_nonneg; lia).
  split; [lia|]. split; [|split; auto].
  { pose proof (Z.div_mod X (4 ^ n) ltac:(lia)). pose proof (Z.mod_pos_bound X (4 ^ n) P4). nia. }
  exists 101%nat. intros fuel Hf. rewrite (niirf_unfold m f W X fuel it n x X0 V ltac:(lia) (E fuel ltac:(lia))).
  rewrite few_iterate by auto. cbn [bind]. unfold niirf_denormalize. fold (cond3 m) (body3 m f).
  assert (Es : scaled n (ffrac f) = ffrac f * 2 ^ n) by (unfold scaled; destruct (Z.leb_spec 0 n); [reflexivity|lia]).
  rewrite loop3; auto; try lia; [rewrite Es; reflexivity | apply fv_small; auto; lia |].
  rewrite Es. apply (fv_le f _ (Z.max X 1)).
  - assert (P2 : 0 < 2 ^ n) by (apply Z.pow_pos_nonneg; lia). split; [apply Z.mul_nonneg_nonneg; lia|].
    destruct (Z.eq_dec n 0) as [->|Nz]; [cbn; lia|].
    specialize (Ln ltac:(lia)). assert (PP : 4 ^ (n - 1) = 2 ^ (n - 1) * 2 ^ (n - 1)) by (rewrite <- Z.pow_mul_l; reflexivity).
    assert (P1 : 0 < 2 ^ (n - 1)) by (apply Z.pow_pos_nonneg; lia). assert (2 ^ n = 2 * 2 ^ (n - 1)) by (rewrite <- Z.pow_succ_r by lia; f_equal; lia).
    destruct few_cases as [[E1 Q]|[E1 Q]]; rewrite E1, Q in *; nia.
  - destruct (Z.max_spec X 1) as [[_ ->]|[_ ->]]; auto. apply fv_small; auto. lia.
Qed.
End Few.

Lemma four_valid : forall f, supported f = true -> fsigned f = false \/ ffrac f <= fwidth f - 4 -> fvalid f (4 * fone f).
Proof.
  intros f Sp H. pose proof (supported_fwf f Sp) as W. pose proof W as [W0 W1]. pose proof (fone_pos f W0).
  pose proof (fone_le_max f W). pose proof (half_le_full (fwidth f) ltac:(lia)).
  apply fvalid_iff. destruct (fsigned f) eqn:S; [|lia]. destruct H; [discriminate|].
  assert (8 * fone f <= 2 ^ (fwidth f - 1)); [|lia].
  unfold fone. change 8 with (2 ^ 3). rewrite <- Z.pow_add_r by lia. apply Z.pow_le_mono_r; lia.
Qed.

(** no fractional bits: always zero; one: the power of two below the root *)
Lemma sqrt_frac0 : forall m f, supported f = true -> fsigned f = false \/ ffrac f <= fwidth f - 4 -> ffrac f = 0 ->
  forall it x, fvalid f x -> 0 <= x -> returns (fun fuel => NI m f fuel x it) 0.
Proof.
  intros m f Sp HS F0 it x V X0. pose proof (supported_fwf f Sp) as W.
  destruct (Z.eq_dec x 0) as [->|Nz]; [exists 0%nat; intros; apply niirf_zero; auto|].
  destruct (few_niirf m f W ltac:(lia) (four_valid f Sp HS) (width64 f Sp) x it ltac:(lia) V) as [n [_ [_ [_ R]]]].
  rewrite F0, Z.mul_0_l in R. exact R.
Qed.

Lemma sqrt_frac1_pow : forall m f, supported f = true -> fsigned f = false \/ ffrac f <= fwidth f - 4 -> ffrac f = 1 ->
  forall it x, fvalid f x -> 0 < x -> exists r k, returns (fun fuel => NI m f fuel x it) r /\
  r = 2 ^ k /\ 0 <= k /\ (fval f r <= sqrt (fval f x) < 2 * fval f r)%R.
Proof.
  intros m f Sp HS F0 it x V X0. pose proof (supported_fwf f Sp) as W.
  destruct (few_niirf m f W ltac:(lia) (four_valid f Sp HS) (width64 f Sp) x it ltac:(lia) V) as [n [N [U [L R]]]].
  rewrite F0, Z.mul_1_l in R. exists (2 ^ n), n. split; auto. split; auto. split; auto.
  assert (Q : fone f = 2) by (unfold fone; rewrite F0; reflexivity). rewrite !fval_eq by lia. rewrite Q in *.
  assert (P2 : (1 <= IZR (2 ^ n))%R) by (apply IZR_le; assert (0 < 2 ^ n) by (apply Z.pow_pos_nonneg; lia); lia).
  apply IZR_lt in U as U'. rewrite mult_IZR, pow_IZR2 in U' by auto.
  assert (L' : (IZR (2 ^ n) * IZR (2 ^ n) <= 2 * IZR x)%R).
  { destruct (Z.eq_dec n 0) as [->|Nz].
    - change (2 ^ 0) with 1 in *. assert (1 <= IZR x)%R by (apply IZR_le; lia). lra.
    - specialize (L ltac:(lia)). rewrite <- mult_IZR, <- (mult_IZR 2). apply IZR_le.
      assert (PP : 4 ^ (n - 1) = 2 ^ (n - 1) * 2 ^ (n - 1)) by (rewrite <- Z.pow_mul_l; reflexivity).
      assert (2 ^ n = 2 * 2 ^ (n - 1)) by (rewrite <- Z.pow_succ_r by lia; f_equal; lia). nia. }
  set (p := IZR (2 ^ n)) in *.
  assert (X1 : (0 < IZR x)%R) by (apply IZR_lt; auto).
  pose proof (sqrt_pos (IZR x / 2)) as S0. pose proof (sqrt_sqrt (IZR x / 2) ltac:(lra)) as SS. set (g := sqrt (IZR x / 2)) in *.
  split; [apply sq_le; lra|]. destruct (Rlt_or_le g (2 * (p / 2))); auto. nra.
Qed.

(** which signed formats panic *)
Lemma sqrt_panic_iff : forall f, supported f = true -> fsigned f = true -> forall it x, (2 <= it)%N -> fvalid f x -> 0 <= x ->
  ((exists p, panics (fun fuel => NI Debug f fuel x it) p) <->
   ffrac f = fwidth f - 3 /\ (0 < fval f x < / 4 \/ 1 <= fval f x)%R).
Proof.
  intros f Sp Sg it x Hit V X0. pose proof (supported_fwf f Sp) as W. pose proof W as [W0 W1].
  pose proof (fone_IZR_pos f W0) as P. 
  assert (E : (IZR x = fval f x * IZR (fone f))%R) by (rewrite fval_eq by auto; field; lra).
  destruct (Z.eq_dec (ffrac f) (fwidth f - 3)) as [F3|F3].
  - assert (F2 : 2 <= ffrac f) by (apply supported_inv in Sp; lia). split.
    + intros [p Hp]. split; auto. destruct (Z.eq_dec x 0) as [->|Nz].
      { exfalso. destruct Hp as [n Hp]. specialize (Hp n (le_n n)). rewrite niirf_zero in Hp by auto. discriminate. }
      assert (0 < x) as XP by lia. apply IZR_lt in XP. assert (0 < fval f x)%R by nra.
      destruct (Rlt_or_le (fval f x) (/ 4)); auto. destruct (Rlt_or_le (fval f x) 1); auto.
      exfalso. destruct (sqrt_fixed_norm Debug f Sp Sg F2 it Hit x ltac:(lra)) as [r [R _]].
      eapply returns_not_panics; eauto.
    + intros [_ H]. exists POverflow. exists 1%nat. intros [|fuel] Hf; [lia|]. apply niirf_3bits; auto.
      * apply lt_IZR. rewrite E. destruct H; nra.
      * destruct H; [left; apply lt_IZR; rewrite mult_IZR | right; apply le_IZR]; nra.
  - split; [|intros [? _]; contradiction]. intros [p Hp]. exfalso.
    assert (exists r, returns (fun fuel => NI Debug f fuel x it) r) as [r R]; [|eapply returns_not_panics; eauto].
    destruct (Z_lt_le_dec (ffrac f) 2) as [L|L].
    + destruct (Z.eq_dec x 0) as [->|Nz]; [exists 0; exists 0%nat; intros; apply niirf_zero; auto|].
      destruct (few_niirf Debug f W ltac:(lia) (four_valid f Sp ltac:(lia)) (width64 f Sp) x it ltac:(lia) V) as [n [_ [_ [_ R]]]]. eauto.
    + destruct (sqrt_fixed_acc Debug f Sp Sg ltac:(lia) it Hit x V X0) as [r [R _]]. eauto.
Qed.

(** ** unsigned formats *)
Lemma for_debug : forall A (b : A -> res A), (forall s, (exists a, b s = Ok a) \/ b s = Panic POverflow) ->
  forall n s, (exists a, for_n n b s = Ok a) \/ for_n n b s = Panic POverflow.
Proof.
  intros A b H n. induction n using N.peano_ind; intros s; [left; eexists; reflexivity|].
  rewrite for_succ. destruct (IHn s) as [[a ->]| ->]; [|right; reflexivity]. cbn [bind].
  apply H.
Qed.

Lemma fin_debug_cases : forall t z, (fin Debug t z = Ok z) \/ fin Debug t z = Panic POverflow.
Proof. intros. unfold fin. destruct (in_rangeb t z); auto. Qed.

Lemma sqrt_unsigned : forall f, supported f = true -> 2 <= ffrac f -> fsigned f = false ->
  forall it, (2 <= it)%N -> forall x, fvalid f x ->
  (exists r, returns (fun fuel => NI Debug f fuel x it) r /\
   (Rabs (fval f r - sqrt (fval f x)) <= (/ 1000 + 5 * ulp f) * sqrt (fval f x) + 3 * ulp f)%R) \/
  panics (fun fuel => NI Debug f fuel x it) POverflow.
Proof.
  intros f Sp F2 Sg it Hit x V. pose proof (supported_fwf f Sp) as W. pose proof (q_pos f W) as P.
  destruct (Z.eq_dec x 0) as [->|Nz].
  - left. exists 0. split; [exists 0%nat; intros; apply niirf_zero; auto|].
    rewrite !fval_eq, ulp_eq by lia. unfold Rdiv. rewrite Rmult_0_l, sqrt_0, Rminus_0_r, Rabs_R0, Rmult_0_r.
    pose proof (fone_IZR_pos f ltac:(lia)). assert (0 < / IZR (fone f))%R by (apply Rinv_0_lt_compat; auto). lra.
  - assert (X0 : 0 < x) by (apply fvalid_iff in V; rewrite Sg in V; lia).
    destruct (normalize_ok Debug f W F2 (four_valid f Sp (or_introl Sg)) (width64 f Sp) x X0 V) as [n [X' [N E]]].
    pose proof N as [_ [L [U _]]].
    assert (C : (exists y, niirf_iterate (fixed_ops Debug f) (fixed_powi Debug f) it X' = Ok y) \/
      niirf_iterate (fixed_ops Debug f) (fixed_powi Debug f) it X' = Panic POverflow).
    { rewrite iterate_unfold by (auto; lia). apply for_debug. intros y.
      unfold body. rewrite beta_eq by auto. cbn [bind]. rewrite sq_eq. cbn [o_sub o_mul o_add fixed_ops].
      unfold fx_mul, fx_sub, fx_add, fx_fin.
      destruct (fin_debug_cases (fity f) (y * y / fone f)) as [-> | ->]; [|right; reflexivity]. cbn [bind].
      match goal with |- context [bind (fin Debug ?t ?z) _] => destruct (fin_debug_cases t z) as [-> | ->]; [|right; reflexivity] end. cbn [bind].
      match goal with |- context [bind (fin Debug ?t ?z) _] => destruct (fin_debug_cases t z) as [-> | ->]; [|right; reflexivity] end. cbn [bind].
      match goal with |- context [fin Debug ?t ?z] => destruct (fin_debug_cases t z) as [-> | ->]; [|right; reflexivity] end.
      left. eauto. }
    destruct C as [[y Ey]|Ep].
    + left. pose proof Ey as Ey'. apply iterate_inv in Ey'; auto; [|lia].
      destruct (core f X' (it - 1) F2 L U) as [Sm [A _]]. rewrite <- Ey' in *.
      exists (scaled n y). split.
      * exists 101%nat. intros fuel Hf. rewrite (niirf_unfold Debug f W x fuel it n X' X0 V ltac:(lia) (E fuel ltac:(lia))).
        rewrite Ey. cbn [bind]. unfold niirf_denormalize. fold (cond3 Debug) (body3 Debug f).
        rewrite loop3; auto; [destruct N; lia|apply Sm|apply small_valid; auto| ].
        eapply scaled_valid; eauto. apply four_valid; auto.
      * eapply acc_scaled; eauto; try lia. apply A. lia.
    + right. exists 101%nat. intros fuel Hf. rewrite (niirf_unfold Debug f W x fuel it n X' X0 V ltac:(lia) (E fuel ltac:(lia))).
      rewrite Ep. reflexivity.
Qed.

Lemma body_pos : forall m f X y, fwf f -> 0 <= X < fone f -> small (fone f) y -> y * y / fone f <= X ->
  body m f X y = Ok (zstep (fone f) (beta_bits f X) X y).
Proof.
  intros m f X y W HX [Y0 Y1] HY. pose proof (q_pos f W) as P. unfold body. rewrite beta_eq by auto. cbn [bind]. rewrite sq_eq.
  pose proof (beta_bits_range f W X) as BB. unfold zstep. set (b := beta_bits f X) in *. 
  assert (D0 : 0 <= y * y / fone f) by (apply Z.div_pos; nia).
  unfold fx_mul. rewrite fx_fin_ok by (apply fv_small; auto; lia). cbn [bind].
  cbn [o_sub o_mul o_add fixed_ops]. unfold fx_sub. rewrite fx_fin_ok by (apply fv_small; auto; lia). cbn [bind].
  assert (E0 : 0 <= b * (X - y * y / fone f) / fone f <= fone f).
  { split; [apply Z.div_pos; nia|]. apply Z.div_le_upper_bound; nia. }
  unfold fx_mul. rewrite fx_fin_ok by (apply fv_small; auto; lia). cbn [bind].
  unfold fx_add. apply fx_fin_ok. apply fv_small; auto. nia.
Qed.
Lemma body_neg : forall f X y, fwf f -> fsigned f = false -> small (fone f) y -> X < y * y / fone f ->
  body Debug f X y = Panic POverflow.
Proof.
  intros f X y W Sg [Y0 Y1] HY. pose proof (q_pos f W) as P. unfold body. rewrite beta_eq by auto. cbn [bind]. rewrite sq_eq.
  assert (D0 : 0 <= y * y / fone f) by (apply Z.div_pos; nia).
  assert (D1 : y * y / fone f <= 2 * fone f) by (apply Z.div_le_upper_bound; nia).
  unfold fx_mul. rewrite fx_fin_ok by (apply fv_small; auto; lia). cbn [bind].
  cbn [o_sub fixed_ops]. unfold fx_sub, fx_fin. rewrite fin_debug_over; [reflexivity|].
  intros [H _]. unfold imin in H. cbn [isigned fity] in H. rewrite Sg in H. lia.
Qed.

Lemma unsigned_total : forall f, supported f = true -> fsigned f = false ->
  (ffrac f = 0 \/ ffrac f = 1 \/ ffrac f = 2 \/ ffrac f = 3 \/ ffrac f = 5) ->
  forall x, fvalid f x -> exists r, returns (fun fuel => NI Debug f fuel x 2) r.
Proof.
  intros f Sp Sg HF x V. pose proof (supported_fwf f Sp) as W. pose proof (q_pos f W) as P.
  destruct (Z.eq_dec x 0) as [->|Nz]; [exists 0; exists 0%nat; intros; apply niirf_zero; auto|].
  assert (X0 : 0 < x) by (apply fvalid_iff in V; rewrite Sg in V; lia).
  destruct (Z_lt_le_dec (ffrac f) 2) as [L2|F2].
  - destruct (few_niirf Debug f W ltac:(lia) (four_valid f Sp (or_introl Sg)) (width64 f Sp) x 2 X0 V) as [n [_ [_ [_ R]]]]. eauto.
  - destruct (normalize_ok Debug f W F2 (four_valid f Sp (or_introl Sg)) (width64 f Sp) x X0 V) as [n [X' [N E]]].
    pose proof N as [N1 [L [U _]]].
    destruct (core f X' 0 F2 L U) as [S0 _]. destruct (core f X' 1 F2 L U) as [S1 _].
    assert (T : start f X' * start f X' / fone f <= X').
    { clear - HF F2 L U.
      assert (exists k : nat, X' = Z.of_nat k /\ (k < 32)%nat) as [k [-> Hk]].
      { exists (Z.to_nat X'). assert (0 <= X' < 32); [|lia].
        assert (fone f <= 2 ^ 5) by (apply Z.pow_le_mono_r; lia). change (2 ^ 5) with 32 in *. lia. }
      assert (H : forallb (fun F => forallb (fun k => let f := mkFty false 8 F in 
         negb ((fone f <=? 4 * Z.of_nat k) && (Z.of_nat k <? fone f)) || (start f (Z.of_nat k) * start f (Z.of_nat k) / fone f <=? Z.of_nat k)) (seq 0 32)) (2 :: 3 :: 5 :: nil) = true)
        by (vm_compute; reflexivity).
      rewrite forallb_forall in H. specialize (H (ffrac f) ltac:(cbn; lia)). rewrite forallb_forall in H.
      specialize (H k ltac:(apply in_seq; lia)). cbv zeta in H. 
      change (fone (mkFty false 8 (ffrac f))) with (fone f) in H.
      change (start (mkFty false 8 (ffrac f)) (Z.of_nat k)) with (start f (Z.of_nat k)) in H.
      apply orb_true_iff in H. destruct H as [H|H]; [|apply Z.leb_le; exact H].
      exfalso. apply negb_true_iff, andb_false_iff in H. destruct H as [H|H]; [apply Z.leb_gt in H | apply Z.ltb_ge in H]; lia. }
    exists (scaled n (ziter 1 (fone f) (beta_bits f X') X' (start f X'))).
    exists 101%nat. intros fuel Hf. rewrite (niirf_unfold Debug f W x fuel 2 n X' X0 V ltac:(lia) (E fuel ltac:(lia))).
    rewrite iterate_unfold by (auto; lia). change (2 - 1)%N with (N.succ 0). rewrite for_succ. cbn [for_n N.iter bind].
    rewrite body_pos by (auto; lia). cbn [bind]. change (zstep (fone f) (beta_bits f X') X' (start f X')) with (ziter 1 (fone f) (beta_bits f X') X' (start f X')).
    unfold niirf_denormalize. fold (cond3 Debug) (body3 Debug f).
    rewrite loop3; auto; [lia|apply S1|apply small_valid; auto| ].
    eapply scaled_valid; eauto. apply four_valid; auto.
Qed.

Lemma unsigned_norm_panic : forall f X, supported f = true -> fsigned f = false -> 2 <= ffrac f -> fone f <= 4 * X -> X < fone f ->
  X < start f X * start f X / fone f -> panics (fun fuel => NI Debug f fuel X 2) POverflow.
Proof.
  intros f X Sp Sg F2 L U H. pose proof (supported_fwf f Sp) as W. pose proof (q_pos f W) as P.
  destruct (core f X 0 F2 L U) as [S0 _]. 
  exists 1%nat. intros [|fuel] Hf; [lia|]. unfold NI, niirf. cbn [mixed_zero fixed_zero]. rewrite fx_of_int_small by (auto; lia). cbn [bind].
  rewrite o_eq_spec. destruct (Z.eqb_spec X (0 * fone f)); [lia|]. cbn [mixed_abs fixed_abs]. rewrite Sg. cbn [bind].
  rewrite norm_id by auto. cbn [bind fst snd]. rewrite iterate_unfold by (auto; lia). change (2 - 1)%N with (N.succ 0). rewrite for_succ. cbn [for_n N.iter bind].
  rewrite body_neg by auto. reflexivity.
Qed.

Lemma unsigned_bad : forall f, supported f = true -> fsigned f = false -> ffrac f = 4 \/ 6 <= ffrac f ->
  exists x, fvalid f x /\ panics (fun fuel => NI Debug f fuel x 2) POverflow.
Proof.
  intros f Sp Sg HF. pose proof (supported_fwf f Sp) as W. pose proof (q_pos f W) as P.
  assert (exists X, fone f <= 4 * X /\ X < fone f /\ X < start f X * start f X / fone f) as [X [L [U H]]].
  { clear Sp W P. destruct HF as [F|F].
    - exists 15. destruct f as [sg w Fr]. cbn [ffrac] in F. subst Fr. repeat split; vm_compute; congruence.
    - destruct (Z.eq_dec (ffrac f) 6) as [F6|F6].
      + exists 16. destruct f as [sg w Fr]. cbn [ffrac] in F6. subst Fr. repeat split; vm_compute; congruence.
      + exists (2 ^ (ffrac f - 2)). pose proof (q_quarter f ltac:(lia)) as Q4. set (h := 2 ^ (ffrac f - 2)) in *.
        assert (h0 : 0 < h) by (apply Z.pow_pos_nonneg; lia).
        assert (Hq : 128 <= fone f). { unfold fone. change 128 with (2 ^ 7). apply Z.pow_le_mono_r; lia. }
        split; [lia|]. split; [lia|].
        pose proof (start_real (fone f) ltac:(lia) h ltac:(lia) _ (y0_real f ltac:(lia))) as St. fold (start f h) in St.
        apply IZR_le in Hq. set (Q := IZR (fone f)) in *.
        assert (UQ : (/ Q * Q = 1)%R) by (apply Rinv_l; lra). assert (UP : (0 < / Q <= / 128)%R).
        { split; [apply Rinv_0_lt_compat; lra | apply Rinv_le_contravar; lra]. }
        assert (Yi : (y0i (s (fone f) h) = 1 / 6 + 354167 / 1000000)%R).
        { unfold y0i. rewrite s_sq by (try lia; apply le_IZR; fold Q; lra). fold Q. unfold Q. rewrite Q4, mult_IZR. apply IZR_lt in h0. field. lra. }
        rewrite Yi in St. apply Rabs_le_inv in St. set (y := start f h) in *.
        assert (YL : (520833 / 1000000 - 151 / 100 * / Q <= IZR y * / Q)%R).
        { assert (/ 1000000000000000 <= / 1000000 * / 3)%R by lra. lra. }
        assert (Yn : (520833 / 1000000 * Q - 151 / 100 <= IZR y)%R).
        { apply Rmult_le_compat_r with (r := Q) in YL; [|lra]. 
          replace (IZR y * / Q * Q)%R with (IZR y) in YL by (rewrite Rmult_assoc, UQ; ring).
          replace ((520833 / 1000000 - 151 / 100 * / Q) * Q)%R with (520833 / 1000000 * Q - 151 / 100)%R in YL by (field; lra). exact YL. }
        assert (h + 1 <= y * y / fone f); [|lia]. apply Z.div_le_lower_bound; [lia|]. apply le_IZR.
        rewrite !mult_IZR, plus_IZR. fold Q. assert (HQ : (Q = 4 * IZR h)%R) by (unfold Q; rewrite Q4, mult_IZR; reflexivity).
        replace (IZR h) with (Q / 4)%R by lra. nra. }
  exists X. split; [apply fv_small; auto; lia|]. apply unsigned_norm_panic; auto. lia.
Qed.

Lemma unsigned_iff : forall f, supported f = true -> fsigned f = false ->
  ((exists x p, fvalid f x /\ panics (fun fuel => NI Debug f fuel x 2) p) <-> ffrac f = 4 \/ 6 <= ffrac f).
Proof.
  intros f Sp Sg. split.
  - intros [x [p [V H]]]. pose proof (supported_fwf f Sp) as [W0 _].
    destruct (Z.eq_dec (ffrac f) 4); auto. destruct (Z_le_gt_dec 6 (ffrac f)); auto. exfalso.
    destruct (unsigned_total f Sp Sg ltac:(lia) x V) as [r R]. eapply returns_not_panics; eauto.
  - intros H. destruct (unsigned_bad f Sp Sg H) as [x [V E]]. eauto.
Qed.

(** ** statements in terms of the trait methods *)
Lemma sqrt_fixed_api : forall m f, supported f = true -> fsigned f = true -> 2 <= ffrac f <= fwidth f - 4 ->
  forall x, fvalid f x -> 0 <= x -> exists r,
  returns (fun fuel => mixed_sqrt (fixed_sqrt m f fuel) x) r /\
  returns (fun fuel => mixed_niirf (fixed_sqrt m f fuel) x) r /\
  (Rabs (fval f r - sqrt (fval f x)) <= (/ 1000 + 5 * ulp f) * sqrt (fval f x) + 3 * ulp f)%R.
Proof.
  intros m f S Sg F x V X0. destruct (sqrt_fixed_acc m f S Sg F 2 ltac:(lia) x V X0) as [r [R B]].
  exists r. split; [exact R|]. split; [exact R|exact B].
Qed.
Lemma sqrt_zero_api : forall m f, supported f = true -> forall fuel,
  mixed_sqrt (fixed_sqrt m f fuel) 0 = Ok 0 /\ mixed_niirf (fixed_sqrt m f fuel) 0 = Ok 0.
Proof. intros m f S fuel. pose proof (niirf_zero m f (supported_fwf f S) fuel 2) as H. split; exact H. Qed.
Lemma sqrt_norm_two : forall m f, supported f = true -> fsigned f = true -> 2 <= ffrac f ->
  forall x, (/ 4 <= fval f x < 1)%R -> exists r, returns (fun fuel => NI m f fuel x 2) r /\
  (Rabs (fval f r - sqrt (fval f x)) <= 703 / 1000000 + 145 / 100 * ulp f)%R.
Proof.
  intros m f S Sg F x X. destruct (sqrt_fixed_norm m f S Sg F 2 ltac:(lia) x X) as [r [R [B _]]]. eauto.
Qed.
Lemma sqrt_norm_three : forall m f, supported f = true -> fsigned f = true -> 2 <= ffrac f ->
  forall it, (3 <= it)%N -> forall x, (/ 4 <= fval f x < 1)%R -> exists r, returns (fun fuel => NI m f fuel x it) r /\
  (Rabs (fval f r - sqrt (fval f x)) <= 176 / 1000000 + 145 / 100 * ulp f)%R.
Proof.
  intros m f S Sg F it I x X. destruct (sqrt_fixed_norm m f S Sg F it ltac:(lia) x X) as [r [R [_ B]]]. eauto.
Qed.
Lemma sqrt_three_bits : forall f, supported f = true -> fsigned f = true -> ffrac f = fwidth f - 3 ->
  (exists x, fval f x = 1%R /\ fvalid f x /\
     panics (fun fuel => mixed_sqrt (fixed_sqrt Debug f fuel) x) POverflow) /\
  (exists x r, fval f x = 1%R /\ returns (fun fuel => mixed_sqrt (fixed_sqrt Release f fuel) x) r /\ (fval f r < 0)%R).
Proof.
  intros f S Sg F. pose proof (supported_fwf f S) as W. pose proof (q_pos f W) as P. split.
  - exists (fone f). split; [|split].
    + rewrite fval_eq by (destruct W; lia). apply IZR_lt in P. field. lra.
    + apply fv_small; auto. lia.
    + exists 1%nat. intros [|fuel] H; [lia|]. apply (niirf_3bits f S Sg F); try lia. apply fv_small; auto. lia.
  - apply niirf_3bits_release; auto.
Qed.
