(** * Proofs about sign, abs, predicates and integer powers on integers and fixed point. *)

From Coq Require Import ZArith Lia List Bool.
From Flocq Require Import IEEE754.BinarySingleNaN.
From Verif Require Import Base FloatBase Traits Trig IntImpl FixedPrim FixedImpl Lemmas.
Open Scope Z_scope.

(** ** Format facts *)
Definition fwf (f : fty) : Prop := 0 <= ffrac f /\ ffrac f <= fwidth f - 3.

Lemma supported_inv : forall f, supported f = true ->
  (fwidth f = 8 \/ fwidth f = 16 \/ fwidth f = 32 \/ fwidth f = 64) /\
  0 <= ffrac f <= fwidth f - 3.
Proof.
  intros f H. unfold supported in H.
  rewrite !andb_true_iff, !orb_true_iff, !Z.eqb_eq, !Z.leb_le in H. tauto.
Qed.

Lemma supported_fwf : forall f, supported f = true -> fwf f.
Proof. intros f H. apply supported_inv in H. unfold fwf. lia. Qed.

Lemma fone_pos : forall f, 0 <= ffrac f -> 0 < fone f.
Proof. intros. unfold fone. apply Z.pow_pos_nonneg; lia. Qed.

Lemma fwf_width : forall f, fwf f -> 1 <= iwidth (fity f).
Proof. intros f [H1 H2]. simpl. lia. Qed.

Lemma fmax_signed : forall f, fsigned f = true -> fmax f = 2 ^ (fwidth f - 1) - 1.
Proof. intros f H. unfold fmax, imax. simpl. rewrite H. reflexivity. Qed.
Lemma fmin_signed : forall f, fsigned f = true -> fmin f = - 2 ^ (fwidth f - 1).
Proof. intros f H. unfold fmin, imin. simpl. rewrite H. reflexivity. Qed.

Lemma fone_le_max : forall f, fwf f -> 4 * fone f <= 2 ^ (fwidth f - 1).
Proof.
  intros f [H1 H2]. unfold fone. change 4 with (2 ^ 2). rewrite <- Z.pow_add_r by lia.
  apply Z.pow_le_mono_r; lia.
Qed.
Lemma half_le_full : forall w, 1 <= w -> 2 ^ w = 2 * 2 ^ (w - 1).
Proof. intros. rewrite <- Z.pow_succ_r by lia. f_equal. lia. Qed.

Lemma fvalid_iff : forall f z, fvalid f z <-> 
  (if fsigned f then - 2 ^ (fwidth f - 1) <= z <= 2 ^ (fwidth f - 1) - 1
   else 0 <= z <= 2 ^ fwidth f - 1).
Proof.
  intros. unfold fvalid, in_range, imin, imax. simpl. destruct (fsigned f); tauto.
Qed.

Lemma fx_fin_ok : forall m f z, fvalid f z -> fx_fin m f z = Ok z.
Proof. intros. apply fin_ok. exact H. Qed.

(** ** sign and abs on integers *)
Section IntSign.
Variables (m : mode) (t : ity).
Hypothesis Hw : 2 <= iwidth t.

Lemma one_in_range : in_range t 1.
Proof.
  unfold in_range, imin, imax.
  assert (2 ^ 1 <= 2 ^ (iwidth t - 1)) by (apply Z.pow_le_mono_r; lia).
  assert (2 ^ 1 <= 2 ^ iwidth t) by (apply Z.pow_le_mono_r; lia).
  destruct (isigned t); lia.
Qed.

Lemma int_sign_spec : forall x, in_range t x ->
  mixed_sign (int_real m t) x = Ok (if x <? 0 then -1 else 1).
Proof.
  intros x Hx. simpl. unfold sign. simpl. unfold o_lt. simpl.
  rewrite (wrap_id t ltac:(lia) 0) by (apply zero_in_range; lia).
  unfold Z.ltb. destruct (x ?= 0) eqn:E.
  - rewrite wrap_id; auto using one_in_range; lia.
  - rewrite wrap_id; [reflexivity|lia|].
    rewrite Z.compare_lt_iff in E. unfold in_range, imin, imax in *.
    assert (2 ^ 1 <= 2 ^ (iwidth t - 1)) by (apply Z.pow_le_mono_r; lia).
    destruct (isigned t); lia.
  - rewrite wrap_id; auto using one_in_range; lia.
Qed.

Lemma int_abs_spec : forall x, in_range t x -> ~ (isigned t = true /\ x = imin t) ->
  mixed_abs (int_abs m t) x = Ok (Z.abs x).
Proof.
  intros x Hx Hn. simpl. unfold in_range, imin, imax in *.
  destruct (isigned t) eqn:S.
  - destruct (Z.leb_spec 0 x).
    + f_equal. lia.
    + rewrite fin_ok. { f_equal; lia. }
      unfold in_range, imin, imax. rewrite S.
      assert (x <> - 2 ^ (iwidth t - 1)) by tauto. lia.
  - f_equal. lia.
Qed.

Lemma int_abs_min : isigned t = true ->
  mixed_abs (int_abs m t) (imin t) =
  match m with Debug => Panic POverflow | Release => Ok (imin t) end.
Proof.
  intros S. simpl. rewrite S.
  assert (P : 0 < 2 ^ (iwidth t - 1)) by (apply Z.pow_pos_nonneg; lia).
  assert (M : imin t = - 2 ^ (iwidth t - 1)) by (unfold imin; rewrite S; auto).
  destruct (Z.leb_spec 0 (imin t)); [lia|].
  assert (N : ~ in_range t (- imin t)).
  { unfold in_range, imax. rewrite S. lia. }
  destruct m.
  - apply fin_debug_over; auto.
  - rewrite fin_release by lia. f_equal. apply wrap_unique with (-1); [lia| |].
    + unfold in_range, imax. rewrite S. lia.
    + rewrite (half_le_full (iwidth t)) by lia. lia.
Qed.

(** whatever [abs] returns, multiplying by the sign gives [x] back *)
Lemma int_sign_mul_abs : forall x a s, in_range t x ->
  mixed_abs (int_abs m t) x = Ok a -> mixed_sign (int_real m t) x = Ok s ->
  o_mul (int_ops m t) s a = Ok x.
Proof.
  intros x a s Hx Ha Hs. rewrite int_sign_spec in Hs by auto. inversion Hs; subst s; clear Hs.
  destruct (isigned t) eqn:S.
  - destruct (Z.eq_dec x (imin t)) as [->|N].
    + rewrite int_abs_min in Ha by auto. destruct m; inversion Ha; subst a.
      assert (P : 0 < 2 ^ (iwidth t - 1)) by (apply Z.pow_pos_nonneg; lia).
      assert (M : imin t = - 2 ^ (iwidth t - 1)) by (unfold imin; rewrite S; auto).
      destruct (Z.ltb_spec (imin t) 0); [|lia].
      change (fin Release t (-1 * imin t) = Ok (imin t)).
      rewrite fin_release by lia. f_equal. apply wrap_unique with (-1); [lia|exact Hx|].
      rewrite (half_le_full (iwidth t)) by lia. lia.
    + rewrite int_abs_spec in Ha by (auto; tauto). inversion Ha; subst a. simpl.
      assert (E : (if x <? 0 then -1 else 1) * Z.abs x = x) by (destruct (Z.ltb_spec x 0); lia).
      rewrite E. apply fin_ok; auto.
  - rewrite int_abs_spec in Ha by (auto; intros [? ?]; congruence). inversion Ha; subst a. simpl.
    assert (E : (if x <? 0 then -1 else 1) * Z.abs x = x) by (destruct (Z.ltb_spec x 0); lia).
    rewrite E. apply fin_ok; auto.
Qed.
End IntSign.

(** ** powers of integers *)
Lemma pow_N_succ : forall x n, x ^ Z.of_N (N.succ n) = x ^ Z.of_N n * x.
Proof. intros. rewrite N2Z.inj_succ, Z.pow_succ_r by lia. ring. Qed.

(** if x^n is in range, so are the smaller powers *)
Lemma pow_in_range_down : forall t, 2 <= iwidth t -> forall x k n, 1 <= k <= n -> in_range t x ->
  in_range t (x ^ n) -> in_range t (x ^ k).
Proof.
  intros t Hw x k n Hk Hx Hn.
  destruct (Z.eq_dec k n) as [->|N]; auto.
  destruct (Z_le_gt_dec (Z.abs x) 1) as [S|L].
  - assert (x = 0 \/ x = 1 \/ x = -1) as [ -> | [ -> | -> ] ] by lia.
    + rewrite Z.pow_0_l by lia. apply zero_in_range; lia.
    + rewrite Z.pow_1_l by lia. auto.
    + (* x = -1: only a signed type *)
      assert (Sg : isigned t = true).
      { unfold in_range, imin in Hx. destruct (isigned t); auto. lia. }
      assert (P : 2 ^ 1 <= 2 ^ (iwidth t - 1)) by (apply Z.pow_le_mono_r; lia).
      assert (E : (-1) ^ k = 1 \/ (-1) ^ k = -1).
      { destruct (Z.Even_or_Odd k) as [E|O].
        - left. change (-1) with (-(1)). rewrite Z.pow_opp_even by auto. apply Z.pow_1_l. lia.
        - right. change (-1) with (-(1)). rewrite Z.pow_opp_odd by auto. rewrite Z.pow_1_l by lia. reflexivity. }
      unfold in_range, imin, imax. rewrite Sg. destruct E as [-> | ->]; lia.
  - assert (A : 2 * Z.abs (x ^ k) <= Z.abs (x ^ n)).
    { rewrite !Z.abs_pow. replace n with (k + (n - k)) by lia. rewrite Z.pow_add_r by lia.
      assert (Z.abs x ^ 1 <= Z.abs x ^ (n - k)) by (apply Z.pow_le_mono_r; lia).
      rewrite Z.pow_1_r in H.
      assert (0 < Z.abs x ^ k) by (apply Z.pow_pos_nonneg; lia). nia. }
    unfold in_range, imin, imax in *. destruct (isigned t) eqn:Sg.
    + assert (0 < 2 ^ (iwidth t - 1)) by (apply Z.pow_pos_nonneg; lia). lia.
    + assert (0 <= x ^ k) by (apply Z.pow_nonneg; lia). lia.
Qed.

Lemma fin_Ok_inv : forall m t z r, 1 <= iwidth t -> fin m t z = Ok r ->
  r = wrap t z /\ (m = Debug -> in_range t z /\ r = z).
Proof.
  intros m t z r Hw E. destruct m.
  - apply fin_debug_inv in E. destruct E as [-> E]. rewrite wrap_id by auto. auto.
  - rewrite fin_release in E by auto. inversion E. split; [auto|discriminate].
Qed.

Lemma int_powi_spec : forall m t x (n : N), 2 <= iwidth t -> in_range t x ->
  powi (int_ops m t) x n = fin m t (x ^ Z.of_N n).
Proof.
  intros m t x n Hw Hx. unfold powi. destruct (N.eqb_spec n 0) as [->|Hn].
  - change (Z.of_N 0) with 0. rewrite Z.pow_0_r. simpl. rewrite wrap_id by (auto using one_in_range; lia).
    symmetry. apply fin_ok. apply one_in_range; auto.
  - set (k := (n - 1)%N). assert (En : n = N.succ k) by lia. rewrite En. clearbody k. clear Hn En.
    induction k using N.peano_ind.
    + rewrite for_0. change (Z.of_N (N.succ 0)) with 1. rewrite Z.pow_1_r.
      symmetry. apply fin_ok; auto.
    + rewrite for_succ, IHk. rewrite (pow_N_succ x (N.succ k)).
      destruct m.
      * destruct (in_rangeb t (x ^ Z.of_N (N.succ k))) eqn:R.
        -- apply in_rangeb_spec in R. rewrite fin_ok by auto. simpl. reflexivity.
        -- apply in_rangeb_false in R. rewrite fin_debug_over by auto. simpl.
           symmetry. apply fin_debug_over. intros R'. apply R.
           apply pow_in_range_down with (Z.of_N (N.succ (N.succ k))); auto; [lia|].
           rewrite pow_N_succ. auto.
      * rewrite !fin_release by lia. simpl. rewrite fin_release by lia. f_equal.
        apply wrap_mul_l; lia.
Qed.

Lemma to_N_usize_nonneg : forall e, 0 <= e < 2 ^ 31 -> Z.to_N (wrap usize e) = Z.to_N e.
Proof.
  intros. rewrite wrap_id; auto.
  - simpl; lia.
  - unfold in_range, imin, imax. simpl. lia.
Qed.

Lemma to_N_usize_neg : forall e, - 2 ^ 31 <= e < 0 -> Z.to_N (wrap usize e) = Z.to_N (2 ^ 64 + e).
Proof.
  intros. assert (E : wrap usize e = 2 ^ 64 + e).
  { apply wrap_unique with 1.
    - cbn; lia.
    - unfold in_range, imin, imax. cbn [isigned iwidth usize u64]. lia.
    - cbn [isigned iwidth usize u64]. lia. }
  rewrite E. reflexivity.
Qed.

Lemma int_mixed_powi_spec : forall m t x n, 2 <= iwidth t -> in_range t x -> 0 <= n < 2 ^ 31 ->
  mixed_powi (int_powi m t) x n = fin m t (x ^ n).
Proof.
  intros. cbn [mixed_powi int_powi]. rewrite to_N_usize_nonneg by auto. rewrite int_powi_spec by auto.
  rewrite Z2N.id by lia. reflexivity.
Qed.

Lemma int_mixed_powi_neg : forall m t x n, 2 <= iwidth t -> in_range t x -> - 2 ^ 31 <= n < 0 ->
  mixed_powi (int_powi m t) x n = fin m t (x ^ (2 ^ 64 + n)).
Proof.
  intros. cbn [mixed_powi int_powi]. rewrite to_N_usize_neg by auto. rewrite int_powi_spec by auto.
  rewrite Z2N.id by lia. reflexivity.
Qed.

(** ** fixed point: constants *)
Lemma fx_of_int_small : forall m f z, fwf f -> (fsigned f = false -> 0 <= z) -> -4 <= z < 4 ->
  fx_of_int m f z = Ok (z * fone f).
Proof.
  intros m f z W Hs Hz. apply fx_fin_ok. apply fvalid_iff.
  pose proof (fone_le_max f W). pose proof (fone_pos f (proj1 W)).
  pose proof (half_le_full (fwidth f) ltac:(destruct W; lia)).
  destruct (fsigned f); nia.
Qed.

Section FixSign.
Variables (m : mode) (f : fty).
Hypothesis W : fwf f.

Lemma fixed_sign_spec : forall x, fvalid f x ->
  mixed_sign (fixed_real m f) x = Ok (if x <? 0 then - fone f else fone f).
Proof.
  intros x Hx. simpl. unfold sign. simpl.
  rewrite fx_of_int_small by (auto; lia). simpl. unfold o_lt. simpl. unfold Z.ltb.
  destruct (x ?= 0) eqn:E.
  - rewrite fx_of_int_small by (auto; lia). f_equal; lia.
  - rewrite fx_of_int_small; [f_equal; lia|exact W| |lia].
    intros S. rewrite Z.compare_lt_iff in E. apply fvalid_iff in Hx. rewrite S in Hx. lia.
  - rewrite fx_of_int_small by (auto; lia). f_equal; lia.
Qed.

Lemma fixed_abs_spec : forall x, fvalid f x -> ~ (fsigned f = true /\ x = fmin f) ->
  mixed_abs (fixed_abs m f) x = Ok (Z.abs x).
Proof.
  intros x Hx Hn. simpl. apply fvalid_iff in Hx as Hx'. destruct (fsigned f) eqn:S.
  - apply fx_fin_ok. apply fvalid_iff. rewrite S.
    assert (x <> fmin f) by tauto. rewrite fmin_signed in H by auto. lia.
  - f_equal. lia.
Qed.

Lemma fixed_abs_min : fsigned f = true ->
  mixed_abs (fixed_abs m f) (fmin f) =
  match m with Debug => Panic POverflow | Release => Ok (fmin f) end.
Proof.
  intros S. simpl. rewrite S. rewrite fmin_signed by auto. unfold fx_abs, fx_fin.
  assert (P : 0 < 2 ^ (fwidth f - 1)) by (apply Z.pow_pos_nonneg; destruct W; lia).
  rewrite Z.abs_neq by lia. rewrite Z.opp_involutive. destruct m.
  - apply fin_debug_over. change (~ fvalid f (2 ^ (fwidth f - 1))). rewrite fvalid_iff, S. lia.
  - rewrite fin_release by auto using fwf_width. f_equal. apply wrap_unique with (-1).
    + auto using fwf_width.
    + change (fvalid f (- 2 ^ (fwidth f - 1))). rewrite fvalid_iff, S. lia.
    + cbn [iwidth fity]. rewrite (half_le_full (fwidth f)) by (destruct W; lia). lia.
Qed.

Lemma fixed_sign_mul_abs : forall x a s, fvalid f x ->
  mixed_abs (fixed_abs m f) x = Ok a -> mixed_sign (fixed_real m f) x = Ok s ->
  o_mul (fixed_ops m f) s a = Ok x.
Proof.
  intros x a s Hx Ha Hs. rewrite fixed_sign_spec in Hs by auto. inversion Hs; subst s; clear Hs.
  pose proof (fone_pos f (proj1 W)) as P1.
  assert (R : forall b, (if x <? 0 then - fone f else fone f) * b / fone f = (if x <? 0 then - b else b)).
  { intros b. destruct (x <? 0).
    - replace (- fone f * b) with (- b * fone f) by ring. apply Z.div_mul. lia.
    - replace (fone f * b) with (b * fone f) by ring. apply Z.div_mul. lia. }
  simpl. unfold fx_mul. rewrite R. unfold fx_fin.
  destruct (andb (fsigned f) (x =? fmin f)) eqn:D.
  - apply andb_true_iff in D. destruct D as [S D]. apply Z.eqb_eq in D. subst x.
    rewrite fixed_abs_min in Ha by auto. destruct m; inversion Ha; subst a.
    assert (P : 0 < 2 ^ (fwidth f - 1)) by (apply Z.pow_pos_nonneg; destruct W; lia).
    rewrite fin_release by auto using fwf_width. rewrite fmin_signed in * by auto.
    destruct (Z.ltb_spec (- 2 ^ (fwidth f - 1)) 0); [|lia]. f_equal.
    apply wrap_unique with (-1); [auto using fwf_width|exact Hx|].
    cbn [iwidth fity]. rewrite (half_le_full (fwidth f)) by (destruct W; lia). lia.
  - rewrite fixed_abs_spec in Ha; auto.
    + inversion Ha; subst a. replace (if x <? 0 then - Z.abs x else Z.abs x) with x
        by (destruct (Z.ltb_spec x 0); lia).
      apply fin_ok. exact Hx.
    + intros [S ->]. rewrite S, Z.eqb_refl in D. discriminate.
Qed.
End FixSign.

(** ** powers of fixed-point numbers *)
Section FixPow.
Variables (m : mode) (f : fty).
Hypothesis W : fwf f.

Lemma powi_succ : forall a (n : N),
  powi (fixed_ops m f) a (N.succ (N.succ n)) =
  bind (powi (fixed_ops m f) a (N.succ n)) (fun t => fx_mul m f t a).
Proof.
  intros. unfold powi.
  destruct (N.eqb_spec (N.succ (N.succ n)) 0); [lia|].
  destruct (N.eqb_spec (N.succ n) 0); [lia|].
  replace (N.succ (N.succ n) - 1)%N with (N.succ n) by lia.
  replace (N.succ n - 1)%N with n by lia.
  rewrite for_succ. reflexivity.
Qed.
Lemma powi_1 : forall a, powi (fixed_ops m f) a 1 = Ok a.
Proof. reflexivity. Qed.
Lemma powi_0 : forall a, powi (fixed_ops m f) a 0 = Ok (fone f).
Proof. intros. change (fx_of_int m f 1 = Ok (fone f)). rewrite fx_of_int_small by (auto; lia). f_equal; lia. Qed.

Lemma unit_fvalid : forall r, (fsigned f = false -> 0 <= r) -> Z.abs r <= fone f -> fvalid f r.
Proof.
  intros r Hs Hr. apply fvalid_iff.
  pose proof (fone_le_max f W). pose proof (fone_pos f (proj1 W)).
  pose proof (half_le_full (fwidth f) ltac:(destruct W; lia)).
  destruct (fsigned f); [lia|]. specialize (Hs eq_refl). lia.
Qed.

Lemma fixed_powi_unit : forall a (n : N), fvalid f a -> Z.abs a <= fone f -> (1 <= n)%N ->
  exists r, powi (fixed_ops m f) a n = Ok r /\ Z.abs r <= fone f /\ fvalid f r /\
    Z.abs (r * fone f ^ Z.of_N (n - 1) - a ^ Z.of_N n) <= (Z.of_N n - 1) * fone f ^ Z.of_N (n - 1) /\
    (0 <= a -> 0 <= r /\ r * fone f ^ Z.of_N (n - 1) <= a ^ Z.of_N n).
Proof.
  intros a n Ha Hu Hn. replace n with (N.succ (n - 1)) by lia. set (k := (n - 1)%N).
  clearbody k. clear n Hn.
  pose proof (fone_pos f (proj1 W)) as P.
  induction k using N.peano_ind.
  - exists a. rewrite powi_1. cbn -[Z.pow Z.mul fone]. rewrite Z.pow_0_r, Z.pow_1_r.
    split; [auto|split; [auto|split; [auto|]]]. lia.
  - destruct IHk as [r [E [Hr [Vr [B Hp]]]]].
    rewrite powi_succ, E. cbn [bind].
    replace (N.succ (N.succ k) - 1)%N with (N.succ k) by lia.
    replace (N.succ k - 1)%N with k in * by lia.
    set (q := r * a / fone f).
    assert (Q : q * fone f <= r * a < q * fone f + fone f).
    { unfold q. pose proof (Z.div_mod (r * a) (fone f)). pose proof (Z.mod_pos_bound (r * a) (fone f)). lia. }
    assert (RA : Z.abs (r * a) <= fone f * fone f).
    { rewrite Z.abs_mul. apply Z.mul_le_mono_nonneg; lia. }
    assert (Hq : Z.abs q <= fone f) by nia.
    assert (Vq : fvalid f q).
    { apply unit_fvalid; auto. intros S.
      apply fvalid_iff in Ha. rewrite S in Ha. destruct (Hp ltac:(lia)) as [Hp0 _].
      apply Z.div_pos; nia. }
    exists q. split; [apply fx_fin_ok; exact Vq|]. split; [exact Hq|]. split; [exact Vq|].
    rewrite !pow_N_succ in *.
    set (D := fone f ^ Z.of_N k) in *.
    assert (PD : 0 < D) by (apply Z.pow_pos_nonneg; lia).
    set (A := a ^ Z.of_N k * a) in *.
    assert (S1 : q * (D * fone f) - A * a = (q * fone f - r * a) * D + (r * D - A) * a) by ring.
    split.
    + rewrite S1.
      assert (Z.abs ((q * fone f - r * a) * D) <= fone f * D).
      { rewrite Z.abs_mul. rewrite (Z.abs_eq D) by lia. apply Z.mul_le_mono_nonneg_r; lia. }
      assert (Z.abs ((r * D - A) * a) <= (Z.of_N (N.succ k) - 1) * D * fone f).
      { rewrite Z.abs_mul. apply Z.mul_le_mono_nonneg; lia. }
      replace ((Z.of_N (N.succ (N.succ k)) - 1) * (D * fone f))
        with (fone f * D + (Z.of_N (N.succ k) - 1) * D * fone f) by (rewrite !N2Z.inj_succ; ring).
      lia.
    + intros A0. destruct (Hp A0) as [R0 Hle]. split.
      * apply Z.div_pos; nia.
      * assert ((q * fone f - r * a) * D <= 0) by nia.
        assert ((r * D - A) * a <= 0) by nia. lia.
Qed.

(** integer-valued base [k * 2^F] *)
Lemma scaled_pow_in_range : forall c x k n, 1 <= c -> in_range (fity f) c -> 1 <= k <= n ->
  in_range (fity f) (x * c) -> in_range (fity f) (x ^ n * c) -> in_range (fity f) (x ^ k * c).
Proof.
  intros c x k n Hc Rc Hk Hx Hn. pose proof (fwf_width f W) as Hw.
  destruct (Z.eq_dec k n) as [->|N]; auto.
  destruct (Z_le_gt_dec (Z.abs x) 1) as [S|L].
  - assert (x = 0 \/ x = 1 \/ x = -1) as [ -> | [ -> | -> ] ] by lia.
    + rewrite Z.pow_0_l by lia. apply zero_in_range; lia.
    + rewrite Z.pow_1_l by lia. auto.
    + assert (E : (-1) ^ k = 1 \/ (-1) ^ k = -1).
      { destruct (Z.Even_or_Odd k) as [E|O].
        - left. change (-1) with (-(1)). rewrite Z.pow_opp_even by auto. apply Z.pow_1_l. lia.
        - right. change (-1) with (-(1)). rewrite Z.pow_opp_odd by auto. rewrite Z.pow_1_l by lia. reflexivity. }
      destruct E as [-> | ->]; auto. rewrite Z.mul_1_l. auto.
  - assert (A : 2 * Z.abs (x ^ k) <= Z.abs (x ^ n)).
    { rewrite !Z.abs_pow. replace n with (k + (n - k)) by lia. rewrite Z.pow_add_r by lia.
      assert (Z.abs x ^ 1 <= Z.abs x ^ (n - k)) by (apply Z.pow_le_mono_r; lia).
      rewrite Z.pow_1_r in H.
      assert (0 < Z.abs x ^ k) by (apply Z.pow_pos_nonneg; lia). nia. }
    assert (A' : 2 * Z.abs (x ^ k * c) <= Z.abs (x ^ n * c)).
    { rewrite !Z.abs_mul, (Z.abs_eq c) by lia. nia. }
    unfold in_range, imin, imax in *. destruct (isigned (fity f)) eqn:Sg.
    + assert (0 < 2 ^ (iwidth (fity f) - 1)) by (apply Z.pow_pos_nonneg; lia). lia.
    + assert (0 <= x) by nia. assert (0 <= x ^ k) by (apply Z.pow_nonneg; lia).
      assert (0 <= x ^ k * c) by nia. lia.
Qed.

Lemma fixed_powi_int : forall k (n : N), fvalid f (k * fone f) ->
  powi (fixed_ops m f) (k * fone f) n = fx_fin m f (k ^ Z.of_N n * fone f).
Proof.
  intros k n Hk. pose proof (fone_pos f (proj1 W)) as P.
  destruct (N.eq_dec n 0) as [->|Hn].
  - rewrite powi_0. change (Z.of_N 0) with 0. rewrite Z.pow_0_r, Z.mul_1_l.
    symmetry. apply fx_fin_ok, unit_fvalid; lia.
  - replace n with (N.succ (n - 1)) by lia. set (j := (n - 1)%N). clearbody j. clear n Hn.
    induction j using N.peano_ind.
    + change (Z.of_N (N.succ 0)) with 1. rewrite Z.pow_1_r. rewrite powi_1. symmetry. apply fx_fin_ok; auto.
    + rewrite powi_succ, IHj. rewrite (pow_N_succ k (N.succ j)).
      set (y := k ^ Z.of_N (N.succ j)) in *.
      assert (E : y * k * fone f = (y * fone f) * (k * fone f) / fone f).
      { replace (y * fone f * (k * fone f)) with (y * k * fone f * fone f) by ring.
        rewrite Z.div_mul by lia. reflexivity. }
      destruct m.
      * unfold fx_fin at 1. destruct (in_rangeb (fity f) (y * fone f)) eqn:R.
        -- apply in_rangeb_spec in R. rewrite fin_ok by auto. cbn [bind]. unfold fx_mul. rewrite E. reflexivity.
        -- apply in_rangeb_false in R. rewrite fin_debug_over by auto. cbn [bind].
           symmetry. apply fin_debug_over. intros R'. apply R. unfold y.
           apply scaled_pow_in_range with (Z.of_N (N.succ (N.succ j))); auto; try lia.
           ++ apply unit_fvalid; lia.
           ++ rewrite pow_N_succ. fold y. auto.
      * unfold fx_fin. rewrite !fin_release by auto using fwf_width. cbn [bind].
        unfold fx_mul, fx_fin. rewrite fin_release by auto using fwf_width. f_equal.
        replace (wrap (fity f) (y * fone f) * (k * fone f) / fone f) with (wrap (fity f) (y * fone f) * k).
        -- rewrite wrap_mul_l by auto using fwf_width. f_equal. ring.
        -- replace (wrap (fity f) (y * fone f) * (k * fone f)) with (wrap (fity f) (y * fone f) * k * fone f) by ring.
           rewrite Z.div_mul by lia. reflexivity.
Qed.

(** a large exponent flushes every value in [0,1) to zero *)
Lemma fixed_powi_flush : forall a (n : N), 0 <= a < fone f -> (Z.to_N (fone f) <= n)%N ->
  powi (fixed_ops m f) a n = Ok 0.
Proof.
  intros a n Ha Hn. pose proof (fone_pos f (proj1 W)) as P.
  assert (K : forall k : N, exists r, powi (fixed_ops m f) a (N.succ k) = Ok r /\ 0 <= r <= Z.max 0 (fone f - 1 - Z.of_N k)).
  { induction k using N.peano_ind.
    - exists a. rewrite powi_1. split; auto. lia.
    - destruct IHk as [r [E Hr]]. rewrite powi_succ, E. cbn [bind].
      set (q := r * a / fone f).
      assert (Q : q * fone f <= r * a < q * fone f + fone f).
      { unfold q. pose proof (Z.div_mod (r * a) (fone f)). pose proof (Z.mod_pos_bound (r * a) (fone f)). lia. }
      assert (0 <= q) by (apply Z.div_pos; nia).
      assert (q < r \/ (q = 0 /\ r = 0)) by nia.
      exists q. split.
      + apply fx_fin_ok, unit_fvalid; lia.
      + lia. }
  destruct (N.eq_dec n 0) as [->|Hn0]; [lia|].
  replace n with (N.succ (n - 1)) by lia. destruct (K (n - 1)%N) as [r [E Hr]].
  rewrite E. f_equal. lia.
Qed.
End FixPow.
