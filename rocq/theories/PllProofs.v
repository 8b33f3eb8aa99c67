(** * Proofs for phase-locked loops. *)

From Coq Require Import ZArith Reals Lia Lra Psatz List Arith.
From Flocq Require Import Core.Core.
From Verif Require Import Base FloatBase Traits FixedPrim FixedImpl Spec SpecPll Lemmas ScalarProofs WrapProofs PhaseAcc.
Import ListNotations.
Open Scope Z_scope.

Section Loop.
Variables (m : mode) (f : fty).
Hypothesis S : supported f = true.
Hypothesis SG : fsigned f = true.
Hypothesis R4 : ffrac f <= fwidth f - 4.
Notation p := (pi_bits f).
Notation q := (fone f).
Notation wrp fuel := (mixed_wrap_phase (fixed_wrap_phase m f fuel)).

Lemma WF : fwf f. Proof using S. apply supported_fwf. exact S. Qed.
Lemma room8 : 8 * q <= 2 ^ (fwidth f - 1).
Proof using S R4.
  destruct (supported_inv f S) as [_ F]. change 8 with (2 ^ 3). unfold fone. rewrite <- Z.pow_add_r by lia. apply Z.pow_le_mono_r; lia.
Qed.
Lemma valid2 : forall x, - (2 * p) <= x < 2 * p -> fvalid f x.
Proof using S SG R4.
  intros x H. apply fvalid_iff. rewrite SG. pose proof room8. pose proof (pi_bits_bounds f WF). lia.
Qed.
Lemma wrapZ : forall x, fvalid f x -> exists r k, returns (fun fuel => wrp fuel x) r /\ - p <= r < p /\ x = r + k * (2 * p).
Proof using S SG R4.
  intros x V. destruct (wrap_phase_fixed m f WF SG (or_intror R4) x V) as (r & H1 & H2 & k & H3). exists r, k. split; [exact H1|]. split; [exact H2|]. lia.
Qed.

Variable k : Z.
Hypothesis K : 0 < k <= q.
(** the correction is between zero and the error *)
Lemma corr : forall e, let c := k * e / q in (0 <= e -> 0 <= c <= e) /\ (e < 0 -> e <= c < 0).
Proof using K S.
  intros e c. pose proof (fone_pos f (proj1 WF)) as Q. unfold c. split; intros H; split.
  - apply Z.div_pos; nia.
  - apply Z.div_le_upper_bound; nia.
  - apply Z.div_le_lower_bound; nia.
  - apply Z.div_lt_upper_bound; nia.
Qed.
Variable s : Z.
Hypothesis SL : 0 <= s /\ (s + 1) * q <= k * p.
Lemma no_slip : forall e d, - p <= e < p -> Z.abs d <= s -> - p <= e - k * e / q + d < p.
Proof using K S SL.
  intros e d E D. pose proof (fone_pos f (proj1 WF)) as Q. pose proof (pi_bits_bounds f WF) as P. destruct (corr e) as [C1 C2]. cbv zeta in C1, C2.
  pose proof (Z.div_mod (k * e) q ltac:(lia)) as DM. pose proof (Z.mod_pos_bound (k * e) q Q) as MB. set (c := k * e / q) in *. set (r := (k * e) mod q) in *. clearbody c r.
  assert (SP : s < p) by nia.
  destruct (Z_lt_le_dec e 0) as [N|N].
  - specialize (C2 N). clear C1. split; [|lia]. 
    assert (X : q * (- p) <= q * (e - c - s)). { assert (q * (e - c) >= q * e - k * e) by nia. assert ((q - k) * (- p) <= (q - k) * e) by nia. nia. }
    assert (- p <= e - c - s) by nia. lia.
  - specialize (C1 N). clear C2. split; [lia|].
    assert (X : q * (e - c + s) < q * p). { assert (q * (e - c) < q * e - k * e + q) by nia. assert ((q - k) * e <= (q - k) * p) by nia. nia. }
    assert (e - c + s < p) by nia. lia.
Qed.

Lemma loop : forall l t phi, - p <= phi < p -> - p <= t < p -> turning p s t l ->
  exists es, returns (fun fuel => pll (fixed_ops m f) (wrp fuel) k phi (t :: l)) es /\ length es = Datatypes.S (length l) /\ (forall i, (i < length es)%nat -> - p <= nth i es 0 < p) /\
  (forall i, (Datatypes.S i < length es)%nat -> exists d, Z.abs d <= s /\ nth (Datatypes.S i) es 0 = nth i es 0 - k * nth i es 0 / q + d) /\
  (exists j, nth 0 es 0 = t - phi + j * (2 * p)).
Proof using S SG R4 K SL.
  pose proof (fone_pos f (proj1 WF)) as Q. pose proof (pi_bits_bounds f WF) as PB.
  assert (ST : forall t phi l, - p <= phi < p -> - p <= t < p -> exists e phi' n0, - p <= e < p /\ (exists j, e = t - phi + j * (2 * p)) /\ - p <= phi' < p /\
    (exists j, phi' = phi + k * e / q + j * (2 * p)) /\
    forall n, (n0 <= n)%nat -> pll (fixed_ops m f) (wrp n) k phi (t :: l) = (r <- pll (fixed_ops m f) (wrp n) k phi' l ;; Ok (e :: r))).
  { intros t phi l HP Ht. destruct (wrapZ (t - phi)) as (e & j & [n2 We] & Be & Ee); [apply valid2; lia|].
    destruct (corr e) as [C1 C2]. cbv zeta in C1, C2. set (c := k * e / q) in *.
    destruct (wrapZ (phi + c)) as (phi' & j' & [n3 Wp] & Bp & Ep); [apply valid2; lia|].
    exists e, phi', (n2 + n3)%nat. split; [exact Be|]. split; [exists (- j); lia|]. split; [exact Bp|]. split; [exists (- j'); lia|]. intros n Hn.
    cbn [pll]. change (o_sub (fixed_ops m f) t phi) with (fx_fin m f (t - phi)). rewrite fx_fin_ok by (apply valid2; lia). cbn [bind].
    rewrite We by lia. cbn [bind]. change (o_mul (fixed_ops m f) k e) with (fx_fin m f c). rewrite fx_fin_ok by (apply valid2; lia). cbn [bind].
    change (o_add (fixed_ops m f) phi c) with (fx_fin m f (phi + c)). rewrite fx_fin_ok by (apply valid2; lia). cbn [bind]. rewrite Wp by lia. reflexivity. }
  induction l as [|t1 l IH]; intros t phi HP Ht HM.
  - destruct (ST t phi [] HP Ht) as (e & phi' & n0 & Be & Ee & _ & _ & R). exists [e].
    split; [exists n0; intros n Hn; rewrite R by exact Hn; reflexivity|]. split; [reflexivity|]. split; [intros [|i] Hi; [exact Be|cbn in Hi; lia]|]. split; [cbn; lia|exact Ee].
  - destruct HM as (Ht1 & (d & u & Hd & Ds) & HM). destruct (ST t phi (t1 :: l) HP Ht) as (e & phi' & n0 & Be & [j Ee] & Bp & [j' Ep] & R).
    destruct (IH t1 phi' Bp Ht1 HM) as (es & [n1 R1] & L & B & N & [j1 H0]).
    exists (e :: es). split; [exists (n0 + n1)%nat; intros n Hn; rewrite R by lia; rewrite R1 by lia; reflexivity|].
    split; [cbn [length]; congruence|]. split; [intros [|i] Hi; [exact Be|apply B; cbn [length] in Hi; lia]|]. split; [|exists j; exact Ee].
    intros [|i] Hi; [|apply N; cbn [length] in Hi; lia]. exists d. split; [exact Ds|]. cbn [nth].
    pose proof (no_slip e d Be Ds) as NS. pose proof (B 0%nat ltac:(lia)) as B0. set (c := k * e / q) in *. clearbody c.
    assert (X : nth 0 es 0 - (e - c + d) = (j1 + u - j - j') * (2 * p)) by lia.
    assert (j1 + u - j - j' = 0) by nia. lia.
Qed.
End Loop.

(** ** What the recurrence says *)
Lemma step_abs : forall k q e d s, 0 < k <= q -> Z.abs d <= s -> Z.abs (e - k * e / q + d) * q <= (q - k) * Z.abs e + (1 + s) * q.
Proof.
  intros k q e d s K D. pose proof (Z.div_mod (k * e) q ltac:(lia)) as DM. pose proof (Z.mod_pos_bound (k * e) q ltac:(lia)) as MB.
  set (c := k * e / q) in *. set (r := (k * e) mod q) in *. clearbody c r.
  assert (X : Z.abs (e - c) * q <= (q - k) * Z.abs e + q).
  { rewrite <- (Z.abs_eq q) at 1 by lia. rewrite <- Z.abs_mul. replace ((e - c) * q) with ((q - k) * e + r) by nia.
    rewrite <- (Z.abs_eq (q - k)) by lia. rewrite <- Z.abs_mul. lia. }
  assert (Z.abs (e - c + d) <= Z.abs (e - c) + s) by lia. nia.
Qed.
Lemma geom : forall k q s (e : nat -> Z) n, 0 < k <= q -> 0 <= s ->
  (forall i, (S i < n)%nat -> exists d, Z.abs d <= s /\ e (S i) = e i - k * e i / q + d) ->
  forall i, (i < n)%nat -> (IZR (Z.abs (e i)) <= (1 - IZR k / IZR q) ^ i * IZR (Z.abs (e 0%nat)) + IZR (1 + s) * IZR q / IZR k)%R.
Proof.
  intros k q s e n K S0 H. assert (KR : (0 < IZR k)%R) by (apply IZR_lt; lia). assert (QR : (0 < IZR q)%R) by (apply IZR_lt; lia). assert (KQ : (IZR k <= IZR q)%R) by (apply IZR_le; lia).
  assert (SR : (1 <= IZR (1 + s))%R) by (apply IZR_le; lia).
  set (g := (1 - IZR k / IZR q)%R).
  assert (G0 : (0 <= g)%R). { unfold g. enough (IZR k / IZR q <= 1)%R by lra. apply Rmult_le_reg_r with (IZR q); [exact QR|]. unfold Rdiv. rewrite Rmult_assoc, Rinv_l; lra. }
  set (L := (IZR (1 + s) * IZR q / IZR k)%R).
  assert (GL : (g * L + IZR (1 + s) = L)%R). { unfold g, L. field. split; lra. }
  assert (L0 : (0 <= L)%R). { unfold L, Rdiv. apply Rmult_le_pos; [apply Rmult_le_pos; lra|]. left. apply Rinv_0_lt_compat. exact KR. }
  induction i as [|i IH]; intros Hi; [cbn [pow]; lra|]. specialize (IH ltac:(lia)). destruct (H i Hi) as (d & D & ->).
  pose proof (step_abs k q (e i) d s K D) as X. apply IZR_le in X. rewrite plus_IZR, !mult_IZR, minus_IZR in X.
  set (a := IZR (Z.abs (e i - k * e i / q + d))) in *. set (b := IZR (Z.abs (e i))) in *. clearbody a b.
  assert (Y : (a <= g * b + IZR (1 + s))%R).
  { apply Rmult_le_reg_r with (IZR q); [exact QR|]. replace ((g * b + IZR (1 + s)) * IZR q)%R with ((IZR q - IZR k) * b + IZR (1 + s) * IZR q)%R; [exact X|]. unfold g. field. lra. }
  cbn [pow]. assert ((g * b <= g * (g ^ i * IZR (Z.abs (e 0%nat)) + L))%R) by (apply Rmult_le_compat_l; assumption). nra.
Qed.
Lemma lock : forall k q (e : nat -> Z) n, 0 < k <= q ->
  (forall i, (S i < n)%nat -> e (S i) = e i - k * e i / q) ->
  forall i, (i < n)%nat -> Z.abs (e 0%nat) <= Z.of_nat i -> 0 <= e i /\ k * e i < q.
Proof.
  intros k q e n K H.
  assert (ST : forall i, (i < n)%nat -> (0 <= e i /\ k * e i < q) \/ Z.abs (e i) + Z.of_nat i <= Z.abs (e 0%nat)).
  { induction i as [|i IH]; intros Hi; [right; lia|]. rewrite (H i Hi).
    pose proof (Z.div_mod (k * e i) q ltac:(lia)) as DM. pose proof (Z.mod_pos_bound (k * e i) q ltac:(lia)) as MB. set (c := k * e i / q) in *. set (r := (k * e i) mod q) in *. clearbody c r.
    destruct (IH ltac:(lia)) as [[A B]|A].
    - left. assert (c = 0) by nia. subst c. rewrite Z.sub_0_r. split; assumption.
    - destruct (Z_lt_le_dec (e i) 0) as [N|N].
      + right. assert (e i <= c < 0) by nia. lia.
      + destruct (Z_lt_le_dec (k * e i) q) as [M|M].
        * left. assert (c = 0) by nia. subst c. lia.
        * right. assert (1 <= c <= e i) by nia. lia. }
  intros i Hi Hb. destruct (ST i Hi) as [A|A]; [exact A|]. assert (e i = 0) by lia. rewrite H0. lia.
Qed.
Lemma lock_stays : forall k q (e : nat -> Z) n, 0 < k <= q -> (forall i, (S i < n)%nat -> e (S i) = e i - k * e i / q) ->
  forall i j, (i <= j < n)%nat -> 0 <= e i -> k * e i < q -> e j = e i.
Proof.
  intros k q e n K H i j Hj A B. destruct Hj as [Hj Hn]. induction Hj as [|j Hj IH]; [reflexivity|]. rewrite H by lia. rewrite IH by lia. rewrite Z.div_small by lia. lia.
Qed.

(** ** Together *)
Lemma pll_tracks : forall m f, supported f = true -> fsigned f = true -> ffrac f <= fwidth f - 4 -> exists p, mixed_pi (fixed_pi m f) = Ok p /\
  forall gain s phi t l, 0 < gain <= fone f -> 0 <= s -> (s + 1) * fone f <= gain * p -> - p <= phi < p -> - p <= t < p -> turning p s t l ->
  exists es, returns (fun fuel => pll (fixed_ops m f) (mixed_wrap_phase (fixed_wrap_phase m f fuel)) gain phi (t :: l)) es /\ length es = S (length l) /\
  (exists j, nth 0 es 0 = t - phi + j * (2 * p)) /\
  forall i, (i < length es)%nat -> - p <= nth i es 0 < p /\
  (Rabs (fval f (nth i es 0%Z)) <= (1 - fval f gain) ^ i * Rabs (fval f (nth 0 es 0%Z)) + (fval f s + ulp f) / fval f gain)%R.
Proof.
  intros m f S SG R4. pose proof (supported_fwf f S) as W. exists (pi_bits f). split; [apply fixed_pi_eq; exact W|].
  intros k s phi t l K S0 SK HP HT HM. destruct (loop m f S SG R4 k K s (conj S0 SK) l t phi HP HT HM) as (es & R & L & B & N & H0).
  exists es. split; [exact R|]. split; [exact L|]. split; [exact H0|]. intros i Hi. split; [apply B; exact Hi|].
  pose proof (geom k (fone f) s (fun i => nth i es 0) (length es) K S0 N i Hi) as G. cbv beta in G.
  pose proof (fone_pos f (proj1 W)) as Q. apply IZR_lt in Q. assert (KR : (0 < IZR k)%R) by (apply IZR_lt; lia).
  assert (U : (ulp f = / IZR (fone f))%R). { unfold ulp. rewrite bpow_opp. f_equal. unfold fone. symmetry. apply (IZR_Zpower radix2). apply W. }
  unfold fval. fold (ulp f). rewrite !Rabs_mult, <- !abs_IZR, U. rewrite (Rabs_pos_eq (/ IZR (fone f))) by (left; apply Rinv_0_lt_compat; exact Q).
  rewrite plus_IZR in G. change (IZR k * / IZR (fone f))%R with (IZR k / IZR (fone f))%R.
  set (g := ((1 - IZR k / IZR (fone f)) ^ i)%R) in *.
  replace (g * (IZR (Z.abs (nth 0 es 0%Z)) * / IZR (fone f)) + (IZR s * / IZR (fone f) + / IZR (fone f)) / (IZR k / IZR (fone f)))%R
    with ((g * IZR (Z.abs (nth 0 es 0%Z)) + (1 + IZR s) * IZR (fone f) / IZR k) * / IZR (fone f))%R by (field; split; lra).
  apply Rmult_le_compat_r; [left; apply Rinv_0_lt_compat; exact Q|exact G].
Qed.
Lemma turning_const : forall p t n, - p <= t < p -> turning p 0 t (repeat t n).
Proof. intros p t n H. induction n as [|n IH]; [exact I|]. cbn [repeat turning]. split; [exact H|]. split; [exists 0, 0; split; lia|exact IH]. Qed.
Lemma pll_locks : forall m f, supported f = true -> fsigned f = true -> ffrac f <= fwidth f - 4 -> exists p, mixed_pi (fixed_pi m f) = Ok p /\
  forall gain phi t n, 0 < gain <= fone f -> - p <= phi < p -> - p <= t < p ->
  exists es, returns (fun fuel => pll (fixed_ops m f) (mixed_wrap_phase (fixed_wrap_phase m f fuel)) gain phi (repeat t (S n))) es /\ length es = S n /\
  (exists j, nth 0 es 0 = t - phi + j * (2 * p)) /\
  (forall i, (i < n)%nat -> nth (S i) es 0 = nth i es 0 - gain * nth i es 0 / fone f) /\
  forall i, (i <= n)%nat -> Z.abs (nth 0 es 0) <= Z.of_nat i -> 0 <= nth i es 0 /\ gain * nth i es 0 < fone f /\ forall j, (i <= j <= n)%nat -> nth j es 0 = nth i es 0.
Proof.
  intros m f S SG R4. pose proof (supported_fwf f S) as W. exists (pi_bits f). split; [apply fixed_pi_eq; exact W|].
  intros k phi t n K HP HT. pose proof (pi_bits_bounds f W) as PB. pose proof (fone_pos f (proj1 W)) as Q.
  assert (SK : (0 + 1) * fone f <= k * pi_bits f) by nia.
  destruct (loop m f S SG R4 k K 0 (conj (Z.le_refl 0) SK) (repeat t n) t phi HP HT (turning_const _ _ _ HT)) as (es & R & L & B & N & H0).
  rewrite repeat_length in L. exists es. split; [exact R|]. split; [exact L|]. split; [exact H0|].
  assert (N' : forall i, (Datatypes.S i < Datatypes.S n)%nat -> nth (Datatypes.S i) es 0 = nth i es 0 - k * nth i es 0 / fone f).
  { intros i Hi. destruct (N i ltac:(lia)) as (d & D & E). assert (d = 0) by lia. subst d. lia. }
  split; [intros i Hi; apply N'; lia|]. intros i Hi HB. 
  destruct (lock k (fone f) (fun i => nth i es 0) (Datatypes.S n) K N' i ltac:(lia) HB) as [A1 A2]. split; [exact A1|]. split; [exact A2|]. intros j Hj.
  apply (lock_stays k (fone f) (fun i => nth i es 0) (Datatypes.S n) K N' i j); [lia|exact A1|exact A2].
Qed.
