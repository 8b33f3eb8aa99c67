(** * Proofs: the fast Fourier transform. *)

From Coq Require Import ZArith Reals Lia Lra Psatz Bool List Arith.
From Flocq Require Import Core.Core IEEE754.BinarySingleNaN.
From Verif Require Import Base FloatBase Literals Traits Trig IntImpl FixedPrim FixedImpl FloatImpl Complex Spec SpecFilter SpecRotor SpecFourier SpecFft
  Lemmas FloatLemmas FloatKit ScalarProofs ScalarProofs2 FilterProofs FloatArith FloatFilter RotorProofs FourierProofs.
Import ListNotations.

(** ** sums *)
Section Real.
Open Scope R_scope.
Lemma ceq : forall z w : R * R, fst z = fst w -> snd z = snd w -> z = w.
Proof. intros [a b] [c d] H1 H2. cbn in *. subst. reflexivity. Qed.
Ltac cring := apply ceq; unfold cadd, csub, cmul; cbn [fst snd]; ring.
Lemma csumf_ext : forall n f g, (forall i, (i < n)%nat -> f i = g i) -> csumf n f = csumf n g.
Proof. induction n; intros f g H; cbn [csumf]; auto. rewrite (IHn f g), (H n); auto. Qed.
Lemma csumf_add : forall n f g, csumf n (fun i => cadd (f i) (g i)) = cadd (csumf n f) (csumf n g).
Proof. induction n; intros f g; cbn [csumf]; [cring|]. rewrite IHn. cring. Qed.
Lemma csumf_mul : forall n c f, csumf n (fun i => cmul c (f i)) = cmul c (csumf n f).
Proof. induction n; intros c f; cbn [csumf]; [cring|]. rewrite IHn. cring. Qed.
Lemma csumf_sub : forall n f g, csumf n (fun i => csub (f i) (g i)) = csub (csumf n f) (csumf n g).
Proof. induction n; intros f g; cbn [csumf]; [cring|]. rewrite IHn. cring. Qed.
Lemma csumf_zero : forall n, csumf n (fun _ => (0, 0)) = (0, 0).
Proof. induction n; cbn [csumf]; auto. rewrite IHn. cring. Qed.
Lemma csumf_swap : forall n m (f : nat -> nat -> R * R), csumf n (fun i => csumf m (fun j => f i j)) = csumf m (fun j => csumf n (fun i => f i j)).
Proof.
  induction n; intros m f; cbn [csumf]; [rewrite csumf_zero; reflexivity|]. rewrite IHn, <- csumf_add. reflexivity.
Qed.
Lemma csumf_bound : forall n f B, (forall i, (i < n)%nat -> cabs (f i) <= B) -> cabs (csumf n f) <= INR n * B.
Proof.
  induction n; intros f B H; cbn [csumf].
  - rewrite cabs0. cbn. lra.
  - rewrite S_INR. eapply Rle_trans; [apply cabs_cadd|]. pose proof (IHn f B ltac:(intros; apply H; lia)). pose proof (H n ltac:(lia)). lra.
Qed.
Lemma csumf_pairs : forall n f, csumf (2 * n) f = cadd (csumf n (fun i => f (2 * i)%nat)) (csumf n (fun i => f (2 * i + 1)%nat)).
Proof.
  induction n; intros f; [cbn; unfold cadd; cbn; f_equal; ring|]. replace (2 * S n)%nat with (S (S (2 * n))) by lia. cbn [csumf]. rewrite IHn.
  replace (S (2 * n)) with (2 * n + 1)%nat by lia. cring.
Qed.

Lemma evens_nth : forall A (d : A) i xs, nth i (evens xs) d = nth (2 * i) xs d.
Proof.
  intros A d. induction i; intros [|x [|y r]]; cbn [evens]; try reflexivity.
  - rewrite !nth_overflow; cbn [length]; auto; lia.
  - replace (2 * S i)%nat with (S (S (2 * i))) by lia. cbn [nth]. apply IHi.
Qed.
Lemma odds_nth : forall A (d : A) i xs, nth i (odds xs) d = nth (2 * i + 1) xs d.
Proof.
  intros A d. induction i; intros [|x [|y r]]; cbn [odds]; try reflexivity.
  - rewrite !nth_overflow; cbn [length]; auto; lia.
  - replace (2 * S i + 1)%nat with (S (S (2 * i + 1))) by lia. cbn [nth]. apply IHi.
Qed.
Lemma evens_length : forall A n (xs : list A), length xs = (2 * n)%nat -> length (evens xs) = n /\ length (odds xs) = n.
Proof.
  intros A. induction n; intros xs H.
  - destruct xs; [auto|discriminate].
  - destruct xs as [|x [|y r]]; cbn in H; try lia. cbn [evens odds length]. destruct (IHn r ltac:(lia)). lia.
Qed.
Lemma halves_in : forall A n (xs : list A), length xs = (2 * n)%nat -> forall x, In x (evens xs) \/ In x (odds xs) -> In x xs.
Proof.
  intros A. induction n; intros xs H x.
  - destruct xs; [cbn; tauto|discriminate].
  - destruct xs as [|a [|b r]]; cbn in H; try lia. cbn [evens odds In]. pose proof (IHn r ltac:(lia) x). tauto.
Qed.
Lemma evens_map : forall A B (f : A -> B) n xs, length xs = (2 * n)%nat -> evens (map f xs) = map f (evens xs) /\ odds (map f xs) = map f (odds xs).
Proof.
  intros A B f. induction n; intros xs H.
  - destruct xs; [auto|discriminate].
  - destruct xs as [|x [|y r]]; cbn in H; try lia. cbn [evens odds map]. destruct (IHn r ltac:(lia)) as [-> ->]. auto.
Qed.

(** ** the transform *)
Lemma cis_turn : forall a m, cis (a + 2 * PI * INR m) = cis a.
Proof.
  intros a m. replace (2 * PI * INR m) with (2 * INR m * PI) by ring. unfold cis. rewrite cos_period, sin_period. reflexivity.
Qed.
Lemma cis_turns : forall a s m, s = 1 \/ s = -1 -> cis (a + s * (2 * PI) * INR m) = cis a.
Proof.
  intros a s m [-> | ->].
  - rewrite <- (cis_turn a m). f_equal. ring.
  - rewrite <- (cis_turn (a + -1 * (2 * PI) * INR m) m). f_equal. ring.
Qed.
Lemma cis_half : forall a s, s = 1 \/ s = -1 -> cis (a + s * PI) = (- fst (cis a), - snd (cis a)).
Proof.
  intros a s [-> | ->]; unfold cis; cbn [fst snd].
  - rewrite Rmult_1_l, neg_cos, neg_sin. reflexivity.
  - replace (a + -1 * PI) with (a - PI) by ring. rewrite cos_minus, sin_minus, cos_PI, sin_PI. f_equal; ring.
Qed.

Lemma INR_pos : forall n, (0 < n)%nat -> 0 < INR n.
Proof. intros. apply lt_0_INR. auto. Qed.

Lemma dft_split : forall s n xs j, (0 < n)%nat ->
  dft s (2 * n) xs j = cadd (dft s n (evens xs) j) (cmul (cis (s * (2 * PI) * INR j / INR (2 * n))) (dft s n (odds xs) j)).
Proof.
  intros s n xs j N. unfold dft. rewrite csumf_pairs, <- csumf_mul. pose proof (INR_pos n N) as P.
  f_equal; apply csumf_ext; intros i Hi.
  - rewrite evens_nth. f_equal. f_equal. rewrite !mult_INR. replace (INR 2) with 2 by (cbn; lra). field. lra.
  - rewrite odds_nth.
    replace (cmul (cis (s * (2 * PI) * INR j / INR (2 * n))) (cmul (nth (2 * i + 1) xs (0, 0)) (cis (s * (2 * PI) * INR i * INR j / INR n)))) with
      (cmul (nth (2 * i + 1) xs (0, 0)) (cmul (cis (s * (2 * PI) * INR j / INR (2 * n))) (cis (s * (2 * PI) * INR i * INR j / INR n)))) by cring.
    rewrite cis_add. f_equal. f_equal. rewrite plus_INR, !mult_INR. replace (INR 2) with 2 by (cbn; lra). cbn [INR]. field. lra.
Qed.
Lemma dft_period : forall s n xs j, s = 1 \/ s = -1 -> (0 < n)%nat -> dft s n xs (j + n) = dft s n xs j.
Proof.
  intros s n xs j S N. unfold dft. apply csumf_ext. intros i Hi. f_equal. rewrite <- (cis_turns (s * (2 * PI) * INR i * INR j / INR n) s i S).
  f_equal. rewrite plus_INR. field. apply Rgt_not_eq, INR_pos; auto.
Qed.
(** lower half *)
Lemma dft_split_low : forall s n xs j, s = 1 \/ s = -1 -> (0 < n)%nat ->
  dft s (2 * n) xs (n + j) = csub (dft s n (evens xs) j) (cmul (cis (s * (2 * PI) * INR j / INR (2 * n))) (dft s n (odds xs) j)).
Proof.
  intros s n xs j S N. rewrite dft_split by auto. rewrite (Nat.add_comm n j), !dft_period by auto.
  replace (s * (2 * PI) * INR (j + n) / INR (2 * n)) with (s * (2 * PI) * INR j / INR (2 * n) + s * PI).
  - rewrite cis_half by auto. cring.
  - rewrite plus_INR, mult_INR. replace (INR 2) with 2 by (cbn; lra). field. apply Rgt_not_eq, INR_pos; auto.
Qed.
Lemma dft_bound : forall s n xs j B, 0 <= B -> (forall x, In x xs -> cabs x <= B) -> cabs (dft s n xs j) <= INR n * B.
Proof.
  intros s n xs j B B0 H. unfold dft. apply csumf_bound. intros i Hi. rewrite cabs_cmul, cis_abs, Rmult_1_r.
  destruct (nth_in_or_default i xs (0, 0)) as [I|E]; [auto|]. rewrite E, cabs0. auto.
Qed.
Lemma dft_one : forall s x j, dft s 1 [x] j = x.
Proof.
  intros s x j. unfold dft. cbn [csumf nth INR]. replace (s * (2 * PI) * 0 * INR j / 1) with 0 by field. unfold cis. rewrite cos_0, sin_0. cring.
Qed.
End Real.

(** ** any arithmetic with accurate butterflies *)
Section Any.
Context {T : Type} (P : MixedOps T).
Variables (val : Cartesian T -> R * R) (ok : Cartesian T -> Prop).
Variables c g d Bmax s : R.
Hypothesis C0 : (0 <= c)%R.
Hypothesis G0 : (0 <= g)%R.
Hypothesis S1 : (s = 1 \/ s = -1)%R.
Hypothesis BF : forall w e o W A, ok w -> ok e -> ok o -> cabs W = 1%R -> (cabs (csub (val w) W) <= d)%R ->
  (cabs (val e) <= A)%R -> (cabs (val o) <= A)%R -> ((2 + c) * A + g <= Bmax)%R ->
  exists t h l, cartesian_mul P w o = Ok t /\ cartesian_add P e t = Ok h /\ cartesian_sub P e t = Ok l /\ ok h /\ ok l /\
  (cabs (csub (val h) (cadd (val e) (cmul W (val o)))) <= c * A + g)%R /\ (cabs (csub (val l) (csub (val e) (cmul W (val o)))) <= c * A + g)%R.

Definition good (e : R) (f : nat -> R * R) (ys : list (Cartesian T)) : Prop :=
  forall j y, nth_error ys j = Some y -> ok y /\ (cabs (csub (val y) (f j)) <= e)%R.

Lemma good_tail : forall e f y ys, good e f (y :: ys) -> good e (fun i => f (S i)) ys.
Proof. intros e f y ys H j z E. apply (H (S j) z). exact E. Qed.

Lemma butterflies_ok : forall n ws es os W E O m err, length ws = n -> length es = n -> length os = n ->
  (forall i w, nth_error ws i = Some w -> ok w /\ (cabs (csub (val w) (W i)) <= d)%R) -> (forall i, cabs (W i) = 1%R) ->
  good err E es -> good err O os -> (forall i, (cabs (E i) <= m)%R) -> (forall i, (cabs (O i) <= m)%R) -> ((2 + c) * (m + err) + g <= Bmax)%R ->
  exists hs ls, butterflies P ws es os = Ok (hs, ls) /\ length hs = n /\ length ls = n /\
  good (2 * err + c * (m + err) + g) (fun i => cadd (E i) (cmul (W i) (O i))) hs /\
  good (2 * err + c * (m + err) + g) (fun i => csub (E i) (cmul (W i) (O i))) ls.
Proof.
  induction n; intros ws es os W E O m err L1 L2 L3 HW W1 HE HO ME MO BM.
  - destruct ws, es, os; try discriminate. exists [], []. split; [reflexivity|]. split; [reflexivity|]. split; [reflexivity|]. split; intros [|j] y H; discriminate.
  - destruct ws as [|w ws], es as [|e es], os as [|o os]; try discriminate. cbn [length] in *.
    destruct (HW 0%nat w eq_refl) as [Ow Nw]. destruct (HE 0%nat e eq_refl) as [Oe Ne]. destruct (HO 0%nat o eq_refl) as [Oo No].
    assert (Ae : (cabs (val e) <= m + err)%R). { pose proof (cabs_via (val e) (E 0%nat)). pose proof (ME 0%nat). lra. }
    assert (Ao : (cabs (val o) <= m + err)%R). { pose proof (cabs_via (val o) (O 0%nat)). pose proof (MO 0%nat). lra. }
    destruct (BF w e o (W 0%nat) (m + err) Ow Oe Oo (W1 0%nat) Nw Ae Ao BM) as (t & h & l & E1 & E2 & E3 & Oh & Ol & Nh & Nl).
    destruct (IHn ws es os (fun i => W (S i)) (fun i => E (S i)) (fun i => O (S i)) m err) as (hs & ls & R & Lh & Ll & Gh & Gl);
      [lia|lia|lia|intros i v H; apply (HW (S i) v); exact H|intros; apply W1|apply (good_tail _ _ e); exact HE|apply (good_tail _ _ o); exact HO|intros; apply ME|intros; apply MO|exact BM|].
    exists (h :: hs), (l :: ls). cbn [butterflies]. rewrite E1. cbn [bind]. rewrite E2. cbn [bind]. rewrite E3. cbn [bind]. rewrite R. cbn [bind fst snd].
    split; [reflexivity|]. split; [cbn; lia|]. split; [cbn; lia|].
    assert (WO : (cabs (csub (cmul (W 0%nat) (val o)) (cmul (W 0%nat) (O 0%nat))) <= err)%R).
    { replace (csub (cmul (W 0%nat) (val o)) (cmul (W 0%nat) (O 0%nat))) with (cmul (W 0%nat) (csub (val o) (O 0%nat))) by (apply ceq; unfold csub, cmul; cbn [fst snd]; ring).
      rewrite cabs_cmul, W1, Rmult_1_l. auto. }
    split; intros [|j] y H; cbn [nth_error] in H; try (apply Gh; exact H); try (apply Gl; exact H); injection H as <-.
    + split; auto. eapply Rle_trans; [apply (csub_tri _ (cadd (val e) (cmul (W 0%nat) (val o))))|].
      replace (csub (cadd (val e) (cmul (W 0%nat) (val o))) (cadd (E 0%nat) (cmul (W 0%nat) (O 0%nat)))) with
        (cadd (csub (val e) (E 0%nat)) (csub (cmul (W 0%nat) (val o)) (cmul (W 0%nat) (O 0%nat)))) by (apply ceq; unfold cadd, csub, cmul; cbn [fst snd]; ring).
      pose proof (cabs_cadd (csub (val e) (E 0%nat)) (csub (cmul (W 0%nat) (val o)) (cmul (W 0%nat) (O 0%nat)))). lra.
    + split; auto. eapply Rle_trans; [apply (csub_tri _ (csub (val e) (cmul (W 0%nat) (val o))))|].
      replace (csub (csub (val e) (cmul (W 0%nat) (val o))) (csub (E 0%nat) (cmul (W 0%nat) (O 0%nat)))) with
        (csub (csub (val e) (E 0%nat)) (csub (cmul (W 0%nat) (val o)) (cmul (W 0%nat) (O 0%nat)))) by (apply ceq; unfold cadd, csub, cmul; cbn [fst snd]; ring).
      pose proof (csub_tri (csub (val e) (E 0%nat)) (0, 0)%R (csub (cmul (W 0%nat) (val o)) (cmul (W 0%nat) (O 0%nat)))) as TR.
      rewrite (csub_sym (0, 0)%R) in TR. replace (csub (csub (cmul (W 0%nat) (val o)) (cmul (W 0%nat) (O 0%nat))) (0, 0)%R) with (csub (cmul (W 0%nat) (val o)) (cmul (W 0%nat) (O 0%nat))) in TR by (apply ceq; unfold csub, cmul; cbn [fst snd]; ring).
      replace (csub (csub (val e) (E 0%nat)) (0, 0)%R) with (csub (val e) (E 0%nat)) in TR by (apply ceq; unfold csub; cbn [fst snd]; ring). lra.
Qed.

(** the error of a transform of [2^k] samples of at most [M] *)
Definition fft_err (M : R) (k : nat) : R := (2 ^ k * ((M + g * (1 - / 2 ^ k)) * (1 + c / 2) ^ k - M))%R.

Lemma pow2 : forall k, (1 <= 2 ^ k)%R. Proof. intros. apply pow_R1_Rle. lra. Qed.
Lemma powq : forall k, (1 <= (1 + c / 2) ^ k)%R. Proof using C0. intros. apply pow_R1_Rle. lra. Qed.
Lemma INR_pow2 : forall k, INR (2 ^ k) = (2 ^ k)%R. Proof. intros. rewrite pow_INR. reflexivity. Qed.

Lemma fft_err_step : forall M k, (0 <= M)%R -> 
  (2 * fft_err M k + c * (2 ^ k * M + fft_err M k) + g <= fft_err M (S k))%R /\
  ((2 + c) * (2 ^ k * M + fft_err M k) + g <= 2 ^ (S k) * M + fft_err M (S k))%R.
Proof using C0 G0.
  intros M k M0. unfold fft_err. cbn [pow]. pose proof (pow2 k) as P2. pose proof (powq k) as PQ. set (p := (2 ^ k)%R) in *. set (q := ((1 + c / 2) ^ k)%R) in *.
  assert (I : (p * / p = 1)%R) by (field; lra). assert (I2 : (/ (2 * p) = / 2 * / p)%R) by (field; lra). rewrite I2. set (i := (/ p)%R) in *.
  assert (E1 : (p * ((M + g * (1 - i)) * q - M) = (M * p + g * (p - 1)) * q - p * M)%R) by (replace (g * (p - 1))%R with (g * (p - p * i))%R by (rewrite I; ring); ring).
  assert (E2 : (2 * p * ((M + g * (1 - / 2 * i)) * ((1 + c / 2) * q) - M) = (2 * (M * p) + g * (2 * p - 1)) * ((1 + c / 2) * q) - 2 * (p * M))%R) by (replace (g * (2 * p - 1))%R with (g * (2 * p - p * i))%R by (rewrite I; ring); field).
  rewrite E1, E2. assert (G : (g <= g * ((1 + c / 2) * q))%R). { assert (0 <= c * q)%R by (apply Rmult_le_pos; lra). assert (0 <= g * ((1 + c / 2) * q - 1))%R by (apply Rmult_le_pos; lra). lra. }
  split; lra.
Qed.
Lemma fft_room : forall M k, (0 <= M)%R -> (0 <= fft_err M k)%R /\ (2 ^ k * M + fft_err M k <= 2 ^ k * (M + g) * (1 + c / 2) ^ k)%R.
Proof using C0 G0.
  intros M k M0. unfold fft_err. pose proof (pow2 k) as P2. pose proof (powq k) as PQ. set (p := (2 ^ k)%R) in *. set (q := ((1 + c / 2) ^ k)%R) in *.
  assert (I : (0 < / p <= 1)%R). { split; [apply Rinv_0_lt_compat; lra|]. rewrite <- Rinv_1. apply Rinv_le; lra. } set (i := (/ p)%R) in *.
  assert (A : (0 <= g * (1 - i) <= g)%R) by (split; [apply Rmult_le_pos|]; nra). set (h := (g * (1 - i))%R) in *. split.
  - apply Rmult_le_pos; [lra|]. nra.
  - assert ((M + h) * q <= (M + g) * q)%R by (apply Rmult_le_compat_r; lra). assert (p * ((M + h) * q) <= p * ((M + g) * q))%R by (apply Rmult_le_compat_l; lra). lra.
Qed.
Lemma fft_room_mono : forall M j k, (0 <= M)%R -> (j <= k)%nat -> (2 ^ j * (M + g) * (1 + c / 2) ^ j <= 2 ^ k * (M + g) * (1 + c / 2) ^ k)%R.
Proof using C0 G0.
  intros M j k M0 L. induction L; [lra|]. eapply Rle_trans; [exact IHL|]. cbn [pow]. pose proof (pow2 m) as P2. pose proof (powq m) as PQ.
  set (p := (2 ^ m)%R) in *. set (q := ((1 + c / 2) ^ m)%R) in *. set (a := (p * (M + g) * q)%R).
  assert (A : (0 <= a)%R) by (unfold a; repeat apply Rmult_le_pos; lra). replace (2 * p * (M + g) * ((1 + c / 2) * q))%R with ((2 + c) * a)%R by (unfold a; field).
  assert (0 <= c * a)%R by (apply Rmult_le_pos; lra). lra.
Qed.

Lemma fft_ok : forall M tw k, (0 <= M)%R -> (2 ^ k * (M + g) * (1 + c / 2) ^ k <= Bmax)%R -> tables val ok s d k tw ->
  forall xs, length xs = (2 ^ k)%nat -> (forall x, In x xs -> ok x /\ (cabs (val x) <= M)%R) ->
  exists ys, fft P tw k xs = Ok ys /\ length ys = (2 ^ k)%nat /\ good (fft_err M k) (dft s (2 ^ k) (map val xs)) ys.
Proof using All.
  intros M tw k M0. induction k; intros BM TW xs L HX.
  - cbn in L. destruct xs as [|x [|y r]]; try discriminate. exists [x]. split; [reflexivity|]. split; auto.
    intros [|j] y H; cbn [nth_error] in H; [|destruct j; discriminate]. injection H as <-. destruct (HX x (or_introl eq_refl)) as [O1 _]. split; auto.
    change (2 ^ 0)%nat with 1%nat. cbn [map]. rewrite dft_one, csub_self. unfold fft_err. cbn [pow]. rewrite Rinv_1. lra.
  - replace (2 ^ S k)%nat with (2 * 2 ^ k)%nat in * by (cbn [Nat.pow]; lia).
    assert (BM' : (2 ^ k * (M + g) * (1 + c / 2) ^ k <= Bmax)%R) by (eapply Rle_trans; [apply fft_room_mono with (k := S k); auto|exact BM]).
    assert (TW' : tables val ok s d k tw) by (intros j Hj; apply TW; lia).
    destruct (evens_length _ (2 ^ k) xs L) as [Le Lo]. destruct (evens_map _ _ val (2 ^ k) xs L) as [Me Mo].
    destruct (IHk BM' TW' (evens xs) Le) as (es & Ee & Les & Ge). { intros x I. apply HX. apply (halves_in _ (2 ^ k)); auto. }
    destruct (IHk BM' TW' (odds xs) Lo) as (os & Eo & Los & Go). { intros x I. apply HX. apply (halves_in _ (2 ^ k)); auto. }
    destruct (TW k ltac:(lia)) as [Lt Ht].
    assert (N : (0 < 2 ^ k)%nat) by (clear; induction k; cbn [Nat.pow]; lia).
    destruct (fft_err_step M k M0) as [F1 F2]. destruct (fft_room M (S k) M0) as [_ F3].
    assert (DB : forall ys i, (forall y, In y ys -> In y xs) -> (cabs (dft s (2 ^ k) (map val ys) i) <= 2 ^ k * M)%R).
    { intros ys i I. rewrite <- INR_pow2. apply dft_bound; auto. intros x Hx. apply in_map_iff in Hx. destruct Hx as (y & <- & Hy). apply HX. auto. }
    destruct (butterflies_ok (2 ^ k) (tw k) es os (fun i => cis (s * (2 * PI) * INR i / INR (2 ^ (k + 1)))) (dft s (2 ^ k) (map val (evens xs))) (dft s (2 ^ k) (map val (odds xs))) (2 ^ k * M) (fft_err M k))
      as (hs & ls & Eb & Lh & Ll & Gh & Gl); auto.
    { intros i. apply cis_abs. } { intros i. apply DB. intros y I. apply (halves_in _ (2 ^ k)); auto. } { intros i. apply DB. intros y I. apply (halves_in _ (2 ^ k)); auto. } { lra. }
    exists (hs ++ ls). cbn [fft]. rewrite Ee. cbn [bind]. rewrite Eo. cbn [bind]. rewrite Eb. cbn [bind fst snd]. split; [reflexivity|]. split; [rewrite app_length; lia|].
    assert (PK : (2 ^ (k + 1))%nat = (2 * 2 ^ k)%nat) by (rewrite Nat.add_comm; reflexivity). rewrite PK in *.
    intros j y H. destruct (Nat.lt_ge_cases j (2 ^ k)) as [J|J].
    + rewrite nth_error_app1 in H by lia. destruct (Gh j y H) as [A B]. split; auto. rewrite dft_split by auto. rewrite Me, Mo. lra.
    + rewrite nth_error_app2 in H by lia. destruct (Gl (j - length hs)%nat y H) as [A B]. split; auto.
      replace j with (2 ^ k + (j - length hs))%nat by lia. rewrite dft_split_low by auto. rewrite Me, Mo.
      replace (2 ^ k + (j - length hs))%nat with j by lia. lra.
Qed.
End Any.

(** ** back again *)
Section Back.
Open Scope R_scope.
Ltac cring := apply ceq; unfold cadd, csub, cmul; cbn [fst snd]; ring.
Lemma cis_0 : cis 0 = (1, 0). Proof. unfold cis. rewrite cos_0, sin_0. reflexivity. Qed.
Lemma geo : forall n a, cmul (csub (cis a) (1, 0)) (csumf n (fun j => cis (INR j * a))) = csub (cis (INR n * a)) (1, 0).
Proof.
  induction n; intros a; cbn [csumf].
  - cbn [INR]. rewrite Rmult_0_l, cis_0. cring.
  - rewrite S_INR, Rmult_plus_distr_r, Rmult_1_l, <- cis_add. pose proof (IHn a) as H.
    set (S := csumf n (fun j => cis (INR j * a))) in *. set (p := cis (INR n * a)) in *. set (w := cis a) in *.
    replace (cmul (csub w (1, 0)) (cadd S p)) with (cadd (cmul (csub w (1, 0)) S) (cmul (csub w (1, 0)) p)) by cring. rewrite H. cring.
Qed.
Lemma cmul_zero : forall z w, cmul z w = (0, 0) -> z <> (0, 0) -> w = (0, 0).
Proof.
  intros z w H N. assert (C : cabs z * cabs w = 0) by (rewrite <- cabs_cmul, H; apply cabs0).
  assert (Z : forall v, cabs v = 0 -> v = (0, 0)).
  { intros v V. pose proof (cabs_fst v). pose proof (cabs_snd v). pose proof (Rabs_pos (fst v)). pose proof (Rabs_pos (snd v)).
    apply ceq; cbn [fst snd]; [destruct (Req_dec (fst v) 0) as [E|E]|destruct (Req_dec (snd v) 0) as [E|E]]; auto; apply Rabs_no_R0 in E; lra. }
  apply Rmult_integral in C. destruct C as [C|C]; [|auto]. exfalso. apply N. auto.
Qed.
Lemma cis_not_one : forall a, 0 < Rabs a < 2 * PI -> csub (cis a) (1, 0) <> (0, 0).
Proof.
  intros a A H. assert (C : Rtrigo_def.cos a = 1). { apply (f_equal fst) in H. cbn in H. lra. }
  replace a with (2 * (a / 2)) in C by field. rewrite cos_2a_sin in C.
  assert (S : Rtrigo_def.sin (a / 2) = 0) by nra. pose proof PI_RGT_0.
  unfold Rabs in A. destruct (Rcase_abs a).
  - pose proof (sin_gt_0 (- (a / 2)) ltac:(lra) ltac:(lra)) as P. rewrite sin_neg in P. lra.
  - pose proof (sin_gt_0 (a / 2) ltac:(lra) ltac:(lra)). lra.
Qed.
Lemma geo_zero : forall s n m i, s = 1 \/ s = -1 -> (m < n)%nat -> (i < n)%nat -> m <> i ->
  csumf n (fun j => cis (INR j * (s * (2 * PI) * (INR m - INR i) / INR n))) = (0, 0).
Proof.
  intros s n m i S M I N. pose proof (INR_pos n ltac:(lia)) as P. apply lt_INR in M, I. pose proof (pos_INR m). pose proof (pos_INR i). pose proof PI_RGT_0.
  set (a := s * (2 * PI) * (INR m - INR i) / INR n). apply (cmul_zero (csub (cis a) (1, 0))).
  - rewrite geo. assert (E : cis (INR n * a) = (1, 0)).
    { replace (INR n * a) with ((0 - s * (2 * PI) * INR i) + s * (2 * PI) * INR m) by (unfold a; field; lra). rewrite cis_turns by auto.
      rewrite <- (cis_turns (0 - s * (2 * PI) * INR i) s i S). replace (0 - s * (2 * PI) * INR i + s * (2 * PI) * INR i) with 0 by ring. apply cis_0. }
    rewrite E. cring.
  - apply cis_not_one. assert (D : INR m - INR i <> 0). { intros D. apply N. apply INR_eq. lra. }
    assert (A : Rabs a = 2 * PI * (Rabs (INR m - INR i) / INR n)).
    { unfold a, Rdiv. rewrite !Rabs_mult, (Rabs_pos_eq (/ INR n)) by (left; apply Rinv_0_lt_compat; auto). rewrite (Rabs_pos_eq 2), (Rabs_pos_eq PI) by lra.
      replace (Rabs s) with 1 by (destruct S as [-> | ->]; [rewrite Rabs_pos_eq|rewrite Rabs_left]; lra). ring. }
    rewrite A. set (r := Rabs (INR m - INR i) / INR n). assert (R : 0 < r < 1).
    { unfold r. split; [apply Rdiv_lt_0_compat; auto; apply Rabs_pos_lt; auto|]. apply (Rmult_lt_reg_r (INR n)); auto. unfold Rdiv. rewrite Rmult_assoc, Rinv_l, Rmult_1_r, Rmult_1_l by lra. apply Rabs_def1; lra. }
    nra.
Qed.
Lemma csumf_one : forall n (z : R * R), csumf n (fun _ => z) = cmul (INR n, 0) z.
Proof. induction n; intros z; cbn [csumf]; [cbn [INR]; cring|]. rewrite IHn, S_INR. cring. Qed.
Lemma csumf_pick : forall n f i, (i < n)%nat -> (forall m, (m < n)%nat -> m <> i -> f m = (0, 0)) -> csumf n f = f i.
Proof.
  induction n; intros f i I H; [lia|]. cbn [csumf]. destruct (Nat.eq_dec i n) as [->|N].
  - rewrite (csumf_ext n f (fun _ => (0, 0))), csumf_zero by (intros; apply H; lia). cring.
  - rewrite (IHn f i) by (try lia; intros; apply H; lia). rewrite (H n) by lia. cring.
Qed.
Lemma nth_map_seq : forall A (f : nat -> A) d n j, (j < n)%nat -> nth j (map f (seq 0 n)) d = f j.
Proof.
  intros A f d n j H. rewrite (nth_indep _ d (f 0%nat)) by (rewrite map_length, seq_length; auto). rewrite map_nth, seq_nth by auto. reflexivity.
Qed.
(** n x *)
Lemma dft_back : forall s n xs i, s = 1 \/ s = -1 -> (i < n)%nat -> dft (- s) n (map (dft s n xs) (seq 0 n)) i = cmul (INR n, 0) (nth i xs (0, 0)).
Proof.
  intros s n xs i S I. pose proof (INR_pos n ltac:(lia)) as P. unfold dft at 1.
  rewrite (csumf_ext n _ (fun j => csumf n (fun m => cmul (nth m xs (0, 0)) (cis (INR j * (s * (2 * PI) * (INR m - INR i) / INR n)))))).
  - rewrite csumf_swap. rewrite (csumf_pick n _ i I).
    + rewrite (csumf_ext n _ (fun _ => nth i xs (0, 0))); [apply csumf_one|]. intros j _. replace (INR j * (s * (2 * PI) * (INR i - INR i) / INR n)) with 0 by (field; lra). rewrite cis_0. cring.
    + intros m M N. rewrite csumf_mul, geo_zero by auto. cring.
  - intros j J. rewrite nth_map_seq by auto. unfold dft.
    replace (cmul (csumf n (fun m => cmul (nth m xs (0, 0)) (cis (s * (2 * PI) * INR m * INR j / INR n)))) (cis (- s * (2 * PI) * INR j * INR i / INR n))) with
      (cmul (cis (- s * (2 * PI) * INR j * INR i / INR n)) (csumf n (fun m => cmul (nth m xs (0, 0)) (cis (s * (2 * PI) * INR m * INR j / INR n))))) by cring.
    rewrite <- csumf_mul. apply csumf_ext. intros m M.
    replace (INR j * (s * (2 * PI) * (INR m - INR i) / INR n)) with (s * (2 * PI) * INR m * INR j / INR n + - s * (2 * PI) * INR j * INR i / INR n) by (field; lra).
    rewrite <- cis_add. cring.
Qed.
Lemma dft_diff : forall s n xs ys j e, (forall i, (i < n)%nat -> cabs (csub (nth i xs (0, 0)) (nth i ys (0, 0))) <= e) ->
  cabs (csub (dft s n xs j) (dft s n ys j)) <= INR n * e.
Proof.
  intros s n xs ys j e H. unfold dft. rewrite <- csumf_sub. apply csumf_bound. intros i I.
  match goal with |- cabs (csub (cmul ?a ?w) (cmul ?b ?w)) <= _ => replace (csub (cmul a w) (cmul b w)) with (cmul (csub a b) w) by cring end.
  rewrite cabs_cmul, cis_abs, Rmult_1_r. auto.
Qed.
End Back.

(** ** there and back *)
Section Round.
Context {T : Type} (P : MixedOps T).
Variables (val : Cartesian T -> R * R) (ok : Cartesian T -> Prop).
Variables c g d Bmax : R.
Hypothesis C0 : (0 <= c)%R.
Hypothesis G0 : (0 <= g)%R.
Hypothesis BF : forall w e o W A, ok w -> ok e -> ok o -> cabs W = 1%R -> (cabs (csub (val w) W) <= d)%R ->
  (cabs (val e) <= A)%R -> (cabs (val o) <= A)%R -> ((2 + c) * A + g <= Bmax)%R ->
  exists t h l, cartesian_mul P w o = Ok t /\ cartesian_add P e t = Ok h /\ cartesian_sub P e t = Ok l /\ ok h /\ ok l /\
  (cabs (csub (val h) (cadd (val e) (cmul W (val o)))) <= c * A + g)%R /\ (cabs (csub (val l) (csub (val e) (cmul W (val o)))) <= c * A + g)%R.
Definition fft_e (M : R) (k : nat) : R := (2 ^ k * ((M + g) * (1 + c / 2) ^ k - M))%R.
Lemma fft_e_err : forall M k, (0 <= M)%R -> (0 <= fft_err c g M k <= fft_e M k)%R.
Proof using C0 G0.
  intros M k M0. destruct (fft_room c g C0 G0 M k M0) as [A B]. split; auto. unfold fft_e. lra.
Qed.
Lemma fft_near : forall s, (s = 1 \/ s = -1)%R -> forall M tw k, (0 <= M)%R -> (2 ^ k * (M + g) * (1 + c / 2) ^ k <= Bmax)%R -> tables val ok s d k tw ->
  forall xs, length xs = (2 ^ k)%nat -> (forall x, In x xs -> ok x /\ (cabs (val x) <= M)%R) ->
  exists ys, fft P tw k xs = Ok ys /\ (forall y, In y ys -> ok y) /\ near val (fft_e M k) (2 ^ k) ys (dft s (2 ^ k) (map val xs)).
Proof using C0 G0 BF.
  intros s S M tw k M0 BM TW xs L HX. destruct (fft_ok P val ok c g d Bmax s C0 G0 S BF M tw k M0 BM TW xs L HX) as (ys & E & Ly & G).
  exists ys. split; auto. split. { intros y I. apply In_nth_error in I. destruct I as (j & J). apply (G j y J). }
  split; auto. intros j y J. destruct (G j y J) as [_ N]. pose proof (fft_e_err M k M0). lra.
Qed.
Lemma fft_back : forall s, (s = 1 \/ s = -1)%R -> forall M tw tw' k, (0 <= M)%R -> (2 ^ k * (2 ^ k * M + fft_e M k + g) * (1 + c / 2) ^ k <= Bmax)%R ->
  tables val ok s d k tw -> tables val ok (- s) d k tw' ->
  forall xs, length xs = (2 ^ k)%nat -> (forall x, In x xs -> ok x /\ (cabs (val x) <= M)%R) ->
  exists zs, (ys <- fft P tw k xs ;; fft P tw' k ys) = Ok zs /\ (forall z, In z zs -> ok z) /\
  near val (fft_e (2 ^ k * M + fft_e M k) k + 2 ^ k * fft_e M k) (2 ^ k) zs (fun j => cmul (2 ^ k, 0)%R (nth j (map val xs) (0, 0)%R)).
Proof using C0 G0 BF.
  intros s S M tw tw' k M0 BM TW TW' xs L HX. pose proof (fft_e_err M k M0) as EP. pose proof (pow2 k) as P2. pose proof (powq c C0 k) as PQ.
  assert (EP' : (0 <= fft_e M k)%R) by lra.
  assert (S' : (- s = 1 \/ - s = -1)%R) by (destruct S as [-> | ->]; [right|left]; lra).
  assert (B1 : (2 ^ k * (M + g) * (1 + c / 2) ^ k <= Bmax)%R).
  { eapply Rle_trans; [|exact BM]. apply Rmult_le_compat_r; [lra|]. apply Rmult_le_compat_l; [lra|]. nra. }
  destruct (fft_near s S M tw k M0 B1 TW xs L HX) as (ys & E & Oy & Ly & Ny).
  assert (Yb : forall y, In y ys -> ok y /\ (cabs (val y) <= 2 ^ k * M + fft_e M k)%R).
  { intros y I. split; auto. apply In_nth_error in I. destruct I as (j & J). pose proof (Ny j y J). pose proof (cabs_via (val y) (dft s (2 ^ k) (map val xs) j)).
    assert (cabs (dft s (2 ^ k) (map val xs) j) <= INR (2 ^ k) * M)%R by (apply dft_bound; auto; intros x Hx; apply in_map_iff in Hx; destruct Hx as (v & <- & Hv); apply HX; auto).
    rewrite INR_pow2 in *. lra. }
  destruct (fft_near (- s) S' (2 ^ k * M + fft_e M k) tw' k ltac:(nra) BM TW' ys Ly Yb) as (zs & E' & Oz & Lz & Nz).
  exists zs. rewrite E. cbn [bind]. split; auto. split; auto. split; auto.
  intros j z J. pose proof (Nz j z J) as N1.
  assert (Jn : (j < 2 ^ k)%nat). { rewrite <- Lz. apply nth_error_Some. rewrite J. discriminate. }
  pose proof (dft_back s (2 ^ k) (map val xs) j S Jn) as DB. rewrite INR_pow2 in DB. rewrite <- DB.
  eapply Rle_trans; [apply (csub_tri _ (dft (- s) (2 ^ k) (map val ys) j))|].
  assert (D : (cabs (csub (dft (- s) (2 ^ k) (map val ys) j) (dft (- s) (2 ^ k) (map (dft s (2 ^ k) (map val xs)) (seq 0 (2 ^ k))) j)) <= INR (2 ^ k) * fft_e M k)%R).
  { apply dft_diff. intros i I. rewrite nth_map_seq by auto. destruct (nth_error ys i) as [y|] eqn:Y; [|apply nth_error_None in Y; lia].
    rewrite (nth_error_nth (map val ys) i (0, 0)%R (map_nth_error val _ _ Y)). apply Ny; auto. }
  rewrite INR_pow2 in D. lra.
Qed.
End Round.

(** ** fixed *)
Lemma sub_fixed_near : forall m f, supported f = true -> fsigned f = true -> forall z w, (cabs (csub (cval f z) (cval f w)) <= fval f (fmax f))%R ->
  exists r, cartesian_sub (fixed_ops m f) z w = Ok r /\ cval f r = csub (cval f z) (cval f w).
Proof.
  intros m f S Sg z w H.
  pose proof (Rle_trans _ _ _ (cabs_fst _) H) as H1. pose proof (Rle_trans _ _ _ (cabs_snd _) H) as H2. unfold csub, cval in H1, H2. cbn [fst snd] in H1, H2.
  assert (FS : forall a b, (fval f (a - b) = fval f a - fval f b)%R) by (intros; unfold fval; rewrite minus_IZR; ring).
  rewrite <- FS in H1, H2. apply fval_inj_range in H1, H2; auto. apply in_rangeb_spec in H1, H2.
  exists (mkC (re z - re w) (im z - im w)). split; [|unfold cval, csub; cbn [re im fst snd]; rewrite !FS; reflexivity].
  unfold cartesian_sub. cbn [fixed_ops o_sub]. unfold fx_sub. rewrite !fx_fin_ok by auto. reflexivity.
Qed.
Lemma cabs_csub : forall z w, (cabs (csub z w) <= cabs z + cabs w)%R.
Proof.
  intros z w. pose proof (csub_tri z (0, 0)%R w) as H. rewrite (csub_sym (0, 0)%R w) in H.
  replace (csub z (0, 0)%R) with z in H by (apply ceq; unfold csub; cbn [fst snd]; ring). replace (csub w (0, 0)%R) with w in H by (apply ceq; unfold csub; cbn [fst snd]; ring). exact H.
Qed.
(** t against W o *)
Lemma cmul_swap_err : forall t w W o e d A, cabs W = 1%R -> (cabs (csub w W) <= d)%R -> (cabs o <= A)%R -> (cabs (csub t (cmul w o)) <= e)%R -> (cabs (csub t (cmul W o)) <= e + d * A)%R.
Proof.
  intros t w W o e d A W1 D O H. eapply Rle_trans; [apply (csub_tri _ (cmul w o))|].
  replace (csub (cmul w o) (cmul W o)) with (cmul (csub w W) o) by (apply ceq; unfold csub, cmul; cbn [fst snd]; ring). rewrite cabs_cmul.
  assert (cabs (csub w W) * cabs o <= d * A)%R by (apply Rmult_le_compat; auto; apply cabs_pos). lra.
Qed.
Lemma csub_cadd : forall e t u, csub (cadd e t) (cadd e u) = csub t u. Proof. intros. apply ceq; unfold csub, cadd; cbn [fst snd]; ring. Qed.
Lemma csub_csub : forall e t u, csub (csub e t) (csub e u) = csub u t. Proof. intros. apply ceq; unfold csub; cbn [fst snd]; ring. Qed.
Lemma bf_fixed : forall m f, supported f = true -> fsigned f = true -> forall d, (0 <= d <= 1)%R -> forall w e o W A, True -> True -> True -> cabs W = 1%R -> (cabs (csub (cval f w) W) <= d)%R ->
  (cabs (cval f e) <= A)%R -> (cabs (cval f o) <= A)%R -> ((2 + d) * A + 224 / 100 * ulp f <= fval f (fmax f))%R ->
  exists t h l, cartesian_mul (fixed_ops m f) w o = Ok t /\ cartesian_add (fixed_ops m f) e t = Ok h /\ cartesian_sub (fixed_ops m f) e t = Ok l /\ True /\ True /\
  (cabs (csub (cval f h) (cadd (cval f e) (cmul W (cval f o)))) <= d * A + 224 / 100 * ulp f)%R /\ (cabs (csub (cval f l) (csub (cval f e) (cmul W (cval f o)))) <= d * A + 224 / 100 * ulp f)%R.
Proof.
  intros m f S Sg d D w e o W A _ _ _ W1 Nw Ae Ao B. assert (U : (0 < ulp f)%R) by apply bpow_gt_0. pose proof (cabs_pos (cval f o)). pose proof (cabs_pos (cval f w)).
  assert (Aw : (cabs (cval f w) <= 1 + d)%R) by (pose proof (cabs_via (cval f w) W); lra).
  assert (AA : (0 <= A)%R) by lra. assert (WO : (cabs (cval f w) * cabs (cval f o) <= (1 + d) * A)%R) by (apply Rmult_le_compat; auto).
  destruct (fixed_mul_near m f S Sg w o ltac:(lra)) as (t & Et & Nt).
  pose proof (cmul_swap_err _ _ _ _ _ _ _ W1 Nw Ao Nt) as Nt'.
  assert (At : (cabs (cval f t) <= (1 + d) * A + 224 / 100 * ulp f)%R). { pose proof (cabs_via (cval f t) (cmul W (cval f o))) as V. rewrite (cabs_cmul W), W1 in V. lra. }
  pose proof (cabs_cadd (cval f e) (cval f t)). pose proof (cabs_csub (cval f e) (cval f t)).
  destruct (add_fixed_near m f S Sg e t ltac:(lra)) as (h & Eh & Vh). destruct (sub_fixed_near m f S Sg e t ltac:(lra)) as (l & El & Vl).
  exists t, h, l. rewrite Vh, Vl, csub_cadd, csub_csub, (csub_sym (cmul W _)). repeat split; auto; lra.
Qed.

(** ** floats *)
Section Float.
Context {prec emax : Z} {Hp : Prec_gt_0 prec} {He : Prec_lt_emax prec emax}.
Notation float := (binary_float prec emax).
Notation u := (bpow radix2 (- prec)).
Notation eta := (bpow radix2 (3 - emax - prec)).
Notation fv := (@cvalf prec emax).
Hypothesis P5 : (5 <= prec)%Z.
Open Scope Z_scope.
Lemma cabs_opp : forall w : Cartesian float, cabs (fv (mkC (Bopp (re w)) (Bopp (im w)))) = cabs (fv w).
Proof. intros w. unfold cabs, cvalf. cbn [re im fst snd]. rewrite !B2R_Bopp. f_equal. ring. Qed.
Lemma sub_float_near : forall z w : Cartesian float, cfin z -> cfin w -> (cabs (fv z) + cabs (fv w) <= bpow radix2 (emax - 1))%R ->
  exists r, cartesian_sub float_ops z w = Ok r /\ cfin r /\ (cabs (csub (fv r) (csub (fv z) (fv w))) <= u * (cabs (fv z) + cabs (fv w)))%R.
Proof using P5.
  intros z w Fz Fw B. set (w' := mkC (Bopp (re w)) (Bopp (im w))).
  assert (Fw' : cfin w') by (destruct Fw; split; cbn [w' re im]; rewrite is_finite_Bopp; auto).
  pose proof (cabs_opp w) as CO. fold w' in CO.
  assert (E3 : 3 <= emax) by (unfold Prec_lt_emax in He; lia).
  destruct (add_float_near E3 z w' Fz Fw' ltac:(rewrite CO; exact B)) as (r & E & F & N). rewrite CO in N.
  pose proof (cabs_csub (fv z) (fv w)) as T.
  destruct Fz as [Fz1 Fz2], Fw as [Fw1 Fw2], Fw' as [Fw1' Fw2'].
  assert (B1 : (Rabs (B2R (re z) - B2R (re w)) <= bpow radix2 (emax - 1))%R) by (pose proof (cabs_fst (csub (fv z) (fv w))) as H; cbn [csub fst cvalf] in H; lra).
  assert (B2 : (Rabs (B2R (im z) - B2R (im w)) <= bpow radix2 (emax - 1))%R) by (pose proof (cabs_snd (csub (fv z) (fv w))) as H; cbn [csub snd cvalf] in H; lra).
  destruct (minus_r (prec := prec) (emax := emax) (re z) (re w) Fz1 Fw1 (emax - 1) ltac:(lia) B1) as [Fr Vr].
  destruct (minus_r (prec := prec) (emax := emax) (im z) (im w) Fz2 Fw2 (emax - 1) ltac:(lia) B2) as [Fi Vi].
  assert (O1 : B2R (Bopp (re w)) = (- B2R (re w))%R) by apply B2R_Bopp. assert (O2 : B2R (Bopp (im w)) = (- B2R (im w))%R) by apply B2R_Bopp.
  destruct (plus_r (prec := prec) (emax := emax) (re z) (Bopp (re w)) Fz1 Fw1' (emax - 1) ltac:(lia) ltac:(rewrite O1; exact B1)) as [_ Vr'].
  destruct (plus_r (prec := prec) (emax := emax) (im z) (Bopp (im w)) Fz2 Fw2' (emax - 1) ltac:(lia) ltac:(rewrite O2; exact B2)) as [_ Vi'].
  exists (mkC (Bminus mode_NE (re z) (re w)) (Bminus mode_NE (im z) (im w))). split; [reflexivity|]. split; [split; auto|].
  injection E as <-. eapply Rle_trans; [|exact N]. right. f_equal. unfold csub, cadd, cvalf, w'. cbn [fst snd re im]. rewrite Vr, Vi, Vr', Vi', O1, O2. reflexivity.
Qed.
Lemma bf_float : forall K, 1 <= K -> 2 * K + 1 < emax -> K + 3 <= emax -> forall d, (0 <= d <= / 8)%R -> forall w e o W A, cfin w -> cfin e -> cfin o -> cabs W = 1%R -> (cabs (csub (fv w) W) <= d)%R ->
  (cabs (fv e) <= A)%R -> (cabs (fv o) <= A)%R -> ((2 + (d + 6 * u)) * A + 4 * eta <= bpow radix2 (K + 1))%R ->
  exists t h l, cartesian_mul float_ops w o = Ok t /\ cartesian_add float_ops e t = Ok h /\ cartesian_sub float_ops e t = Ok l /\ cfin h /\ cfin l /\
  (cabs (csub (fv h) (cadd (fv e) (cmul W (fv o)))) <= (d + 6 * u) * A + 4 * eta)%R /\ (cabs (csub (fv l) (csub (fv e) (cmul W (fv o)))) <= (d + 6 * u) * A + 4 * eta)%R.
Proof using P5.
  intros K K0 K1 K2 d D w e o W A Fw Fe Fo W1 Nw Ae Ao B. assert (U : (0 < eta)%R) by apply bpow_gt_0. pose proof (u_small P5) as US.
  pose proof (cabs_pos (fv o)). pose proof (cabs_pos (fv w)). set (h := eta) in *. set (v := u) in *.
  assert (Aw : (cabs (fv w) <= 1 + d)%R) by (pose proof (cabs_via (fv w) W); lra). assert (AA : (0 <= A)%R) by lra.
  assert (BK : bpow radix2 (K + 1) = (2 * bpow radix2 K)%R) by (rewrite Z.add_comm, bpow_plus; reflexivity).
  assert (K1' : (2 <= bpow radix2 K)%R) by (change 2%R with (bpow radix2 1); apply bpow_le; lia).
  assert (DA : (0 <= (d + 6 * v) * A)%R) by (apply Rmult_le_pos; lra).
  assert (WO : (cabs (fv w) * cabs (fv o) <= (1 + d) * A)%R) by (apply Rmult_le_compat; auto).
  assert (VA : (0 <= v * A)%R) by (apply Rmult_le_pos; lra).
  assert (E3 : 3 <= emax) by (unfold Prec_lt_emax in He; lia).
  destruct (float_mul_near (prec := prec) (emax := emax) P5 K ltac:(lia) K1 w o Fw Fo ltac:(lra) ltac:(lra)) as (t & Et & Ft & Nt). fold v h in Nt.
  set (r := (3 * v * ((1 + d) * A) + 3 * h)%R).
  assert (Nt1 : (cabs (csub (fv t) (cmul (fv w) (fv o))) <= r)%R). { eapply Rle_trans; [exact Nt|]. unfold r. apply Rplus_le_compat_r. apply Rmult_le_compat_l; lra. }
  pose proof (cmul_swap_err _ _ _ _ _ _ _ W1 Nw Ao Nt1) as Nt2.
  assert (At : (cabs (fv t) <= A + (r + d * A))%R). { pose proof (cabs_via (fv t) (cmul W (fv o))) as V. rewrite (cabs_cmul W), W1 in V. lra. }
  assert (DV : (0 <= d * (v * A) <= / 8 * (v * A))%R) by (split; [apply Rmult_le_pos|apply Rmult_le_compat_r]; lra).
  assert (Rb : (r <= 27 / 8 * (v * A) + 3 * h)%R) by (unfold r; replace (3 * v * ((1 + d) * A))%R with (3 * (v * A) + 3 * (d * (v * A)))%R by ring; lra).
  assert (VS : (v * A <= / 32 * A)%R) by (apply Rmult_le_compat_r; lra). assert (DS : (0 <= d * A <= / 8 * A)%R) by (split; [apply Rmult_le_pos|apply Rmult_le_compat_r]; lra).
  assert (SB : (cabs (fv e) + cabs (fv t) <= 2 * A + (27 / 8 * (v * A) + 3 * h) + d * A)%R) by lra.
  assert (RM : (cabs (fv e) + cabs (fv t) <= bpow radix2 (emax - 1))%R).
  { apply Rle_trans with (bpow radix2 (K + 2)); [|apply bpow_le; lia]. replace (K + 2) with (2 + K) by lia. rewrite bpow_plus. change (bpow radix2 2) with 4%R. lra. }
  destruct (add_float_near E3 e t Fe Ft RM) as (hh & Eh & Fh & Nh). destruct (sub_float_near e t Fe Ft RM) as (l & El & Fl & Nl). fold v in Nh, Nl.
  assert (VB : (v * (cabs (fv e) + cabs (fv t)) <= 2 * (v * A) + / 32 * (27 / 8 * (v * A) + 3 * h) + d * (v * A))%R).
  { eapply Rle_trans; [apply Rmult_le_compat_l; [lra|exact SB]|].
    replace (v * (2 * A + (27 / 8 * (v * A) + 3 * h) + d * A))%R with (2 * (v * A) + v * (27 / 8 * (v * A) + 3 * h) + d * (v * A))%R by ring.
    assert (v * (27 / 8 * (v * A) + 3 * h) <= / 32 * (27 / 8 * (v * A) + 3 * h))%R by (apply Rmult_le_compat_r; lra). lra. }
  exists t, hh, l. split; auto. split; auto. split; auto. split; auto. split; auto. split.
  - eapply Rle_trans; [apply (csub_tri _ (cadd (fv e) (fv t)))|]. rewrite csub_cadd. lra.
  - eapply Rle_trans; [apply (csub_tri _ (csub (fv e) (fv t)))|]. rewrite csub_csub, (csub_sym (cmul W _)). lra.
Qed.
End Float.

(** ** integers *)
From Verif Require Import ComplexProofs FirProofs.
Open Scope Z_scope.
Definition cvz (z : Cartesian Z) : R * R := (IZR (re z), IZR (im z)).
Lemma in_signed : forall t n, isigned t = true -> (Rabs (IZR n) <= IZR (imax t))%R -> in_range t n.
Proof.
  intros t n S H. rewrite <- abs_IZR in H. apply le_IZR in H. unfold in_range, imin, imax in *. rewrite S in *. lia.
Qed.
Lemma bf_int : forall m t, isigned t = true -> forall w e o W A, True -> True -> True -> cabs W = 1%R -> (cabs (csub (cvz w) W) <= 0)%R ->
  (cabs (cvz e) <= A)%R -> (cabs (cvz o) <= A)%R -> ((2 + 0) * A + 0 <= IZR (imax t))%R ->
  exists r h l, cartesian_mul (int_ops m t) w o = Ok r /\ cartesian_add (int_ops m t) e r = Ok h /\ cartesian_sub (int_ops m t) e r = Ok l /\ True /\ True /\
  (cabs (csub (cvz h) (cadd (cvz e) (cmul W (cvz o)))) <= 0 * A + 0)%R /\ (cabs (csub (cvz l) (csub (cvz e) (cmul W (cvz o)))) <= 0 * A + 0)%R.
Proof.
  intros m t S w e o W A _ _ _ W1 Nw Ae Ao B.
  assert (WW : cvz w = W).
  { pose proof (cabs_pos (csub (cvz w) W)). pose proof (cabs_fst (csub (cvz w) W)) as A1. pose proof (cabs_snd (csub (cvz w) W)) as A2. pose proof (Rabs_pos (fst (csub (cvz w) W))). pose proof (Rabs_pos (snd (csub (cvz w) W))).
    assert (Z : forall x, (Rabs x <= 0 -> x = 0)%R) by (intros x X; destruct (Req_dec x 0) as [E|E]; auto; apply Rabs_pos_lt in E; lra).
    assert (Z1 : fst (csub (cvz w) W) = 0%R) by (apply Z; lra). assert (Z2 : snd (csub (cvz w) W) = 0%R) by (apply Z; lra). unfold csub in Z1, Z2. cbn [fst snd] in Z1, Z2. apply ceq; lra. }
  subst W. pose proof (cabs_pos (cvz o)) as O0. assert (A0 : (0 <= A)%R) by lra.
  set (p := mkC (re w * re o - im w * im o) (re w * im o + im w * re o)).
  assert (Vp : cvz p = cmul (cvz w) (cvz o)) by (unfold cvz, cmul, p; cbn [re im fst snd]; rewrite minus_IZR, plus_IZR, !mult_IZR; reflexivity).
  assert (Ap : (cabs (cvz p) <= A)%R) by (rewrite Vp, cabs_cmul, W1; lra).
  assert (PR : forall a b, (Rabs (IZR a) <= cabs (cvz w) -> Rabs (IZR b) <= cabs (cvz o) -> in_range t (a * b))%R).
  { intros a b Ha Hb. apply in_signed; auto. rewrite mult_IZR, Rabs_mult. rewrite W1 in Ha. assert (Rabs (IZR a) * Rabs (IZR b) <= 1 * A)%R by (apply Rmult_le_compat; try apply Rabs_pos; lra). lra. }
  pose proof (cabs_fst (cvz w) : (Rabs (IZR (re w)) <= _)%R) as w1. pose proof (cabs_snd (cvz w) : (Rabs (IZR (im w)) <= _)%R) as w2.
  pose proof (cabs_fst (cvz o) : (Rabs (IZR (re o)) <= _)%R) as o1. pose proof (cabs_snd (cvz o) : (Rabs (IZR (im o)) <= _)%R) as o2.
  pose proof (cabs_fst (cvz p) : (Rabs (IZR (re p)) <= _)%R) as p1. pose proof (cabs_snd (cvz p) : (Rabs (IZR (im p)) <= _)%R) as p2.
  pose proof (cabs_fst (cvz e) : (Rabs (IZR (re e)) <= _)%R) as e1. pose proof (cabs_snd (cvz e) : (Rabs (IZR (im e)) <= _)%R) as e2.
  exists p, (mkC (re e + re p) (im e + im p)), (mkC (re e - re p) (im e - im p)).
  assert (HM : forall a b, o_mul (int_ops m t) a b = fin m t (a * b)) by reflexivity.
  assert (SM : forall a b, (Rabs (IZR a) <= A -> Rabs (IZR b) <= A -> in_range t (a + b) /\ in_range t (a - b))%R).
  { intros a b Ha Hb. split; apply in_signed; auto; [rewrite plus_IZR|rewrite minus_IZR]; [eapply Rle_trans; [apply Rabs_triang|lra]|unfold Rminus; eapply Rle_trans; [apply Rabs_triang|rewrite Rabs_Ropp; lra]]. }
  destruct (SM (re e) (re p) ltac:(lra) ltac:(lra)) as [S1 S2]. destruct (SM (im e) (im p) ltac:(lra) ltac:(lra)) as [S3 S4].
  pose proof (word_int m t) as HO.
  split; [|split; [|split; [|split; [|split; [|split]]]]]; auto.
  - unfold cartesian_mul, ops_mul_cartesian. rewrite !HM. rewrite !(fin_in m t _ (PR _ _ w1 o1)), !(fin_in m t _ (PR _ _ w2 o2)), !(fin_in m t _ (PR _ _ w1 o2)), !(fin_in m t _ (PR _ _ w2 o1)). cbn [bind].
    rewrite (word_sub _ _ _ HO), (word_add _ _ _ HO).
    rewrite (fin_in m t (re w * re o - im w * im o)) by (apply in_signed; auto; change (Rabs (IZR (re p)) <= IZR (imax t))%R; lra). cbn [bind].
    rewrite (fin_in m t (re w * im o + im w * re o)) by (apply in_signed; auto; change (Rabs (IZR (im p)) <= IZR (imax t))%R; lra). reflexivity.
  - unfold cartesian_add. rewrite !(word_add _ _ _ HO), (fin_in _ _ _ S1), (fin_in _ _ _ S3). reflexivity.
  - unfold cartesian_sub. rewrite !(word_sub _ _ _ HO), (fin_in _ _ _ S2), (fin_in _ _ _ S4). reflexivity.
  - rewrite <- Vp. replace (csub _ _) with (0, 0)%R; [rewrite cabs0; lra|]. apply ceq; unfold csub, cadd, cvz; cbn [re im fst snd]; rewrite plus_IZR; ring.
  - rewrite <- Vp. replace (csub _ _) with (0, 0)%R; [rewrite cabs0; lra|]. apply ceq; unfold csub, cvz; cbn [re im fst snd]; rewrite minus_IZR; ring.
Qed.

Lemma exact_e : forall M k, fft_e 0 0 M k = 0%R.
Proof. intros. unfold fft_e. replace (1 + 0 / 2)%R with 1%R by field. rewrite pow1. ring. Qed.
Lemma near_0 : forall A (val : A -> R * R) n ys F, near val 0 n ys F -> length ys = n /\ forall j y, nth_error ys j = Some y -> val y = F j.
Proof.
  intros A val n ys F [L H]. split; auto. intros j y J. pose proof (H j y J) as N. pose proof (cabs_fst (csub (val y) (F j))) as A1. pose proof (cabs_snd (csub (val y) (F j))) as A2.
  assert (Z : forall x, (Rabs x <= 0 -> x = 0)%R) by (intros x X; destruct (Req_dec x 0) as [E|E]; auto; apply Rabs_pos_lt in E; lra).
  assert (Z1 : fst (csub (val y) (F j)) = 0%R) by (apply Z; lra). assert (Z2 : snd (csub (val y) (F j)) = 0%R) by (apply Z; lra). unfold csub in Z1, Z2. cbn [fst snd] in Z1, Z2. apply ceq; lra.
Qed.
(** one, and e^(i s pi/2) *)
Definition tw4 (s : Z) (j : nat) : list (Cartesian Z) := match j with O => [mkC 1 0] | _ => [mkC 1 0; mkC 0 s] end.
Lemma tw4_ok : forall s, s = 1 \/ s = -1 -> tables cvz (fun _ => True) (IZR s) 0 2 (tw4 s).
Proof.
  intros s S j J. assert (Z0 : forall z w, z = w -> (cabs (csub z w) <= 0)%R) by (intros z w ->; rewrite csub_self; lra).
  assert (One : forall n, cvz (mkC 1 0) = cis (IZR s * (2 * PI) * INR 0 / INR n)) by (intros n; cbn [INR]; unfold Rdiv; rewrite Rmult_0_r, Rmult_0_l, cis_0; reflexivity).
  destruct j as [|[|j]]; [| |lia]; (split; [reflexivity|]); intros i w I; (split; [exact Logic.I|]); apply Z0.
  - destruct i as [|i]; cbn [tw4 nth_error] in I; [injection I as <-; apply One|destruct i; discriminate].
  - destruct i as [|[|i]]; cbn [tw4 nth_error] in I; [injection I as <-; apply One| |destruct i; discriminate]. injection I as <-.
    replace (IZR s * (2 * PI) * INR 1 / INR (2 ^ (1 + 1)))%R with (IZR s * (PI / 2))%R by (cbn; field).
    unfold cvz, cis. cbn [re im]. destruct S as [-> | ->]; [rewrite Rmult_1_l, cos_PI2, sin_PI2; reflexivity|].
    replace (-1 * (PI / 2))%R with (- (PI / 2))%R by ring. rewrite cos_neg, sin_neg, cos_PI2, sin_PI2. apply ceq; cbn [fst snd]; lra.
Qed.
Lemma fft_int : forall m t, isigned t = true -> forall s, s = 1 \/ s = -1 -> forall (xs : list (Cartesian Z)) M, length xs = 4%nat -> (forall x, In x xs -> (cabs (cvz x) <= M)%R) -> (4 * M <= IZR (imax t))%R ->
  exists ys, fft (int_ops m t) (tw4 s) 2 xs = Ok ys /\ length ys = 4%nat /\ forall j y, nth_error ys j = Some y -> cvz y = dft (IZR s) 4 (map cvz xs) j.
Proof.
  intros m t T s S xs M L HX B.
  assert (M0 : (0 <= M)%R). { destruct xs as [|x xs]; [discriminate|]. pose proof (HX x (or_introl eq_refl)). pose proof (cabs_pos (cvz x)). lra. }
  assert (RM : (2 ^ 2 * (M + 0) * (1 + 0 / 2) ^ 2 <= IZR (imax t))%R) by (replace (1 + 0 / 2)%R with 1%R by field; rewrite pow1; cbn [pow]; lra).
  assert (SS : (IZR s = 1 \/ IZR s = -1)%R) by (destruct S as [-> | ->]; auto).
  destruct (fft_near (int_ops m t) cvz (fun _ => True) 0 0 0 (IZR (imax t)) ltac:(lra) ltac:(lra)
    ltac:(exact (bf_int m t T)) (IZR s) SS M (tw4 s) 2%nat M0 RM (tw4_ok s S) xs L) as (ys & E & _ & N); auto.
  rewrite exact_e in N. apply near_0 in N. exists ys. split; auto.
Qed.
Lemma fft_fixed : forall m f, supported f = true -> fsigned f = true -> forall s d M k tw, (s = 1 \/ s = -1 -> 0 <= d <= 1 -> 0 <= M ->
  let g := 224 / 100 * ulp f in let q := 1 + d / 2 in 2 ^ k * (M + g) * q ^ k <= fval f (fmax f) ->
  tables (cval f) (fun _ => True) s d k tw -> forall xs, length xs = (2 ^ k)%nat -> (forall x, In x xs -> cabs (cval f x) <= M) ->
  exists ys, fft (fixed_ops m f) tw k xs = Ok ys /\ near (cval f) (2 ^ k * ((M + g) * q ^ k - M)) (2 ^ k) ys (dft s (2 ^ k) (map (cval f) xs)))%R.
Proof.
  intros m f F Sg s d M k tw S D M0 g q B TW xs L HX. assert (U : (0 < ulp f)%R) by apply bpow_gt_0.
  destruct (fft_near (fixed_ops m f) (cval f) (fun _ => True) d g d (fval f (fmax f)) ltac:(lra) ltac:(unfold g; lra) ltac:(exact (bf_fixed m f F Sg d D)) s S M tw k M0 B TW xs L) as (ys & E & _ & N); eauto.
Qed.
Lemma fft_fixed_back : forall m f, supported f = true -> fsigned f = true -> forall s d M k tw tw', (s = 1 \/ s = -1 -> 0 <= d <= 1 -> 0 <= M ->
  let g := 224 / 100 * ulp f in let q := 1 + d / 2 in let err M := 2 ^ k * ((M + g) * q ^ k - M) in 2 ^ k * (2 ^ k * M + err M + g) * q ^ k <= fval f (fmax f) ->
  tables (cval f) (fun _ => True) s d k tw -> tables (cval f) (fun _ => True) (- s) d k tw' -> forall xs, length xs = (2 ^ k)%nat -> (forall x, In x xs -> cabs (cval f x) <= M) ->
  exists zs, (ys <- fft (fixed_ops m f) tw k xs ;; fft (fixed_ops m f) tw' k ys) = Ok zs /\
  near (cval f) (err (2 ^ k * M + err M) + 2 ^ k * err M) (2 ^ k) zs (fun j => cmul (2 ^ k, 0) (nth j (map (cval f) xs) (0, 0))))%R.
Proof.
  intros m f F Sg s d M k tw tw' S D M0 g q err B TW TW' xs L HX. assert (U : (0 < ulp f)%R) by apply bpow_gt_0.
  destruct (fft_back (fixed_ops m f) (cval f) (fun _ => True) d g d (fval f (fmax f)) ltac:(lra) ltac:(unfold g; lra) ltac:(exact (bf_fixed m f F Sg d D)) s S M tw tw' k M0 B TW TW' xs L) as (ys & E & _ & N); eauto.
Qed.
Lemma fft_f32 : forall s d M k (tw : nat -> list (Cartesian f32)), (s = 1 \/ s = -1 -> 0 <= d <= / 8 -> 0 <= M ->
  let g := 4 * bpow radix2 (-149) in let q := 1 + (d + 6 * bpow radix2 (-24)) / 2 in 2 ^ k * (M + g) * q ^ k <= bpow radix2 64 ->
  tables cvalf cfin s d k tw -> forall xs, length xs = (2 ^ k)%nat -> (forall x, In x xs -> cfin x /\ cabs (cvalf x) <= M) ->
  exists ys, fft float_ops tw k xs = Ok ys /\ (forall y, In y ys -> cfin y) /\ near cvalf (2 ^ k * ((M + g) * q ^ k - M)) (2 ^ k) ys (dft s (2 ^ k) (map cvalf xs)))%R.
Proof.
  intros s d M k tw S D M0 g q B TW xs L HX. pose proof (bpow_gt_0 radix2 (-149)). pose proof (bpow_gt_0 radix2 (-24)).
  exact (fft_near (float_ops (prec := 24) (emax := 128)) cvalf cfin (d + 6 * bpow radix2 (-24)) g d (bpow radix2 64) ltac:(lra) ltac:(unfold g; lra)
    (bf_float (prec := 24) (emax := 128) ltac:(lia) 63 ltac:(lia) ltac:(lia) ltac:(lia) d D) s S M tw k M0 B TW xs L HX).
Qed.
Lemma fft_f64 : forall s d M k (tw : nat -> list (Cartesian f64)), (s = 1 \/ s = -1 -> 0 <= d <= / 8 -> 0 <= M ->
  let g := 4 * bpow radix2 (-1074) in let q := 1 + (d + 6 * bpow radix2 (-53)) / 2 in 2 ^ k * (M + g) * q ^ k <= bpow radix2 512 ->
  tables cvalf cfin s d k tw -> forall xs, length xs = (2 ^ k)%nat -> (forall x, In x xs -> cfin x /\ cabs (cvalf x) <= M) ->
  exists ys, fft float_ops tw k xs = Ok ys /\ (forall y, In y ys -> cfin y) /\ near cvalf (2 ^ k * ((M + g) * q ^ k - M)) (2 ^ k) ys (dft s (2 ^ k) (map cvalf xs)))%R.
Proof.
  intros s d M k tw S D M0 g q B TW xs L HX. pose proof (bpow_gt_0 radix2 (-1074)). pose proof (bpow_gt_0 radix2 (-53)).
  exact (fft_near (float_ops (prec := 53) (emax := 1024)) cvalf cfin (d + 6 * bpow radix2 (-53)) g d (bpow radix2 512) ltac:(lra) ltac:(unfold g; lra)
    (bf_float (prec := 53) (emax := 1024) ltac:(lia) 511 ltac:(lia) ltac:(lia) ltac:(lia) d D) s S M tw k M0 B TW xs L HX).
Qed.
Lemma fft_f64_back : forall s d M k (tw tw' : nat -> list (Cartesian f64)), (s = 1 \/ s = -1 -> 0 <= d <= / 8 -> 0 <= M ->
  let g := 4 * bpow radix2 (-1074) in let q := 1 + (d + 6 * bpow radix2 (-53)) / 2 in let err M := 2 ^ k * ((M + g) * q ^ k - M) in
  2 ^ k * (2 ^ k * M + err M + g) * q ^ k <= bpow radix2 512 ->
  tables cvalf cfin s d k tw -> tables cvalf cfin (- s) d k tw' -> forall xs, length xs = (2 ^ k)%nat -> (forall x, In x xs -> cfin x /\ cabs (cvalf x) <= M) ->
  exists zs, (ys <- fft float_ops tw k xs ;; fft float_ops tw' k ys) = Ok zs /\ (forall z, In z zs -> cfin z) /\
  near cvalf (err (2 ^ k * M + err M) + 2 ^ k * err M) (2 ^ k) zs (fun j => cmul (2 ^ k, 0) (nth j (map cvalf xs) (0, 0))))%R.
Proof.
  intros s d M k tw tw' S D M0 g q err B TW TW' xs L HX. pose proof (bpow_gt_0 radix2 (-1074)). pose proof (bpow_gt_0 radix2 (-53)).
  exact (fft_back (float_ops (prec := 53) (emax := 1024)) cvalf cfin (d + 6 * bpow radix2 (-53)) g d (bpow radix2 512) ltac:(lra) ltac:(unfold g; lra)
    (bf_float (prec := 53) (emax := 1024) ltac:(lia) 511 ltac:(lia) ltac:(lia) ltac:(lia) d D) s S M tw tw' k M0 B TW TW' xs L HX).
Qed.
Lemma fft_f32_back : forall s d M k (tw tw' : nat -> list (Cartesian f32)), (s = 1 \/ s = -1 -> 0 <= d <= / 8 -> 0 <= M ->
  let g := 4 * bpow radix2 (-149) in let q := 1 + (d + 6 * bpow radix2 (-24)) / 2 in let err M := 2 ^ k * ((M + g) * q ^ k - M) in
  2 ^ k * (2 ^ k * M + err M + g) * q ^ k <= bpow radix2 64 ->
  tables cvalf cfin s d k tw -> tables cvalf cfin (- s) d k tw' -> forall xs, length xs = (2 ^ k)%nat -> (forall x, In x xs -> cfin x /\ cabs (cvalf x) <= M) ->
  exists zs, (ys <- fft float_ops tw k xs ;; fft float_ops tw' k ys) = Ok zs /\ (forall z, In z zs -> cfin z) /\
  near cvalf (err (2 ^ k * M + err M) + 2 ^ k * err M) (2 ^ k) zs (fun j => cmul (2 ^ k, 0) (nth j (map cvalf xs) (0, 0))))%R.
Proof.
  intros s d M k tw tw' S D M0 g q err B TW TW' xs L HX. pose proof (bpow_gt_0 radix2 (-149)). pose proof (bpow_gt_0 radix2 (-24)).
  exact (fft_back (float_ops (prec := 24) (emax := 128)) cvalf cfin (d + 6 * bpow radix2 (-24)) g d (bpow radix2 64) ltac:(lra) ltac:(unfold g; lra)
    (bf_float (prec := 24) (emax := 128) ltac:(lia) 63 ltac:(lia) ltac:(lia) ltac:(lia) d D) s S M tw tw' k M0 B TW TW' xs L HX).
Qed.

(** ** tables from the library's own sine and cosine *)
From Verif Require Import AngleProofs.
Lemma lib_tables : forall A (val : A -> R * R) (ok : A -> Prop) s d delta k tw,
  (forall j, (j < k)%nat -> length (tw j) = (2 ^ j)%nat /\ forall i w, nth_error (tw j) i = Some w ->
     exists a, ok w /\ (cabs (csub (val w) (cis a)) <= d)%R /\ (Rabs (a - s * (2 * PI) * INR i / INR (2 ^ (j + 1))) <= delta)%R) -> tables val ok s (d + delta) k tw.
Proof.
  intros A val ok s d delta k tw H j J. destruct (H j J) as [L G]. split; auto. intros i w I. destruct (G i w I) as (a & O & N & D). split; auto.
  eapply Rle_trans; [apply (csub_tri _ (cis a))|]. pose proof (cis_lip a (s * (2 * PI) * INR i / INR (2 ^ (j + 1)))). lra.
Qed.
Lemma lib_fixed : forall m f, supported f = true -> fsigned f = true -> ffrac f <= fwidth f - 20 -> forall s delta k tw,
  (forall j, (j < k)%nat -> length (tw j) = (2 ^ j)%nat /\ forall i w, nth_error (tw j) i = Some w ->
     exists a, returns (fun fuel => rotor_fixed m f fuel a) w /\ (Rabs (fval f a) <= PI)%R /\ (Rabs (fval f a - s * (2 * PI) * INR i / INR (2 ^ (j + 1))) <= delta)%R) ->
  tables (cval f) (fun _ => True) s (14143 / 10000 * (5 / 1000000 + 7 * ulp f) + delta) k tw.
Proof.
  intros m f F Sg FW s delta k tw H. apply lib_tables. intros j J. destruct (H j J) as [L G]. split; auto. intros i w I. destruct (G i w I) as (a & R & X & D).
  exists (fval f a). split; [exact Logic.I|]. split; auto. destruct (rotor_fixed_ok m f F Sg FW a X) as (w' & R' & N). rewrite (returns_det _ _ _ _ R R'). exact N.
Qed.
Lemma lib_f32 : forall s delta k (tw : nat -> list (Cartesian f32)),
  (forall j, (j < k)%nat -> length (tw j) = (2 ^ j)%nat /\ forall i w, nth_error (tw j) i = Some w ->
     exists a, returns (fun fuel => rotor fuel a) w /\ is_finite a = true /\ (Rabs (B2R a) <= PI)%R /\ (Rabs (B2R a - s * (2 * PI) * INR i / INR (2 ^ (j + 1))) <= delta)%R) ->
  tables cvalf cfin s (8 / 1000000 + delta) k tw.
Proof.
  intros s delta k tw H. apply lib_tables. intros j J. destruct (H j J) as [L G]. split; auto. intros i w I. destruct (G i w I) as (a & R & F & X & D).
  exists (B2R a). destruct (sincos_f32 a F X) as (sn & c & Es & Ec & Fs & Fc & As & Ac).
  assert (R' : returns (fun fuel => rotor fuel a) (mkC c sn)) by (exists 2%nat; intros fuel Lf; rewrite Es; cbn [bind]; rewrite Ec by auto; reflexivity).
  rewrite (returns_det _ _ _ _ R R'). split; [split; auto|]. split; auto. pose proof (cis_near _ _ _ _ As Ac) as N. unfold cvalf. cbn [re im]. lra.
Qed.
Lemma lib_f64 : forall s delta k (tw : nat -> list (Cartesian f64)),
  (forall j, (j < k)%nat -> length (tw j) = (2 ^ j)%nat /\ forall i w, nth_error (tw j) i = Some w ->
     exists a, returns (fun fuel => rotor fuel a) w /\ is_finite a = true /\ (Rabs (B2R a) <= PI)%R /\ (Rabs (B2R a - s * (2 * PI) * INR i / INR (2 ^ (j + 1))) <= delta)%R) ->
  tables cvalf cfin s (8 / 1000000 + delta) k tw.
Proof.
  intros s delta k tw H. apply lib_tables. intros j J. destruct (H j J) as [L G]. split; auto. intros i w I. destruct (G i w I) as (a & R & F & X & D).
  exists (B2R a). destruct (sincos_f64 a F X) as (sn & c & Es & Ec & Fs & Fc & As & Ac).
  assert (R' : returns (fun fuel => rotor fuel a) (mkC c sn)) by (exists 2%nat; intros fuel Lf; rewrite Es; cbn [bind]; rewrite Ec by auto; reflexivity).
  rewrite (returns_det _ _ _ _ R R'). split; [split; auto|]. split; auto. pose proof (cis_near _ _ _ _ As Ac) as N. unfold cvalf. cbn [re im]. lra.
Qed.
