(** * Proofs: convolution through the fast transform. *)

From Coq Require Import ZArith Reals Lia Lra Psatz Bool List Arith.
From Flocq Require Import Core.Core IEEE754.BinarySingleNaN.
From Verif Require Import Base FloatBase Literals Traits Trig IntImpl FixedPrim FixedImpl FloatImpl Complex Spec SpecFilter SpecRotor SpecFourier SpecFft SpecFastConv
  Lemmas FloatLemmas FloatKit ScalarProofs ScalarProofs2 FilterProofs FloatArith FloatFilter RotorProofs FourierProofs FftProofs.
Import ListNotations.

Section Real.
Open Scope R_scope.
Ltac cring := apply ceq; unfold cadd, csub, cmul; cbn [fst snd]; ring.
Lemma csumf_app : forall a b f, csumf (a + b) f = cadd (csumf a f) (csumf b (fun i => f (a + i)%nat)).
Proof.
  intros a b f. induction b; cbn [csumf].
  - rewrite Nat.add_0_r. cring.
  - rewrite Nat.add_succ_r. cbn [csumf]. rewrite IHb. cring.
Qed.
Lemma cyc : forall n i j, (i < n)%nat -> (j < n)%nat -> ((j + n - i) mod n)%nat = if (j <? i)%nat then (j + n - i)%nat else (j - i)%nat.
Proof.
  intros n i j I J. destruct (Nat.ltb_spec j i).
  - apply Nat.mod_small. lia.
  - replace (j + n - i)%nat with ((j - i) + 1 * n)%nat by lia. rewrite Nat.mod_add by lia. apply Nat.mod_small. lia.
Qed.
Lemma csumf_shift : forall n i G, (i < n)%nat -> csumf n (fun j => G ((j + n - i) mod n)%nat) = csumf n G.
Proof.
  intros n i G I. replace n with (i + (n - i))%nat at 1 by lia. rewrite csumf_app.
  replace (csumf n G) with (csumf ((n - i) + i) G) by (f_equal; lia). rewrite csumf_app.
  replace (csumf i (fun j => G ((j + n - i) mod n)%nat)) with (csumf i (fun j => G (n - i + j)%nat)).
  - replace (csumf (n - i) (fun j => G ((i + j + n - i) mod n)%nat)) with (csumf (n - i) G); [cring|].
    apply csumf_ext. intros j J. rewrite cyc by lia. destruct (Nat.ltb_spec (i + j) i); [lia|]. f_equal. lia.
  - apply csumf_ext. intros j J. rewrite cyc by lia. destruct (Nat.ltb_spec j i); [|lia]. f_equal. lia.
Qed.
Lemma conv_theorem : forall s n xs hs l, s = 1 \/ s = -1 -> dft s n (map (cconv n xs hs) (seq 0 n)) l = cmul (dft s n xs l) (dft s n hs l).
Proof.
  intros s n xs hs l S. unfold dft at 1.
  transitivity (csumf n (fun j => csumf n (fun i => cmul (cmul (nth i xs (0, 0)) (nth ((j + n - i) mod n) hs (0, 0))) (cis (s * (2 * PI) * INR j * INR l / INR n))))).
  { apply csumf_ext. intros j J. rewrite nth_map_seq by auto. unfold cconv. replace (cmul (csumf _ _) _) with (cmul (cis (s * (2 * PI) * INR j * INR l / INR n)) (csumf n (fun i => cmul (nth i xs (0, 0)) (nth ((j + n - i) mod n) hs (0, 0))))) by cring.
    rewrite <- csumf_mul. apply csumf_ext. intros i I. cring. }
  rewrite csumf_swap. unfold dft. set (H := csumf n (fun i => cmul (nth i hs (0, 0)) (cis (s * (2 * PI) * INR i * INR l / INR n)))).
  transitivity (cmul H (csumf n (fun i => cmul (nth i xs (0, 0)) (cis (s * (2 * PI) * INR i * INR l / INR n))))); [|cring].
  rewrite <- csumf_mul. apply csumf_ext. intros i I.
  transitivity (cmul (cmul (nth i xs (0, 0)) (cis (s * (2 * PI) * INR i * INR l / INR n))) H); [|cring].
  unfold H. rewrite <- csumf_mul.
  rewrite <- (csumf_shift n i (fun m => cmul (cmul (nth i xs (0, 0)) (cis (s * (2 * PI) * INR i * INR l / INR n))) (cmul (nth m hs (0, 0)) (cis (s * (2 * PI) * INR m * INR l / INR n)))) I).
  apply csumf_ext. intros j J.
  assert (N0 : 0 < INR n) by (apply INR_pos; lia).
  assert (C : cis (s * (2 * PI) * INR j * INR l / INR n) = cmul (cis (s * (2 * PI) * INR i * INR l / INR n)) (cis (s * (2 * PI) * INR ((j + n - i) mod n) * INR l / INR n))).
  { rewrite cis_add. rewrite cyc by auto. destruct (Nat.ltb_spec j i).
    - rewrite minus_INR, plus_INR by lia. rewrite <- (cis_turns (s * (2 * PI) * INR j * INR l / INR n) s l S). f_equal. field. lra.
    - rewrite minus_INR by lia. f_equal. field. lra. }
  rewrite C. cring.
Qed.
(** enough zeros behind both: the cyclic sum is the filter's *)
Lemma cconv_lconv : forall n a b xs hs j, (forall i, (a <= i)%nat -> nth i xs (0, 0) = (0, 0)) -> (forall i, (b <= i)%nat -> nth i hs (0, 0) = (0, 0)) -> (a + b <= n + 1)%nat -> (j < n)%nat ->
  cconv n xs hs j = lconv xs hs j.
Proof.
  intros n a b xs hs j HX HH AB J. unfold cconv, lconv. replace n with (S j + (n - S j))%nat at 1 by lia. rewrite csumf_app.
  replace (csumf (n - S j) _) with ((0, 0) : R * R).
  - rewrite (csumf_ext (S j) _ (fun i => cmul (nth i xs (0, 0)) (nth (j - i) hs (0, 0)))); [cring|].
    intros i I. rewrite cyc by lia. destruct (Nat.ltb_spec j i); [lia|]. reflexivity.
  - transitivity (csumf (n - S j) (fun _ => (0, 0))); [symmetry; apply csumf_zero|]. symmetry. apply csumf_ext. intros t T. rewrite cyc by lia. destruct (Nat.ltb_spec j (S j + t)); [|lia].
    destruct (Nat.le_gt_cases a (S j + t)) as [A|A].
    + rewrite HX by auto. cring.
    + rewrite (HH (j + n - (S j + t))%nat) by lia. cring.
Qed.
Lemma cprod_diff : forall x h X H ex eh A M, cabs (csub x X) <= ex -> cabs (csub h H) <= eh -> cabs h <= A -> cabs X <= M -> cabs (csub (cmul x h) (cmul X H)) <= ex * A + M * eh.
Proof.
  intros x h X H ex eh A M Hx Hh HA HM.
  eapply Rle_trans; [apply (csub_tri _ (cmul X h))|].
  replace (csub (cmul x h) (cmul X h)) with (cmul (csub x X) h) by cring. replace (csub (cmul X h) (cmul X H)) with (cmul X (csub h H)) by cring.
  rewrite !cabs_cmul. pose proof (cabs_pos (csub x X)). pose proof (cabs_pos (csub h H)). pose proof (cabs_pos h). pose proof (cabs_pos X).
  apply Rplus_le_compat; apply Rmult_le_compat; auto.
Qed.
End Real.

Section Conv.
Context {T : Type} (P : MixedOps T).
Variables (val : Cartesian T -> R * R) (ok : Cartesian T -> Prop).
Variables c g d Bmax a b Bm : R.
Hypothesis C0 : (0 <= c)%R.
Hypothesis G0 : (0 <= g)%R.
Hypothesis A0 : (0 <= a)%R.
Hypothesis B0 : (0 <= b)%R.
Hypothesis BMM : (Bm <= Bmax)%R.
Hypothesis BF : forall w e o W A, ok w -> ok e -> ok o -> cabs W = 1%R -> (cabs (csub (val w) W) <= d)%R ->
  (cabs (val e) <= A)%R -> (cabs (val o) <= A)%R -> ((2 + c) * A + g <= Bmax)%R ->
  exists t h l, cartesian_mul P w o = Ok t /\ cartesian_add P e t = Ok h /\ cartesian_sub P e t = Ok l /\ ok h /\ ok l /\
  (cabs (csub (val h) (cadd (val e) (cmul W (val o)))) <= c * A + g)%R /\ (cabs (csub (val l) (csub (val e) (cmul W (val o)))) <= c * A + g)%R.
Hypothesis ML : forall x h A B, ok x -> ok h -> (cabs (val x) <= A)%R -> (cabs (val h) <= B)%R -> (A <= Bm)%R -> (B <= Bm)%R -> ((1 + a) * (A * B) + b <= Bmax)%R ->
  exists p, cartesian_mul P x h = Ok p /\ ok p /\ (cabs (csub (val p) (cmul (val x) (val h))) <= a * (A * B) + b)%R.
Lemma products_ok : forall n X H FX FH ex eh A B M, (0 <= M)%R -> (forall x, In x X -> ok x /\ (cabs (val x) <= A)%R) -> (forall h, In h H -> ok h /\ (cabs (val h) <= B)%R) ->
  (A <= Bm)%R -> (B <= Bm)%R -> ((1 + a) * (A * B) + b <= Bmax)%R -> near val ex n X FX -> near val eh n H FH -> (forall j, (cabs (FX j) <= M)%R) ->
  exists Y, products P X H = Ok Y /\ (forall y, In y Y -> ok y) /\ near val (ex * B + M * eh + (a * (A * B) + b)) n Y (fun j => cmul (FX j) (FH j)).
Proof using A0 B0 ML.
  induction n as [|n IH]; intros X H FX FH ex eh A B M M0 HX HH LA LB R NX NH FM; destruct NX as [LX NX], NH as [LH NH].
  - destruct X; [|discriminate]. exists []. split; [reflexivity|]. split; [intros y []|]. split; [reflexivity|]. intros [|j] y; discriminate.
  - destruct X as [|x X]; [discriminate|]. destruct H as [|h H]; [discriminate|]. injection LX as LX. injection LH as LH.
    destruct (HX x (or_introl eq_refl)) as [Ox Ax]. destruct (HH h (or_introl eq_refl)) as [Oh Bh].
    destruct (ML x h A B Ox Oh Ax Bh LA LB R) as (p & Ep & Op & Np).
    destruct (IH X H (fun j => FX (S j)) (fun j => FH (S j)) ex eh A B M M0) as (Y & EY & OY & LY & NY); auto.
    { intros y I. apply HX. right. auto. } { intros y I. apply HH. right. auto. }
    { split; [auto|]. intros j y J. apply (NX (S j) y J). } { split; [auto|]. intros j y J. apply (NH (S j) y J). }
    exists (p :: Y). cbn [products]. rewrite Ep. cbn [bind]. rewrite EY. cbn [bind]. split; [reflexivity|]. split; [intros y [<-|I]; auto|].
    split; [cbn; f_equal; auto|]. intros [|j] y J; [|apply (NY j y J)]. injection J as <-.
    eapply Rle_trans; [apply (csub_tri _ (cmul (val x) (val h)))|].
    pose proof (cprod_diff (val x) (val h) (FX O) (FH O) ex eh B M (NX O x eq_refl) (NH O h eq_refl) Bh (FM O)). lra.
Qed.
Notation amp M k := (2 ^ k * (M + g) * (1 + c / 2) ^ k)%R.
Notation err M k := (2 ^ k * ((M + g) * (1 + c / 2) ^ k - M))%R.
Lemma conv_near : forall s, (s = 1 \/ s = -1)%R -> forall Mx Mh tw tw' k, (0 <= Mx)%R -> (0 <= Mh)%R -> 
  let Mp := ((1 + a) * (amp Mx k * amp Mh k) + b)%R in (amp Mx k <= Bm)%R -> (amp Mh k <= Bm)%R -> (amp Mp k <= Bmax)%R ->
  tables val ok s d k tw -> tables val ok (- s) d k tw' ->
  forall xs hs, length xs = (2 ^ k)%nat -> length hs = (2 ^ k)%nat -> (forall x, In x xs -> ok x /\ (cabs (val x) <= Mx)%R) -> (forall h, In h hs -> ok h /\ (cabs (val h) <= Mh)%R) ->
  exists zs, fastconv P tw tw' k xs hs = Ok zs /\ (forall z, In z zs -> ok z) /\
  near val (err Mp k + 2 ^ k * (err Mx k * amp Mh k + 2 ^ k * Mx * err Mh k + (a * (amp Mx k * amp Mh k) + b))) (2 ^ k) zs
    (fun j => cmul (2 ^ k, 0)%R (cconv (2 ^ k) (map val xs) (map val hs) j)).
Proof using C0 G0 A0 B0 BMM BF ML.
  intros s S Mx Mh tw tw' k X0 H0 Mp RX RH RP TW TW' xs hs Lx Lh HX HH.
  pose proof (pow2 k) as P2. pose proof (powq c C0 k) as PQ.
  assert (S' : (- s = 1 \/ - s = -1)%R) by (destruct S as [-> | ->]; [right|left]; lra).
  assert (AM : forall M, (0 <= M -> 0 <= amp M k)%R) by (intros M M0; apply Rmult_le_pos; [apply Rmult_le_pos|]; lra).
  assert (AE : forall M, (2 ^ k * M + err M k = amp M k)%R) by (intros; ring).
  pose proof (AM Mx X0) as AX. pose proof (AM Mh H0) as AH.
  assert (Mp0 : (0 <= Mp)%R) by (unfold Mp; pose proof (Rmult_le_pos _ _ AX AH); nra).
  assert (Pb : (Mp <= Bmax)%R).
  { eapply Rle_trans; [|exact RP]. assert (1 * 1 <= 2 ^ k * (1 + c / 2) ^ k)%R by (apply Rmult_le_compat; lra). nra. }
  destruct (fft_near P val ok c g d Bmax C0 G0 BF s S Mx tw k X0 ltac:(lra) TW xs Lx HX) as (X & EX & OX & LX & NX).
  destruct (fft_near P val ok c g d Bmax C0 G0 BF s S Mh tw k H0 ltac:(lra) TW hs Lh HH) as (H & EH & OH & LH & NH).
  unfold fft_e in NX, NH.
  assert (DB : forall vs M l, (0 <= M)%R -> (forall v, In v vs -> ok v /\ (cabs (val v) <= M)%R) -> (cabs (dft s (2 ^ k) (map val vs) l) <= 2 ^ k * M)%R).
  { intros vs M l M0 HV. rewrite <- INR_pow2. apply dft_bound; auto. intros x I. apply in_map_iff in I. destruct I as (v & <- & Hv). apply HV; auto. }
  assert (BO : forall V vs M, (0 <= M)%R -> (forall v, In v vs -> ok v /\ (cabs (val v) <= M)%R) -> (forall y, In y V -> ok y) ->
     (forall j y, nth_error V j = Some y -> (cabs (csub (val y) (dft s (2 ^ k) (map val vs) j)) <= err M k)%R) -> forall y, In y V -> ok y /\ (cabs (val y) <= amp M k)%R).
  { intros V vs M M0 HV OV NV y I. split; auto. apply In_nth_error in I. destruct I as (j & J). pose proof (NV j y J). pose proof (cabs_via (val y) (dft s (2 ^ k) (map val vs) j)).
    pose proof (DB vs M j M0 HV). rewrite <- AE. lra. }
  pose proof (BO X xs Mx X0 HX OX NX) as BX. pose proof (BO H hs Mh H0 HH OH NH) as BH.
  destruct (products_ok (2 ^ k) X H (dft s (2 ^ k) (map val xs)) (dft s (2 ^ k) (map val hs)) (err Mx k) (err Mh k) (amp Mx k) (amp Mh k) (2 ^ k * Mx)) as (Y & EY & OY & LY & NY); auto.
  { nra. } { split; auto. } { split; auto. }
  set (ep := (err Mx k * amp Mh k + 2 ^ k * Mx * err Mh k + (a * (amp Mx k * amp Mh k) + b))%R) in *.
  assert (BY : forall y, In y Y -> ok y /\ (cabs (val y) <= Mp)%R).
  { intros y I. split; auto. apply In_nth_error in I. destruct I as (j & J).
    (* directly from the product *)
    assert (PB : forall X H Y j y, products P X H = Ok Y -> (forall x, In x X -> ok x /\ (cabs (val x) <= amp Mx k)%R) -> (forall h, In h H -> ok h /\ (cabs (val h) <= amp Mh k)%R) -> nth_error Y j = Some y -> (cabs (val y) <= Mp)%R).
    { clear - ML A0 B0 RX RH Pb AX AH. induction X as [|x X IH]; intros H Y j y E HX HH J; [injection E as <-; destruct j; discriminate|].
      destruct H as [|h H]; [injection E as <-; destruct j; discriminate|]. cbn [products] in E.
      destruct (HX x (or_introl eq_refl)) as [Ox Ax]. destruct (HH h (or_introl eq_refl)) as [Oh Bh].
      destruct (ML x h _ _ Ox Oh Ax Bh RX RH Pb) as (p & Ep & Op & Np). rewrite Ep in E. cbn [bind] in E.
      destruct (products P X H) as [Y'| |] eqn:E'; try discriminate. cbn [bind] in E. injection E as <-. destruct j as [|j].
      - injection J as <-. pose proof (cabs_via (val p) (cmul (val x) (val h))) as V. rewrite cabs_cmul in V.
        assert (cabs (val x) * cabs (val h) <= amp Mx k * amp Mh k)%R by (apply Rmult_le_compat; auto; apply cabs_pos). unfold Mp. lra.
      - apply (IH H Y' j y E'); auto; intros z I; [apply HX|apply HH]; right; auto. }
    apply (PB X H Y j y EY BX BH J). }
  destruct (fft_near P val ok c g d Bmax C0 G0 BF (- s) S' Mp tw' k Mp0 RP TW' Y LY BY) as (zs & EZ & OZ & LZ & NZ). unfold fft_e in NZ.
  exists zs. unfold fastconv. rewrite EX. cbn [bind]. rewrite EH. cbn [bind]. rewrite EY. cbn [bind]. split; auto. split; auto. split; auto.
  intros j z J. pose proof (NZ j z J) as N1.
  assert (Jn : (j < 2 ^ k)%nat). { rewrite <- LZ. apply nth_error_Some. rewrite J. discriminate. }
  set (cv := cconv (2 ^ k) (map val xs) (map val hs)) in *.
  pose proof (dft_back s (2 ^ k) (map cv (seq 0 (2 ^ k))) j S Jn) as DK. rewrite INR_pow2, nth_map_seq in DK by auto. rewrite <- DK.
  eapply Rle_trans; [apply (csub_tri _ (dft (- s) (2 ^ k) (map val Y) j))|].
  assert (D : (cabs (csub (dft (- s) (2 ^ k) (map val Y) j) (dft (- s) (2 ^ k) (map (dft s (2 ^ k) (map cv (seq 0 (2 ^ k)))) (seq 0 (2 ^ k))) j)) <= INR (2 ^ k) * ep)%R).
  { apply dft_diff. intros i I. rewrite nth_map_seq by auto. destruct (nth_error Y i) as [y|] eqn:Y'; [|apply nth_error_None in Y'; lia].
    rewrite (nth_error_nth (map val Y) i (0, 0)%R (map_nth_error val _ _ Y')). unfold cv. rewrite conv_theorem by auto. apply NY; auto. }
  rewrite INR_pow2 in D. lra.
Qed.
End Conv.

(** ** instances *)
From Verif Require Import ComplexProofs FirProofs.
Open Scope Z_scope.
Lemma ml_int : forall m t, isigned t = true -> forall x h A B, True -> True -> (cabs (cvz x) <= A)%R -> (cabs (cvz h) <= B)%R -> (A <= IZR (imax t))%R -> (B <= IZR (imax t))%R -> ((1 + 0) * (A * B) + 0 <= IZR (imax t))%R ->
  exists p, cartesian_mul (int_ops m t) x h = Ok p /\ True /\ (cabs (csub (cvz p) (cmul (cvz x) (cvz h))) <= 0 * (A * B) + 0)%R.
Proof.
  intros m t S w o A B _ _ HA HB _ _ R.
  set (p := mkC (re w * re o - im w * im o) (re w * im o + im w * re o)).
  assert (Vp : cvz p = cmul (cvz w) (cvz o)) by (unfold cvz, cmul, p; cbn [re im fst snd]; rewrite minus_IZR, plus_IZR, !mult_IZR; reflexivity).
  assert (Ap : (cabs (cvz p) <= A * B)%R) by (rewrite Vp, cabs_cmul; apply Rmult_le_compat; auto; apply cabs_pos).
  assert (PR : forall a b, (Rabs (IZR a) <= cabs (cvz w) -> Rabs (IZR b) <= cabs (cvz o) -> in_range t (a * b))%R).
  { intros a b Ha Hb. apply in_signed; auto. rewrite mult_IZR, Rabs_mult. assert (Rabs (IZR a) * Rabs (IZR b) <= A * B)%R by (apply Rmult_le_compat; try apply Rabs_pos; lra). lra. }
  pose proof (cabs_fst (cvz w) : (Rabs (IZR (re w)) <= _)%R) as w1. pose proof (cabs_snd (cvz w) : (Rabs (IZR (im w)) <= _)%R) as w2.
  pose proof (cabs_fst (cvz o) : (Rabs (IZR (re o)) <= _)%R) as o1. pose proof (cabs_snd (cvz o) : (Rabs (IZR (im o)) <= _)%R) as o2.
  pose proof (cabs_fst (cvz p) : (Rabs (IZR (re p)) <= _)%R) as p1. pose proof (cabs_snd (cvz p) : (Rabs (IZR (im p)) <= _)%R) as p2.
  assert (HM : forall a b, o_mul (int_ops m t) a b = fin m t (a * b)) by reflexivity.
  pose proof (word_int m t) as HO. exists p. split; [|split; auto].
  - unfold cartesian_mul, ops_mul_cartesian. rewrite !HM. rewrite !(fin_in m t _ (PR _ _ w1 o1)), !(fin_in m t _ (PR _ _ w2 o2)), !(fin_in m t _ (PR _ _ w1 o2)), !(fin_in m t _ (PR _ _ w2 o1)). cbn [bind].
    rewrite (word_sub _ _ _ HO), (word_add _ _ _ HO).
    rewrite (fin_in m t (re w * re o - im w * im o)) by (apply in_signed; auto; change (Rabs (IZR (re p)) <= IZR (imax t))%R; lra). cbn [bind].
    rewrite (fin_in m t (re w * im o + im w * re o)) by (apply in_signed; auto; change (Rabs (IZR (im p)) <= IZR (imax t))%R; lra). reflexivity.
  - rewrite <- Vp. replace (csub _ _) with (0, 0)%R; [rewrite cabs0; lra|]. apply ceq; unfold csub; cbn [fst snd]; ring.
Qed.
Lemma conv_int : forall m t, isigned t = true -> forall (xs hs : list (Cartesian Z)) Mx Mh, length xs = 4%nat -> length hs = 4%nat -> (1 <= Mx)%R -> (1 <= Mh)%R ->
  (forall x, In x xs -> (cabs (cvz x) <= Mx)%R) -> (forall h, In h hs -> (cabs (cvz h) <= Mh)%R) -> (64 * (Mx * Mh) <= IZR (imax t))%R ->
  exists zs, fastconv (int_ops m t) (tw4 (-1)) (tw4 1) 2 xs hs = Ok zs /\ length zs = 4%nat /\
  forall j z, nth_error zs j = Some z -> cvz z = cmul (4, 0)%R (cconv 4 (map cvz xs) (map cvz hs) j).
Proof.
  intros m t S xs hs Mx Mh Lx Lh X1 H1 HX HH R.
  pose proof (tw4_ok 1 (or_introl eq_refl)) as T2. replace (IZR 1) with (- IZR (-1))%R in T2 by lra.
  destruct (conv_near (int_ops m t) cvz (fun _ => True) 0 0 0 (IZR (imax t)) 0 0 (IZR (imax t)) ltac:(lra) ltac:(lra) ltac:(lra) ltac:(lra) ltac:(lra)
    ltac:(exact (bf_int m t S)) ltac:(exact (ml_int m t S)) (IZR (-1)) (or_intror eq_refl) Mx Mh (tw4 (-1)) (tw4 1) 2%nat ltac:(lra) ltac:(lra)) with (xs := xs) (hs := hs) as (zs & E & _ & N); auto.
  { cbn [pow]. nra. } { cbn [pow]. nra. } { cbn [pow]. nra. } { apply (tw4_ok (-1)). right. reflexivity. }
  exists zs. split; auto.
  match type of N with near _ ?e _ _ _ => replace e with 0%R in N by (cbn [pow]; field) end.
  apply near_0 in N. destruct N as [L N]. split; auto. intros j z J. rewrite (N j z J). f_equal. apply ceq; cbn; lra.
Qed.
Lemma ml_fixed : forall m f, supported f = true -> fsigned f = true -> forall x h A B, True -> True -> (cabs (cval f x) <= A)%R -> (cabs (cval f h) <= B)%R -> (A <= fval f (fmax f))%R -> (B <= fval f (fmax f))%R ->
  ((1 + 0) * (A * B) + 224 / 100 * ulp f <= fval f (fmax f))%R ->
  exists p, cartesian_mul (fixed_ops m f) x h = Ok p /\ True /\ (cabs (csub (cval f p) (cmul (cval f x) (cval f h))) <= 0 * (A * B) + 224 / 100 * ulp f)%R.
Proof.
  intros m f F Sg x h A B _ _ HA HB _ _ R.
  assert (cabs (cval f x) * cabs (cval f h) <= A * B)%R by (apply Rmult_le_compat; auto; apply cabs_pos).
  destruct (fixed_mul_near m f F Sg x h ltac:(lra)) as (p & E & N). exists p. split; auto. split; auto. lra.
Qed.
Lemma conv_fixed : forall m f, supported f = true -> fsigned f = true -> forall s d Mx Mh k tw tw', (s = 1 \/ s = -1 -> 0 <= d <= 1 -> 0 <= Mx -> 0 <= Mh ->
  let g := 224 / 100 * ulp f in let q := 1 + d / 2 in let amp M := 2 ^ k * (M + g) * q ^ k in let err M := 2 ^ k * ((M + g) * q ^ k - M) in let Mp := amp Mx * amp Mh + g in
  amp Mx <= fval f (fmax f) -> amp Mh <= fval f (fmax f) -> amp Mp <= fval f (fmax f) ->
  tables (cval f) (fun _ => True) s d k tw -> tables (cval f) (fun _ => True) (- s) d k tw' -> forall xs hs, length xs = (2 ^ k)%nat -> length hs = (2 ^ k)%nat ->
  (forall x, In x xs -> cabs (cval f x) <= Mx) -> (forall h, In h hs -> cabs (cval f h) <= Mh) ->
  exists zs, fastconv (fixed_ops m f) tw tw' k xs hs = Ok zs /\
  near (cval f) (err Mp + 2 ^ k * (err Mx * amp Mh + 2 ^ k * Mx * err Mh + g)) (2 ^ k) zs (fun j => cmul (2 ^ k, 0) (cconv (2 ^ k) (map (cval f) xs) (map (cval f) hs) j)))%R.
Proof.
  intros m f F Sg s d Mx Mh k tw tw' S D X0 H0 g q amp err Mp RX RH RP TW TW' xs hs Lx Lh HX HH. assert (U : (0 < ulp f)%R) by apply bpow_gt_0.
  destruct (conv_near (fixed_ops m f) (cval f) (fun _ => True) d g d (fval f (fmax f)) 0 g (fval f (fmax f)) ltac:(lra) ltac:(unfold g; lra) ltac:(lra) ltac:(unfold g; lra) ltac:(lra)
    ltac:(exact (bf_fixed m f F Sg d D)) ltac:(exact (ml_fixed m f F Sg)) s S Mx Mh tw tw' k X0 H0 RX RH) with (xs := xs) (hs := hs) as (zs & E & _ & N); auto.
  { replace ((1 + 0) * _ + g)%R with Mp by (unfold Mp, amp, q; ring). exact RP. }
  exists zs. split; auto. match type of N with near _ ?e _ _ _ => match goal with |- near _ ?e' _ _ _ => replace e' with e; auto end end. unfold err, Mp, amp, q. ring.
Qed.
Section MlFloat.
Context {prec emax : Z} {Hp : Prec_gt_0 prec} {He : Prec_lt_emax prec emax}.
Notation float := (binary_float prec emax).
Notation u := (bpow radix2 (- prec)).
Hypothesis P5 : 5 <= prec.
Lemma ml_float : forall K, 3 - emax <= 2 * K -> 2 * K + 1 < emax -> forall (x h : Cartesian float) A B, cfin x -> cfin h -> (cabs (cvalf x) <= A)%R -> (cabs (cvalf h) <= B)%R -> (A <= bpow radix2 K)%R -> (B <= bpow radix2 K)%R ->
  ((1 + 3 * u) * (A * B) + 3 * bpow radix2 (3 - emax - prec) <= bpow radix2 (K + 1))%R ->
  exists p, cartesian_mul float_ops x h = Ok p /\ cfin p /\ (cabs (csub (cvalf p) (cmul (cvalf x) (cvalf h))) <= 3 * u * (A * B) + 3 * bpow radix2 (3 - emax - prec))%R.
Proof using P5.
  intros K K1 K2 x h A B Fx Fh HA HB LA LB _.
  destruct (float_mul_near P5 K K1 K2 x h Fx Fh ltac:(lra) ltac:(lra)) as (p & E & Fp & N). exists p. split; auto. split; auto.
  assert (cabs (cvalf x) * cabs (cvalf h) <= A * B)%R by (apply Rmult_le_compat; auto; apply cabs_pos). pose proof (bpow_gt_0 radix2 (- prec)). nra.
Qed.
End MlFloat.
Lemma conv_f32 : forall s d Mx Mh k (tw tw' : nat -> list (Cartesian f32)), (s = 1 \/ s = -1 -> 0 <= d <= / 8 -> 0 <= Mx -> 0 <= Mh ->
  let u := bpow radix2 (-24) in let eta := bpow radix2 (-149) in let g := 4 * eta in let q := 1 + (d + 6 * u) / 2 in
  let amp M := 2 ^ k * (M + g) * q ^ k in let err M := 2 ^ k * ((M + g) * q ^ k - M) in let Mp := (1 + 3 * u) * (amp Mx * amp Mh) + 3 * eta in
  amp Mx <= bpow radix2 63 -> amp Mh <= bpow radix2 63 -> amp Mp <= bpow radix2 64 ->
  tables cvalf cfin s d k tw -> tables cvalf cfin (- s) d k tw' -> forall xs hs, length xs = (2 ^ k)%nat -> length hs = (2 ^ k)%nat ->
  (forall x, In x xs -> cfin x /\ cabs (cvalf x) <= Mx) -> (forall h, In h hs -> cfin h /\ cabs (cvalf h) <= Mh) ->
  exists zs, fastconv float_ops tw tw' k xs hs = Ok zs /\ (forall z, In z zs -> cfin z) /\
  near cvalf (err Mp + 2 ^ k * (err Mx * amp Mh + 2 ^ k * Mx * err Mh + (3 * u * (amp Mx * amp Mh) + 3 * eta))) (2 ^ k) zs (fun j => cmul (2 ^ k, 0) (cconv (2 ^ k) (map cvalf xs) (map cvalf hs) j)))%R.
Proof.
  intros s d Mx Mh k tw tw' S D X0 H0 u eta g q amp err Mp RX RH RP TW TW' xs hs Lx Lh HX HH. pose proof (bpow_gt_0 radix2 (-149)). pose proof (bpow_gt_0 radix2 (-24)).
  exact (conv_near (float_ops (prec := 24) (emax := 128)) cvalf cfin (d + 6 * bpow radix2 (-24)) g d (bpow radix2 64) (3 * u) (3 * eta) (bpow radix2 63)
    ltac:(lra) ltac:(unfold g, eta; lra) ltac:(unfold u; lra) ltac:(unfold eta; lra) ltac:(apply bpow_le; lia)
    (bf_float (prec := 24) (emax := 128) ltac:(lia) 63 ltac:(lia) ltac:(lia) ltac:(lia) d D) (ml_float (prec := 24) (emax := 128) ltac:(lia) 63 ltac:(lia) ltac:(lia))
    s S Mx Mh tw tw' k X0 H0 RX RH RP TW TW' xs hs Lx Lh HX HH).
Qed.
Lemma conv_f64 : forall s d Mx Mh k (tw tw' : nat -> list (Cartesian f64)), (s = 1 \/ s = -1 -> 0 <= d <= / 8 -> 0 <= Mx -> 0 <= Mh ->
  let u := bpow radix2 (-53) in let eta := bpow radix2 (-1074) in let g := 4 * eta in let q := 1 + (d + 6 * u) / 2 in
  let amp M := 2 ^ k * (M + g) * q ^ k in let err M := 2 ^ k * ((M + g) * q ^ k - M) in let Mp := (1 + 3 * u) * (amp Mx * amp Mh) + 3 * eta in
  amp Mx <= bpow radix2 511 -> amp Mh <= bpow radix2 511 -> amp Mp <= bpow radix2 512 ->
  tables cvalf cfin s d k tw -> tables cvalf cfin (- s) d k tw' -> forall xs hs, length xs = (2 ^ k)%nat -> length hs = (2 ^ k)%nat ->
  (forall x, In x xs -> cfin x /\ cabs (cvalf x) <= Mx) -> (forall h, In h hs -> cfin h /\ cabs (cvalf h) <= Mh) ->
  exists zs, fastconv float_ops tw tw' k xs hs = Ok zs /\ (forall z, In z zs -> cfin z) /\
  near cvalf (err Mp + 2 ^ k * (err Mx * amp Mh + 2 ^ k * Mx * err Mh + (3 * u * (amp Mx * amp Mh) + 3 * eta))) (2 ^ k) zs (fun j => cmul (2 ^ k, 0) (cconv (2 ^ k) (map cvalf xs) (map cvalf hs) j)))%R.
Proof.
  intros s d Mx Mh k tw tw' S D X0 H0 u eta g q amp err Mp RX RH RP TW TW' xs hs Lx Lh HX HH. pose proof (bpow_gt_0 radix2 (-1074)). pose proof (bpow_gt_0 radix2 (-53)).
  exact (conv_near (float_ops (prec := 53) (emax := 1024)) cvalf cfin (d + 6 * bpow radix2 (-53)) g d (bpow radix2 512) (3 * u) (3 * eta) (bpow radix2 511)
    ltac:(lra) ltac:(unfold g, eta; lra) ltac:(unfold u; lra) ltac:(unfold eta; lra) ltac:(apply bpow_le; lia)
    (bf_float (prec := 53) (emax := 1024) ltac:(lia) 511 ltac:(lia) ltac:(lia) ltac:(lia) d D) (ml_float (prec := 53) (emax := 1024) ltac:(lia) 511 ltac:(lia) ltac:(lia))
    s S Mx Mh tw tw' k X0 H0 RX RH RP TW TW' xs hs Lx Lh HX HH).
Qed.
