(** * Proofs: distances and decisions. *)

From Coq Require Classical_Prop.
From Coq Require Import ZArith Reals Lia Lra Psatz Bool List.
From Flocq Require Import Core.Core IEEE754.BinarySingleNaN.
From Verif Require Import Base FloatBase Literals Traits Trig IntImpl FixedPrim FixedImpl FloatImpl Complex Spec SpecFilter SpecRotor SpecFourier SpecDist
  Lemmas FloatLemmas FloatKit FloatSum FloatProofs ScalarProofs ScalarProofs2 FilterProofs FloatArith FloatFilter RotorProofs FourierProofs AngleProofs MagProofs DisplayProofs FftProofs UnitProofs.
Import ListNotations.
Open Scope Z_scope.

(** ** decisions *)
Section Generic.
Context {T : Type} (P : MixedOps T) (Q : nat -> MixedSqrt T) (W : MixedPowi T) (val : T -> R) (fin : T -> Prop) (D : Cartesian T -> R) (z : Cartesian T) (k a : R).
Hypothesis LT : forall x y, fin x -> fin y -> o_lt P x y = true <-> (val x < val y)%R.
Notation ok s := (exists d, returns (fun fuel => distance P (Q fuel) W z s) d /\ fin d /\ (Rabs (val d - D s) <= k * D s + a)%R).
Lemma nearer_ok : forall l best bd, fin bd -> (Rabs (val bd - D best) <= k * D best + a)%R -> (forall s, In s l -> ok s) ->
  exists r, returns (fun fuel => nearer P (Q fuel) W z best bd l) r /\ In r (best :: l) /\
  ((1 - k) * D r - a <= val bd)%R /\ (forall s, In s l -> ((1 - k) * D r - a <= (1 + k) * D s + a)%R).
Proof using LT.
  induction l as [|s l IH]; intros best bd Fb Nb H.
  - exists best. split; [exists O; reflexivity|]. split; [left; reflexivity|]. split; [apply Rabs_le_inv in Nb; lra|intros s []].
  - destruct (H s (or_introl eq_refl)) as (d & (n & Rd) & Fd & Nd). pose proof (LT d bd Fd Fb) as L. destruct (o_lt P d bd) eqn:C.
    + destruct (IH s d Fd Nd) as (r & (n' & Rr) & I & B & A); [intros; apply H; right; auto|].
      exists r. split; [exists (Nat.max n n'); intros f Hf; cbn [nearer]; rewrite Rd by lia; cbn [bind]; rewrite C; apply Rr; lia|].
      split; [destruct I as [<-|I]; right; [left|right]; auto|]. assert (val d < val bd)%R by (apply L; reflexivity). split; [lra|].
      intros x [<-|X]; [apply Rabs_le_inv in Nd; lra|auto].
    + destruct (IH best bd Fb Nb) as (r & (n' & Rr) & I & B & A); [intros; apply H; right; auto|].
      exists r. split; [exists (Nat.max n n'); intros f Hf; cbn [nearer]; rewrite Rd by lia; cbn [bind]; rewrite C; apply Rr; lia|].
      split; [destruct I as [<-|I]; [left|right; right]; auto|]. assert (~ val d < val bd)%R by (intros X; apply L in X; discriminate). split; [lra|].
      intros x [<-|X]; [apply Rabs_le_inv in Nd; lra|auto].
Qed.
Lemma nearest_ok : forall first l, (forall s, In s (first :: l) -> ok s) ->
  exists r, returns (fun fuel => nearest P (Q fuel) W z first l) r /\ In r (first :: l) /\ (forall s, In s (first :: l) -> ((1 - k) * D r <= (1 + k) * D s + 2 * a)%R).
Proof using LT.
  intros first l H. destruct (H first (or_introl eq_refl)) as (d & (n & Rd) & Fd & Nd).
  destruct (nearer_ok l first d Fd Nd) as (r & (n' & Rr) & I & B & A); [intros; apply H; right; auto|].
  exists r. split; [exists (Nat.max n n'); intros f Hf; unfold nearest; rewrite Rd by lia; apply Rr; lia|]. split; auto.
  intros s [<-|S]; [apply Rabs_le_inv in Nd; lra|]. specialize (A s S). lra.
Qed.
End Generic.

(** ** fixed *)
Lemma wrap_neg : forall t n, 1 <= iwidth t -> isigned t = true -> wrap t (- n) = - wrap t n \/ wrap t (- n) = wrap t n.
Proof.
  intros t n W S. destruct (wrap_congr t W n) as [k K]. pose proof (wrap_range t W n) as R. unfold in_range, imin, imax in R. rewrite S in R.
  assert (E : 2 ^ iwidth t = 2 * 2 ^ (iwidth t - 1)) by (rewrite <- Z.pow_succ_r by lia; f_equal; lia).
  destruct (Z.eq_dec (wrap t n) (- 2 ^ (iwidth t - 1))) as [M|M].
  - right. apply wrap_unique with (k := - k - 1); auto; [unfold in_range, imin, imax; rewrite S; lia|]. lia.
  - left. apply wrap_unique with (k := - k); auto; [unfold in_range, imin, imax; rewrite S; lia|]. lia.
Qed.
Section Fixed.
Variables (m : mode) (f : fty).
Hypotheses (F : supported f = true) (Sg : fsigned f = true).
Notation dist m fuel := (distance (fixed_ops m f) (fixed_sqrt m f fuel) (fixed_powi m f)).
Lemma sq_sym : forall a b p q, fx_sub m f a b = Ok p -> fx_sub m f b a = Ok q -> fx_mul m f p p = fx_mul m f q q.
Proof using F Sg.
  intros a b p q. unfold fx_sub, fx_fin. pose proof (fwf_width f (supported_fwf f F)) as W. intros H1 H2.
  assert (E : forall n v, fin m (fity f) n = Ok v -> v = wrap (fity f) n).
  { intros n v. unfold fin. destruct (in_rangeb (fity f) n) eqn:R; [|destruct m; [discriminate|]; intros X; injection X as <-; reflexivity]. intros X; injection X as <-. apply in_rangeb_spec in R. rewrite wrap_id by (cbn; auto; lia). reflexivity. }
  apply E in H1, H2. subst. replace (b - a) with (- (a - b)) by ring. destruct (wrap_neg (fity f) (a - b)) as [-> | ->]; auto; try (cbn; lia). unfold fx_mul. rewrite Z.mul_opp_opp. reflexivity.
Qed.
Lemma dist_sym_fixed : forall fuel z w, (forall d e, dist m fuel z w = Ok d -> dist m fuel w z = Ok e -> d = e) /\ dist Release fuel z w = dist Release fuel w z.
Proof using F Sg.
  assert (G : forall mm fuel z w x y, cartesian_sub (fixed_ops mm f) z w = Ok x -> cartesian_sub (fixed_ops mm f) w z = Ok y ->
    (forall a b p q, fx_sub mm f a b = Ok p -> fx_sub mm f b a = Ok q -> fx_mul mm f p p = fx_mul mm f q q) -> MagProofs.fixed_mag mm f fuel x = MagProofs.fixed_mag mm f fuel y).
  { intros mm fuel z w x y Hx Hy SQ. unfold cartesian_sub in Hx, Hy. cbn [o_sub fixed_ops] in Hx, Hy.
    destruct (fx_sub mm f (re z) (re w)) as [a| |] eqn:A1; cbn [bind] in Hx; try discriminate. destruct (fx_sub mm f (im z) (im w)) as [b| |] eqn:A2; cbn [bind] in Hx; try discriminate.
    destruct (fx_sub mm f (re w) (re z)) as [c| |] eqn:A3; cbn [bind] in Hy; try discriminate. destruct (fx_sub mm f (im w) (im z)) as [d| |] eqn:A4; cbn [bind] in Hy; try discriminate.
    injection Hx as <-. injection Hy as <-. rewrite !fixed_mag_eq. cbn [re im]. rewrite (SQ _ _ _ _ A1 A3), (SQ _ _ _ _ A2 A4). reflexivity. }
  intros fuel z w. split.
  - unfold distance. intros d e. destruct (cartesian_sub (fixed_ops m f) z w) as [x| |] eqn:Hx; cbn [bind]; try discriminate. destruct (cartesian_sub (fixed_ops m f) w z) as [y| |] eqn:Hy; cbn [bind]; try discriminate.
    pose proof (G _ fuel _ _ _ _ Hx Hy sq_sym) as E. unfold MagProofs.fixed_mag in E. rewrite E. congruence.
  - unfold distance. pose proof (fwf_width f (supported_fwf f F)) as W.
    assert (RS : forall a b, fx_sub Release f a b = Ok (wrap (fity f) (a - b))) by (intros; unfold fx_sub, fx_fin; apply fin_release; exact W).
    assert (CS : forall z w, cartesian_sub (fixed_ops Release f) z w = Ok (mkC (wrap (fity f) (re z - re w)) (wrap (fity f) (im z - im w)))) by (intros; unfold cartesian_sub; cbn [o_sub fixed_ops]; rewrite !RS; reflexivity).
    pose proof (G Release fuel z w _ _ (CS z w) (CS w z)) as E. rewrite !CS. cbn [bind]. apply E.
    intros a b p q. rewrite !RS. intros H1 H2. injection H1 as <-. injection H2 as <-. replace (b - a) with (- (a - b)) by ring. destruct (wrap_neg (fity f) (a - b)) as [-> | ->]; auto; try (cbn; lia). unfold fx_mul. rewrite Z.mul_opp_opp. reflexivity.
Qed.
Notation D z s := (cabs (csub (cval f z) (cval f s))).
Lemma dist_fixed : 2 <= ffrac f <= fwidth f - 4 -> forall z w, (D z w <= fval f (fmax f))%R -> (D z w * D z w <= fval f (fmax f))%R ->
  exists r, returns (fun fuel => dist m fuel z w) r /\ (Rabs (fval f r - D z w) <= (/ 1000 + 5 * ulp f) * D z w + (3 * ulp f + R_sqrt.sqrt (2 * ulp f)))%R.
Proof using F Sg.
  intros R z w H1 H2. destruct (sub_fixed_near m f F Sg z w H1) as (d & E & V). rewrite <- V in H2 |- *.
  pose proof (cabs_sq (cval f d)) as CS. rewrite CS in H2. destruct (fixed_mag_acc m f d F Sg R H2) as (r & (n & Rn) & N). exists r. split.
  - exists n. intros k K. unfold distance. rewrite E. cbn [bind]. apply Rn, K.
  - unfold cabs at 1 2. cbn [cval fst snd]. lra.
Qed.
Lemma nearest_fixed : 2 <= ffrac f <= fwidth f - 4 -> forall z first l, (forall s, In s (first :: l) -> (D z s <= fval f (fmax f) /\ D z s * D z s <= fval f (fmax f))%R) ->
  let k := (/ 1000 + 5 * ulp f)%R in let a := (3 * ulp f + R_sqrt.sqrt (2 * ulp f))%R in
  exists r, returns (fun fuel => nearest (fixed_ops m f) (fixed_sqrt m f fuel) (fixed_powi m f) z first l) r /\ In r (first :: l) /\
  (forall s, In s (first :: l) -> ((1 - k) * D z r <= (1 + k) * D z s + 2 * a)%R).
Proof using F Sg.
  intros R z first l H k a. apply (nearest_ok (fixed_ops m f) (fixed_sqrt m f) (fixed_powi m f) (fval f) (fun _ => True) (fun s => D z s) z k a).
  - intros x y _ _. rewrite fixed_lt. rewrite Z.ltb_lt. unfold fval. assert (0 < bpow radix2 (- ffrac f))%R by apply bpow_gt_0. split; intros Q; [apply Rmult_lt_compat_r; auto; apply IZR_lt; auto|]. apply lt_IZR. apply Rmult_lt_reg_r in Q; auto.
  - intros s I. destruct (H s I) as [H1 H2]. destruct (dist_fixed R z s H1 H2) as (r & Rr & N). exists r. auto.
Qed.
End Fixed.

(** ** floats *)
Section Float.
Context {prec emax : Z} {Hp : Prec_gt_0 prec} {He : Prec_lt_emax prec emax}.
Notation float := (binary_float prec emax).
Notation u := (bpow radix2 (- prec)).
Notation fv := (@cvalf prec emax).
Notation dist m sq fuel := (distance float_ops (float_sqrt m sq fuel) float_powi).
Lemma minus_swap_sq : forall x y : float, Bmult mode_NE (Bminus mode_NE x y) (Bminus mode_NE x y) = Bmult mode_NE (Bminus mode_NE y x) (Bminus mode_NE y x).
Proof.
  intros x y. destruct (is_finite x && is_finite y && Req_bool (B2R x) (B2R y)) eqn:E.
  - apply andb_true_iff in E. destruct E as [E1 E3]. apply andb_true_iff in E1. destruct E1 as [E1 E2].
    assert (Q : B2R x = B2R y) by (revert E3; case Req_bool_spec; auto; discriminate).
    assert (Z : forall a b : float, is_finite a = true -> is_finite b = true -> B2R a = B2R b -> exists s, Bminus mode_NE a b = B754_zero s).
    { intros a b Fa Fb AB. pose proof (Bminus_correct prec emax _ _ mode_NE a b Fa Fb) as H. replace (B2R a - B2R b)%R with 0%R in H by lra.
      rewrite round_0, Rabs_R0 in H by typeclasses eauto. rewrite Rlt_bool_true in H by apply bpow_gt_0. destruct H as (H1 & H2 & _).
      destruct (Bminus mode_NE a b) as [s|s| |s mm e0 B]; try discriminate; [eexists; reflexivity|]. exfalso. cbn in H1. apply eq_0_F2R in H1. destruct s; discriminate. }
    destruct (Z x y E1 E2 Q) as [s ->]. destruct (Z y x E2 E1 (eq_sym Q)) as [s' ->]. destruct s, s'; reflexivity.
  - assert (O : Bminus mode_NE y x = Bopp (Bminus mode_NE x y)).
    { rewrite !Bminus_plus. rewrite <- Bplus_opp; [rewrite Bopp_involutive', Bplus_comm; reflexivity|].
      rewrite is_finite_Bopp, B2R_Bopp. intros Fx Fy H. rewrite Fx, Fy in E. cbn in E. revert E. case Req_bool_spec; [discriminate|]. lra. }
    rewrite O, Bmult_opp_l, Bmult_opp_r, Bopp_involutive'. reflexivity.
Qed.
Lemma dist_sym_float : forall m sq fuel (z w : Cartesian float), dist m sq fuel z w = dist m sq fuel w z.
Proof.
  intros m sq fuel z w. unfold distance, cartesian_sub. cbn [o_sub float_ops bind]. fold (MagProofs.float_mag m sq fuel (mkC (Bminus mode_NE (re z) (re w)) (Bminus mode_NE (im z) (im w)))).
  fold (MagProofs.float_mag m sq fuel (mkC (Bminus mode_NE (re w) (re z)) (Bminus mode_NE (im w) (im z)))). rewrite !MagProofs.float_mag_eq. cbn [re im]. rewrite (minus_swap_sq (re z)), (minus_swap_sq (im z)). reflexivity.
Qed.
Hypotheses (P24 : 24 <= prec) (E40 : 40 <= emax).
Notation D z s := (cabs (csub (fv z) (fv s))).
Lemma dist_float : forall m fuel (z w : Cartesian float) sq, (forall x, sq x = Bsqrt mode_NE x) -> forall k, 2 * k + 1 < emax -> cfin z -> cfin w ->
  (cabs (fv z) + cabs (fv w) <= / 2 * bpow radix2 k)%R -> (D z w = 0 \/ bpow radix2 (15 - emax) <= D z w * D z w)%R ->
  exists r, dist m sq fuel z w = Ok r /\ is_finite r = true /\ (Rabs (B2R r - D z w) <= 7 / 2 * u * D z w)%R.
Proof using P24 E40.
  intros m fuel z w sq SQ k K Fz Fw B HD. pose proof (us P24) as US. pose proof (bpow_gt_0 radix2 k) as BK.
  assert (KE : (bpow radix2 k <= bpow radix2 (emax - 1))%R) by (apply bpow_le; lia).
  set (w' := mkC (Bopp (re w)) (Bopp (im w))). assert (Fw' : cfin w') by (destruct Fw; split; cbn [w' re im]; rewrite is_finite_Bopp; auto).
  assert (CO : cabs (fv w') = cabs (fv w)) by apply cabs_opp.
  destruct (add_float_rel (prec := prec) (emax := emax) ltac:(lia) z w' Fz Fw' ltac:(rewrite CO; lra)) as (s & Es & Fs & Ns).
  assert (DV : cadd (fv z) (fv w') = csub (fv z) (fv w)). { unfold cadd, csub, w', cvalf. cbn [re im fst snd]. rewrite !B2R_Bopp. f_equal; ring. }
  rewrite DV in Ns. set (C := D z w) in *. assert (C0 : (0 <= C)%R) by apply cabs_pos.
  assert (SE : cartesian_sub float_ops z w = Ok s). { rewrite <- Es. unfold cartesian_sub, cartesian_add, w'. cbn [o_sub o_add float_ops bind re im]. rewrite !Bminus_plus. reflexivity. }
  unfold distance. rewrite SE. cbn [bind].
  assert (UC : (u * C <= / 16777216 * C)%R) by (apply Rmult_le_compat_r; lra).
  destruct HD as [HD|HD].
  - assert (S0 : cabs (fv s) = 0%R). { pose proof (cabs_via (fv s) (csub (fv z) (fv w))) as V. fold C in V. pose proof (cabs_pos (fv s)). rewrite HD in *. lra. }
    pose proof (cabs_fst (fv s)) as A1. pose proof (cabs_snd (fv s)) as A2. rewrite S0 in A1, A2. cbn [cvalf fst snd] in A1, A2.
    assert (ZR : forall x : float, is_finite x = true -> (Rabs (B2R x) <= 0)%R -> Bmult mode_NE x x = B754_zero false).
    { intros x Fx X. assert (X0 : B2R x = 0%R) by (destruct (Req_dec (B2R x) 0) as [?|N]; auto; apply Rabs_pos_lt in N; lra). destruct x as [t|t| |t mm e0 b]; try discriminate; [destruct t; reflexivity|]. cbn in X0. apply eq_0_F2R in X0. destruct t; discriminate. }
    destruct Fs as [F1 F2]. fold (MagProofs.float_mag m sq fuel s). rewrite MagProofs.float_mag_eq. rewrite !ZR by auto. rewrite SQ. exists (B754_zero false). split; [reflexivity|]. split; [reflexivity|].
    cbn [B2R]. rewrite HD, Rminus_0_r, Rabs_R0. lra.
  - pose proof (cabs_via (fv s) (csub (fv z) (fv w))) as V. fold C in V. pose proof (cabs_via (csub (fv z) (fv w)) (fv s)) as V'. rewrite (csub_sym (csub (fv z) (fv w))) in V'. fold C in V'. set (N := cabs (fv s)) in *.
    assert (CB : (C <= / 2 * bpow radix2 k)%R) by (pose proof (cabs_csub (fv z) (fv w)) as T; fold C in T; lra).
    destruct (mag_float_N P24 E40 m fuel s sq SQ k K Fs) as (r & Er & Fr & Nr).
    { assert (Q : (bpow radix2 (15 - emax) = 2 * bpow radix2 (14 - emax))%R) by (replace (15 - emax) with (1 + (14 - emax)) by lia; rewrite bpow_plus; reflexivity). rewrite Q in HD.
      fold N. assert (99 / 100 * C <= N)%R by lra. nra. }
    { fold N. lra. }
    fold N in Nr. exists r. split; auto. split; auto. apply Rabs_le_inv in Nr. assert (NC : (N <= 1001 / 1000 * C)%R) by lra. assert (NC2 : (Rabs (N - C) <= u * C)%R) by (apply Rabs_le; lra).
    apply Rabs_le_inv in NC2. assert (UN : (u * N <= u * (1001 / 1000 * C))%R) by (apply Rmult_le_compat_l; lra). assert (0 <= u * C)%R by (apply Rmult_le_pos; lra). apply Rabs_le. lra.
Qed.
Lemma nearest_float : forall m fuel (z : Cartesian float) sq, (forall x, sq x = Bsqrt mode_NE x) -> forall k, 2 * k + 1 < emax -> cfin z -> forall first l,
  (forall s, In s (first :: l) -> cfin s /\ (cabs (fv z) + cabs (fv s) <= / 2 * bpow radix2 k)%R /\ (D z s = 0 \/ bpow radix2 (15 - emax) <= D z s * D z s)%R) ->
  exists r, nearest float_ops (float_sqrt m sq fuel) float_powi z first l = Ok r /\ In r (first :: l) /\
  (forall s, In s (first :: l) -> ((1 - 7 / 2 * u) * D z r <= (1 + 7 / 2 * u) * D z s)%R).
Proof using P24 E40.
  intros m fuel z sq SQ k K Fz first l H.
  destruct (nearest_ok float_ops (fun _ => float_sqrt m sq fuel) float_powi B2R (fun x => is_finite x = true) (fun s => D z s) z (7 / 2 * u)%R 0%R) with (first := first) (l := l) as (r & (n & Rr) & I & A).
  - intros x y Fx Fy. unfold o_lt. cbn [o_cmp float_ops]. rewrite Bcompare_correct by auto. case Rcompare_spec; intros; split; try discriminate; auto; lra.
  - intros s I. destruct (H s I) as (H1 & H2 & H3). destruct (dist_float m fuel z s sq SQ k K Fz H1 H2 H3) as (d & Ed & Fd & Nd). exists d. split; [exists O; intros; exact Ed|]. split; auto. lra.
  - exists r. split; [apply (Rr n); lia|]. split; auto. intros s S. specialize (A s S). lra.
Qed.
End Float.
Lemma decide : forall (A : Type) (D : A -> R) (k a : R) (l : list A) s0 r, In s0 l -> In r l -> (forall s, In s l -> ((1 - k) * D r <= (1 + k) * D s + 2 * a)%R) ->
  (forall s, In s l -> s <> s0 -> ((1 + k) * D s0 + 2 * a < (1 - k) * D s)%R) -> ~ r <> s0.
Proof. intros A D k a l s0 r I R H G N. specialize (G r R N). specialize (H s0 I). lra. Qed.
Lemma decide_fixed : forall m f, supported f = true -> fsigned f = true -> 2 <= ffrac f <= fwidth f - 4 -> forall z first l s0,
  let D s := cabs (csub (cval f z) (cval f s)) in
  (forall s, In s (first :: l) -> (D s <= fval f (fmax f) /\ D s * D s <= fval f (fmax f))%R) ->
  let k := (/ 1000 + 5 * ulp f)%R in let a := (3 * ulp f + R_sqrt.sqrt (2 * ulp f))%R in
  In s0 (first :: l) -> (forall s, In s (first :: l) -> s <> s0 -> ((1 + k) * D s0 + 2 * a < (1 - k) * D s)%R) ->
  returns (fun fuel => nearest (fixed_ops m f) (fixed_sqrt m f fuel) (fixed_powi m f) z first l) s0.
Proof.
  intros m f F Sg R z first l s0 D H k a I G. destruct (nearest_fixed m f F Sg R z first l H) as (r & Rr & Ir & A).
  assert (E : r = s0). { destruct r as [r1 r2], s0 as [t1 t2]. pose proof (decide _ D k a _ _ _ I Ir A G) as N. destruct (Z.eq_dec r1 t1) as [->|X]; [destruct (Z.eq_dec r2 t2) as [->|X]; auto|]; exfalso; apply N; congruence. }
  subst r. exact Rr.
Qed.
Lemma decide_float : forall p e {Hp : Prec_gt_0 p} {He : Prec_lt_emax p e}, 24 <= p -> 40 <= e -> forall m fuel (z : Cartesian (binary_float p e)) sq, (forall x, sq x = Bsqrt mode_NE x) -> forall k, 2 * k + 1 < e -> cfin z -> forall first l s0,
  let D s := cabs (csub (cvalf z) (cvalf s)) in let u := bpow radix2 (- p) in
  (forall s, In s (first :: l) -> cfin s /\ (cabs (cvalf z) + cabs (cvalf s) <= / 2 * bpow radix2 k)%R /\ (D s = 0 \/ bpow radix2 (15 - e) <= D s * D s)%R) ->
  In s0 (first :: l) -> (forall s, In s (first :: l) -> s <> s0 -> ((1 + 7 / 2 * u) * D s0 < (1 - 7 / 2 * u) * D s)%R) ->
  nearest float_ops (float_sqrt m sq fuel) float_powi z first l = Ok s0.
Proof.
  intros p e Hp He P E m fuel z sq SQ k K Fz first l s0 D u H I G. destruct (nearest_float P E m fuel z sq SQ k K Fz first l H) as (r & Rr & Ir & A).
  assert (X : ~ r <> s0). { apply (decide _ D (7 / 2 * u)%R 0%R (first :: l)); auto; [intros s S; specialize (A s S); fold u in A; unfold D; lra|]. intros s S N. specialize (G s S N). lra. }
  apply Classical_Prop.NNPP in X. subst r. exact Rr.
Qed.
