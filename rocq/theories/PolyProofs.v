(** * Accuracy of Horner's rule in fixed point and on floats (proofs for C136). *)

From Coq Require Import ZArith Reals List Lia Lra Psatz Bool.
From Flocq Require Import Core.Core IEEE754.BinarySingleNaN.
From Verif Require Import Base FloatBase Literals Traits FixedPrim FixedImpl FloatImpl Spec Lemmas ScalarProofs FloatLemmas FloatKit MagProofs FloatArith PowFloat SpecPoly BlendProofs.
From Verif Require FloatSum.
Import ListNotations.
Open Scope Z_scope.

Lemma geo_pos : forall x n, (0 <= x -> 0 <= geo x n)%R.
Proof. intros x n X. induction n as [|n IH]; cbn [geo]; [lra|]. nra. Qed.
Lemma geo_step : forall x n, (1 <= x -> geo x n <= geo x (S n))%R.
Proof. intros x n X. pose proof (geo_pos x n ltac:(lra)). cbn [geo]. nra. Qed.
Lemma geo_one : forall x n, (0 <= x <= 1 -> geo x n <= INR n)%R.
Proof. intros x n X. induction n as [|n IH]; [cbn; lra|]. rewrite S_INR. cbn [geo]. pose proof (geo_pos x n ltac:(lra)). nra. Qed.
Lemma poly_pos : forall x l, (0 <= x)%R -> (forall c, In c l -> (0 <= c)%R) -> (0 <= polyR x l)%R.
Proof. intros x l X. induction l as [|c l IH]; intros H; cbn [polyR]; [lra|]. pose proof (H c (or_introl eq_refl)). specialize (IH (fun z Z => H z (or_intror Z))). nra. Qed.
Lemma poly_abs : forall x l, (Rabs (polyR x l) <= polyR (Rabs x) (map Rabs l))%R.
Proof.
  intros x l. induction l as [|c l IH]; cbn [polyR map]; [rewrite Rabs_R0; lra|]. eapply Rle_trans; [apply Rabs_triang|]. rewrite Rabs_mult.
  apply Rplus_le_compat_l, Rmult_le_compat_l; [apply Rabs_pos | exact IH].
Qed.
Lemma poly_mono : forall x y l, (0 <= x <= y)%R -> (forall c, In c l -> (0 <= c)%R) -> (polyR x l <= polyR y l)%R.
Proof.
  intros x y l X. induction l as [|c l IH]; intros H; cbn [polyR]; [lra|]. specialize (IH (fun z Z => H z (or_intror Z))).
  pose proof (poly_pos x l ltac:(lra) (fun z Z => H z (or_intror Z))). nra.
Qed.

Section Fixed.
Variables (m : mode) (f : fty).
Hypothesis Hf : supported f = true.
Let O := fixed_ops m f.
Notation v := (fval f).
Notation U := (ulp f).
Lemma U_pos : (0 < U)%R.
Proof using. apply bpow_gt_0. Qed.
Lemma v_floor : forall a b, (v (a * b / fone f) <= v a * v b < v (a * b / fone f) + U)%R.
Proof using Hf.
  intros a b. pose proof (one_pos f Hf) as P. pose proof (Z.div_mod (a * b) (fone f) ltac:(lia)) as E. pose proof (Z.mod_pos_bound (a * b) (fone f) P) as M.
  set (q := a * b / fone f) in *. set (r := (a * b) mod fone f) in *.
  unfold fval, ulp. set (w := bpow radix2 (- ffrac f)). assert (W : (0 < w)%R) by apply bpow_gt_0.
  assert (FW : (IZR (fone f) * w = 1)%R).
  { unfold w, fone. change 2 with (radix_val radix2) at 1. rewrite IZR_Zpower by (pose proof (width_pos f Hf); lia). rewrite <- bpow_plus, Z.add_opp_diag_r. reflexivity. }
  assert (ER : (IZR a * IZR b = IZR (fone f) * IZR q + IZR r)%R) by (rewrite <- !mult_IZR, <- plus_IZR; f_equal; exact E).
  assert (RB : (0 <= IZR r < IZR (fone f))%R) by (split; [apply IZR_le | apply IZR_lt]; lia).
  replace (IZR a * w * (IZR b * w))%R with ((IZR a * IZR b) * w * w)%R by ring. rewrite ER.
  replace ((IZR (fone f) * IZR q + IZR r) * w * w)%R with (IZR q * w + (IZR r * w) * w)%R by (replace ((IZR (fone f) * IZR q + IZR r) * w * w)%R with ((IZR (fone f) * w) * IZR q * w + IZR r * w * w)%R by ring; rewrite FW; ring).
  assert (RW : (0 <= IZR r * w < 1)%R) by (rewrite <- FW; split; [apply Rmult_le_pos; lra | apply Rmult_lt_compat_r; lra]). nra.
Qed.
Lemma v_add : forall a b, v (a + b) = (v a + v b)%R.
Proof using. intros. unfold fval. rewrite plus_IZR. ring. Qed.
Lemma v_valid : forall t, (Rabs (v t) <= v (fmax f))%R -> fsigned f = true -> fvalid f t.
Proof using Hf.
  intros t H S. assert (A : Z.abs t <= fmax f).
  { unfold fval in H. rewrite Rabs_mult, (Rabs_pos_eq (bpow _ _)) in H by apply bpow_ge_0. apply Rmult_le_reg_r in H; [|apply bpow_gt_0]. rewrite <- abs_IZR in H. apply le_IZR. exact H. }
  unfold fmax, fvalid, in_range, imin, imax, fity in *. cbn [isigned iwidth] in *. rewrite S in *. lia.
Qed.

(** the unrounded-range evaluation *)
Fixpoint hz (x : Z) (l : list Z) : Z := match l with [] => 0 | c :: r => hz x r * x / fone f + c end.
Lemma hz_err : forall x l, (Rabs (v (hz x l) - polyR (v x) (map v l)) <= U * geo (Rabs (v x)) (length l))%R /\
  ((0 <= v x)%R -> (v (hz x l) <= polyR (v x) (map v l))%R).
Proof using Hf.
  intros x l. pose proof U_pos as UP. induction l as [|c l [IH IL]]; cbn [hz map polyR length geo].
  - unfold fval. rewrite Rmult_0_l, Rminus_0_r, Rabs_R0. split; [lra | intros; lra].
  - pose proof (v_floor (hz x l) x) as FL. rewrite v_add. set (h := v (hz x l)) in *. set (P := polyR (v x) (map v l)) in *. set (q := v (hz x l * x / fone f)) in *. set (G := geo (Rabs (v x)) (length l)) in *. split.
    + replace (q + v c - (v c + v x * P))%R with ((q - h * v x) + v x * (h - P))%R by ring. eapply Rle_trans; [apply Rabs_triang|]. rewrite Rabs_mult.
      assert (Rabs (q - h * v x) <= U)%R by (apply Rabs_le; lra). pose proof (Rmult_le_compat_l (Rabs (v x)) _ _ (Rabs_pos _) IH). lra.
    + intros X. specialize (IL X). nra.
Qed.
Lemma horner_hz : forall x l, fvalid f 0 -> (forall k c r, skipn k l = c :: r -> fvalid f (hz x r * x / fone f) /\ fvalid f (hz x (c :: r))) -> horner O 0 x l = Ok (hz x l).
Proof using.
  intros x l Z0. induction l as [|c l IH]; intros H; [reflexivity|]. cbn [horner hz]. rewrite IH by (intros k c' r E; apply (H (S k) c' r); exact E). cbn [bind].
  destruct (H 0%nat c l eq_refl) as [A B]. cbn [hz] in B.
  change (o_mul O (hz x l) x) with (fin m (fity f) (hz x l * x / fone f)). rewrite fin_ok by exact A. cbn [bind].
  change (o_add O (hz x l * x / fone f) c) with (fin m (fity f) (hz x l * x / fone f + c)). apply fin_ok. exact B.
Qed.
Lemma horner_fixed : fsigned f = true -> forall x l, (Rabs (v x) <= 1)%R -> (fold_right Rplus 0 (map (fun c => Rabs (v c)) l) + INR (length l) * U <= v (fmax f))%R ->
  exists r, horner O 0 x l = Ok r /\ (Rabs (v r - polyR (v x) (map v l)) <= INR (length l) * U)%R /\ ((0 <= v x)%R -> (v r <= polyR (v x) (map v l))%R).
Proof using Hf.
  intros S x l X H. pose proof U_pos as UP. exists (hz x l).
  assert (XR : (0 <= Rabs (v x) <= 1)%R) by (split; [apply Rabs_pos | exact X]).
  assert (ER : forall l', (Rabs (v (hz x l') - polyR (v x) (map v l')) <= INR (length l') * U)%R).
  { intros l'. eapply Rle_trans; [apply hz_err|]. rewrite Rmult_comm. apply Rmult_le_compat_r; [lra|]. apply geo_one. exact XR. }
  assert (PB : forall l', (Rabs (polyR (v x) (map v l')) <= fold_right Rplus 0 (map (fun c => Rabs (v c)) l'))%R).
  { induction l' as [|c l' IH]; cbn [map polyR fold_right]; [rewrite Rabs_R0; lra|]. eapply Rle_trans; [apply Rabs_triang|]. rewrite Rabs_mult. pose proof (Rabs_pos (polyR (v x) (map v l'))). nra. }
  split; [|split; [apply ER | apply hz_err]].
  apply horner_hz.
  - apply zero_valid; auto.
  - intros k c r E.
    assert (SK : (fold_right Rplus 0 (map (fun c => Rabs (v c)) (c :: r)) + INR (length (c :: r)) * U <= v (fmax f))%R).
    { rewrite <- E. clear E c r. revert k H. clear -UP. induction l as [|a l IH]; intros k H; [rewrite skipn_nil; exact H|]. destruct k as [|k]; [exact H|]. cbn [skipn]. apply IH.
      cbn [map fold_right length] in H. rewrite S_INR in H. pose proof (Rabs_pos (v a)). lra. }
    cbn [map fold_right length] in SK. rewrite S_INR in SK. pose proof (Rabs_pos (v c)) as C0.
    pose proof (ER r) as E1. pose proof (PB r) as P1. assert (H1 : (Rabs (v (hz x r)) <= fold_right Rplus 0 (map (fun c => Rabs (v c)) r) + INR (length r) * U)%R).
    { replace (v (hz x r)) with ((v (hz x r) - polyR (v x) (map v r)) + polyR (v x) (map v r))%R by ring. eapply Rle_trans; [apply Rabs_triang|]. lra. }
    pose proof (v_floor (hz x r) x) as FL.
    assert (Q : (Rabs (v (hz x r * x / fone f)) <= Rabs (v (hz x r)) + U)%R).
    { assert (M : (Rabs (v (hz x r) * v x) <= Rabs (v (hz x r)))%R) by (rewrite Rabs_mult; pose proof (Rabs_pos (v (hz x r))); nra).
      apply Rabs_le_inv in M. apply Rabs_le. lra. }
    split; apply v_valid; auto; [lra|]. cbn [hz]. rewrite v_add. eapply Rle_trans; [apply Rabs_triang|]. lra.
Qed.
End Fixed.

(** whenever the checked build returns, for any x *)
Lemma horner_debug : forall f, supported f = true -> forall x l r, horner (fixed_ops Debug f) 0 x l = Ok r ->
  r = hz f x l /\ (Rabs (fval f r - polyR (fval f x) (map (fval f) l)) <= ulp f * geo (Rabs (fval f x)) (length l))%R /\ horner (fixed_ops Release f) 0 x l = Ok r.
Proof.
  intros f Hf x l r E. assert (A : r = hz f x l /\ horner (fixed_ops Release f) 0 x l = Ok r).
  { revert r E. induction l as [|c l IH]; intros r E; [injection E as <-; split; reflexivity|]. cbn [horner] in E. apply bind_ok_inv in E. destruct E as (h & E1 & E). apply bind_ok_inv in E. destruct E as (p & E2 & E3).
    destruct (IH h E1) as [-> R]. 
    change (o_mul (fixed_ops Debug f) (hz f x l) x) with (fin Debug (fity f) (hz f x l * x / fone f)) in E2.
    change (o_add (fixed_ops Debug f) p c) with (fin Debug (fity f) (p + c)) in E3.
    assert (K : forall z y, fin Debug (fity f) z = Ok y -> y = z /\ in_range (fity f) z).
    { intros z y F. unfold fin in F. destruct (in_rangeb (fity f) z) eqn:B; [|discriminate]. injection F as <-. split; auto. apply in_rangeb_spec; auto. }
    destruct (K _ _ E2) as [-> V2]. destruct (K _ _ E3) as [-> V3]. split; [reflexivity|]. cbn [horner]. rewrite R. cbn [bind].
    change (o_mul (fixed_ops Release f) (hz f x l) x) with (fin Release (fity f) (hz f x l * x / fone f)). rewrite fin_ok by exact V2. cbn [bind].
    change (o_add (fixed_ops Release f) (hz f x l * x / fone f) c) with (fin Release (fity f) (hz f x l * x / fone f + c)). apply fin_ok. exact V3. }
  destruct A as [-> R]. split; auto. split; auto. apply (hz_err f Hf).
Qed.

Section Float.
Context {prec emax : Z} {Hp : Prec_gt_0 prec} {He : Prec_lt_emax prec emax}.
Notation float := (binary_float prec emax).
Notation rnd := (round radix2 (SpecFloat.fexp prec emax) ZnearestE).
Notation u := (bpow radix2 (- prec)).
Notation eta := (bpow radix2 (3 - emax - prec)).
Notation O := (float_ops (prec := prec) (emax := emax)).
Notation z0 := (B754_zero false : float).
Hypothesis P24 : 24 <= prec.
Hypothesis E128 : 128 <= emax.
Let Vexp : Valid_exp (SpecFloat.fexp prec emax) := fexp_correct prec emax _.

(** one step of the error recursion *)
Lemma horner_step : forall Q q e x h p P A E G c hx s, (1 <= Q -> 0 < q <= / 1000 -> 0 <= e -> 0 <= A -> 0 <= G -> E = (Q - 1) * A + e * G ->
  Rabs P <= A -> Rabs (h - P) <= E -> Rabs (hx - h * x) <= q * Rabs (h * x) + / 2 * e -> Rabs (s - (hx + c)) <= q * Rabs (hx + c) -> p = c + x * P ->
  Rabs (s - p) <= (Q * (1 + q) * (1 + q) - 1) * (Rabs c + Rabs x * A) + e * (1 + 101 / 100 * Rabs x * G))%R.
Proof.
  intros Q q e x h p P A E G c hx s HQ Hq He' HA HG HE HP Hh Hm Hs ->. subst E.
  pose proof (Rabs_pos x) as X0. pose proof (Rabs_pos c) as C0. rewrite Rabs_mult in Hm.
  assert (HH : (Rabs h <= Q * A + e * G)%R) by (replace h with ((h - P) + P)%R by ring; eapply Rle_trans; [apply Rabs_triang|]; lra).
  pose proof (Rabs_pos h) as H0. set (ax := Rabs x) in *. set (ac := Rabs c) in *.
  assert (D : (Rabs (hx - x * P) <= q * (Rabs h * ax) + / 2 * e + ax * ((Q - 1) * A + e * G))%R).
  { replace (hx - x * P)%R with ((hx - h * x) + x * (h - P))%R by ring. eapply Rle_trans; [apply Rabs_triang|]. rewrite Rabs_mult. fold ax.
    pose proof (Rmult_le_compat_l ax _ _ X0 Hh). lra. }
  assert (B : (Rabs h * ax <= ax * (Q * A + e * G))%R) by (rewrite Rmult_comm; apply Rmult_le_compat_l; auto).
  assert (D2 : (Rabs (hx - x * P) <= ax * (((1 + q) * Q - 1) * A) + ax * ((1 + q) * e * G) + / 2 * e)%R).
  { eapply Rle_trans; [exact D|]. pose proof (Rmult_le_compat_l q _ _ ltac:(lra) B). lra. }
  assert (S : (Rabs (hx + c) <= ac + ax * A + (ax * (((1 + q) * Q - 1) * A) + ax * ((1 + q) * e * G) + / 2 * e))%R).
  { replace (hx + c)%R with (c + x * P + (hx - x * P))%R by ring. eapply Rle_trans; [apply Rabs_triang|]. apply Rplus_le_compat; [|exact D2].
    eapply Rle_trans; [apply Rabs_triang|]. rewrite Rabs_mult. fold ac ax. pose proof (Rmult_le_compat_l ax _ _ X0 HP). lra. }
  replace (s - (c + x * P))%R with ((s - (hx + c)) + (hx - x * P))%R by ring. eapply Rle_trans; [apply Rabs_triang|].
  pose proof (Rmult_le_compat_l q _ _ ltac:(lra) S) as S'.
  set (XA := (ax * A)%R). assert (XA0 : (0 <= XA)%R) by (apply Rmult_le_pos; auto). set (XG := (ax * (e * G))%R). assert (XG0 : (0 <= XG)%R) by (apply Rmult_le_pos; auto; apply Rmult_le_pos; auto).
  apply Rle_trans with (q * (ac + XA + (((1 + q) * Q - 1) * XA + (1 + q) * XG + / 2 * e)) + (((1 + q) * Q - 1) * XA + (1 + q) * XG + / 2 * e))%R; [unfold XA, XG; lra|].
  replace (e * (1 + 101 / 100 * ax * G))%R with (e + 101 / 100 * XG)%R by (unfold XG; ring). fold XA.
  replace (q * (ac + XA + (((1 + q) * Q - 1) * XA + (1 + q) * XG + / 2 * e)) + (((1 + q) * Q - 1) * XA + (1 + q) * XG + / 2 * e))%R
    with (q * ac + (Q * (1 + q) * (1 + q) - 1) * XA + (1 + q) * (1 + q) * XG + (1 + q) * / 2 * e)%R by ring.
  assert ((1 + q) * (1 + q) <= 101 / 100)%R by nra. assert ((1 + q) * (1 + q) * XG <= 101 / 100 * XG)%R by (apply Rmult_le_compat_r; auto).
  assert ((1 + q) * / 2 * e <= e)%R by nra. assert (q <= Q * (1 + q) * (1 + q) - 1)%R by nra.
  assert (q * ac <= (Q * (1 + q) * (1 + q) - 1) * ac)%R by (apply Rmult_le_compat_r; auto). lra.
Qed.

Notation Pa x l := (polyR (Rabs (B2R x)) (map (fun c => Rabs (B2R c)) l)).
(** the bound that keeps every intermediate value in range *)
Notation Pb x l := (polyR (Rmax 1 (Rabs (B2R x))) (map (fun c => Rabs (B2R c)) l)).

Lemma coeffs_pos : forall l : list float, forall c, In c (map (fun c => Rabs (B2R c)) l) -> (0 <= c)%R.
Proof. intros l c C. apply in_map_iff in C. destruct C as (y & <- & _). apply Rabs_pos. Qed.

Lemma horner_float : forall (x : float) (l : list float), is_finite x = true -> (forall c, In c l -> is_finite c = true) ->
  let n := length l in (INR n * u <= / 8)%R ->
  (Pb x l <= bpow radix2 (emax - 4))%R -> (eta * geo (101 / 100 * Rmax 1 (Rabs (B2R x))) n <= bpow radix2 (emax - 4))%R ->
  exists r, horner O z0 x l = Ok r /\ is_finite r = true /\
  (Rabs (B2R r - polyR (B2R x) (map B2R l)) <= 4 * INR n * u * Pa x l + eta * geo (101 / 100 * Rabs (B2R x)) n)%R.
Proof using Vexp P24 E128.
  intros x l Fx. pose proof (bpow_gt_0 radix2 (- prec)) as U0. pose proof (bpow_gt_0 radix2 (3 - emax - prec)) as T0.
  assert (US : (u <= / 16777216)%R) by (change (/ 16777216)%R with (bpow radix2 (-24)); apply bpow_le; lia).
  set (X := Rmax 1 (Rabs (B2R x))). assert (X1 : (1 <= X)%R) by apply Rmax_l. assert (XX : (Rabs (B2R x) <= X)%R) by apply Rmax_r. pose proof (Rabs_pos (B2R x)) as AX.
  assert (MAIN : (forall c, In c l -> is_finite c = true) -> (INR (length l) * u <= / 8)%R -> (Pb x l <= bpow radix2 (emax - 4))%R -> (eta * geo (101 / 100 * X) (length l) <= bpow radix2 (emax - 4))%R ->
    exists r, horner O z0 x l = Ok r /\ is_finite r = true /\ (Rabs (B2R r - polyR (B2R x) (map B2R l)) <= ((1 + u) ^ (2 * length l) - 1) * Pa x l + eta * geo (101 / 100 * Rabs (B2R x)) (length l))%R).
  { fold X. induction l as [|c l IH]; intros Fl HN HB HG.
    - exists z0. split; [reflexivity|]. split; [reflexivity|]. cbn [map polyR length geo]. change (B2R z0) with 0%R. rewrite Rminus_0_r, Rabs_R0. lra.
    - cbn [length] in *. rewrite S_INR in HN. pose proof (pos_INR (length l)) as NP.
      assert (PBp : (0 <= Pb x l)%R) by (apply poly_pos; [fold X; lra | apply coeffs_pos]). fold X in PBp.
      cbn [map polyR] in HB. pose proof (Rabs_pos (B2R c)) as C0.
      pose proof (geo_pos (101 / 100 * X) (length l) ltac:(lra)) as GP.
      set (B := bpow radix2 (emax - 4)) in *.
      assert (HB' : (X * polyR X (map (fun c => Rabs (B2R c)) l) <= B - Rabs (B2R c))%R) by lra.
      assert (HBl : (polyR X (map (fun c => Rabs (B2R c)) l) <= B)%R) by nra.
      assert (HGl : (eta * geo (101 / 100 * X) (length l) <= B)%R).
      { eapply Rle_trans; [|exact HG]. apply Rmult_le_compat_l; [lra|]. apply geo_step. lra. }
      destruct IH as (h & Eh & Fh & Ah); auto; [intros d D; apply Fl; right; auto | nra|].
      set (A := Pa x l) in *. set (AB := polyR X (map (fun c => Rabs (B2R c)) l)) in *. set (G := geo (101 / 100 * Rabs (B2R x)) (length l)) in *. set (GB := geo (101 / 100 * X) (length l)) in *.
      assert (A0 : (0 <= A)%R) by (apply poly_pos; [lra | apply coeffs_pos]). assert (AAB : (A <= AB)%R) by (apply poly_mono; [lra | apply coeffs_pos]).
      assert (G0 : (0 <= G)%R) by (apply geo_pos; lra).
      assert (GGB : (G <= GB)%R).
      { unfold G, GB. clear -AX XX. induction (length l) as [|k IHk]; cbn [geo]; [lra|]. pose proof (geo_pos (101 / 100 * Rabs (B2R x)) k ltac:(lra)). nra. }
      set (Q := ((1 + u) ^ (2 * length l))%R) in *.
      assert (Q1 : (1 <= Q)%R) by (apply pow_R1_Rle; lra).
      assert (N2 : (INR (2 * length l) * u <= / 4)%R) by (rewrite mult_INR; change (INR 2) with 2%R; nra).
      assert (QB : (Q <= 3 / 2)%R) by (pose proof (bern_high u (2 * length l) ltac:(lra) ltac:(lra)); fold Q in H; lra).
      assert (PA : (Rabs (polyR (B2R x) (map B2R l)) <= A)%R) by (eapply Rle_trans; [apply poly_abs|]; rewrite map_map; apply Rle_refl).
      set (P := polyR (B2R x) (map B2R l)) in *.
      assert (BB : (0 < B)%R) by apply bpow_gt_0.
      assert (HX : (Rabs (B2R h) * Rabs (B2R x) <= 3 * B)%R).
      { assert (Rabs (B2R h) <= 3 / 2 * A + eta * G)%R by (replace (B2R h) with ((B2R h - P) + P)%R by ring; eapply Rle_trans; [apply Rabs_triang|]; nra).
        cbn [geo] in HG. fold GB in HG.
        assert (eta * G * Rabs (B2R x) <= B)%R.
        { apply Rle_trans with (eta * (1 + 101 / 100 * X * GB))%R; [|exact HG]. rewrite Rmult_assoc. apply Rmult_le_compat_l; [lra|]. assert (G * Rabs (B2R x) <= GB * X)%R by (apply Rmult_le_compat; lra). nra. }
        assert (A * Rabs (B2R x) <= B)%R by (apply Rle_trans with (AB * X)%R; [apply Rmult_le_compat; lra | lra]).
        apply Rle_trans with ((3 / 2 * A + eta * G) * Rabs (B2R x))%R; [apply Rmult_le_compat_r; lra|]. lra. }
      assert (B4 : bpow radix2 (emax - 2) = (4 * B)%R) by (unfold B; replace (emax - 2) with (emax - 4 + 2) by ring; rewrite bpow_plus; change (bpow radix2 2) with 4%R; ring).
      assert (B8 : bpow radix2 (emax - 1) = (8 * B)%R) by (unfold B; replace (emax - 1) with (emax - 4 + 3) by ring; rewrite bpow_plus; change (bpow radix2 3) with 8%R; ring).
      assert (MB : (Rabs (B2R h * B2R x) <= bpow radix2 (emax - 2))%R) by (rewrite Rabs_mult, B4; lra).
      destruct (mult_r h x Fh Fx (emax - 2) ltac:(lia) MB) as [Fm Vm]. set (hx := Bmult mode_NE h x) in *.
      assert (MB' : (Rabs (B2R hx) <= bpow radix2 (emax - 2))%R) by (rewrite Vm; apply rnd_le; auto; lia).
      assert (Fc : is_finite c = true) by (apply Fl; left; auto).
      assert (CB : (Rabs (B2R c) <= B)%R) by nra.
      assert (SB : (Rabs (B2R hx + B2R c) <= bpow radix2 (emax - 1))%R) by (eapply Rle_trans; [apply Rabs_triang|]; lra).
      destruct (plus_r hx c Fm Fc (emax - 1) ltac:(lia) SB) as [Fs Vs].
      exists (Bplus mode_NE hx c). split; [cbn [horner]; rewrite Eh; reflexivity|]. split; auto. cbn [map polyR geo]. fold P A G.
      replace (2 * S (length l))%nat with (S (S (2 * length l))) by lia. cbn [pow]. fold Q.
      replace ((1 + u) * ((1 + u) * Q) - 1)%R with (Q * (1 + u) * (1 + u) - 1)%R by ring.
      apply (horner_step Q u eta (B2R x) (B2R h) _ P A ((Q - 1) * A + eta * G) G (B2R c) (B2R hx)); auto; try lra.
      + rewrite Vm. pose proof (MagProofs.rnd_rel (prec := prec) (emax := emax) (B2R h * B2R x)) as RR. exact RR.
      + rewrite Vs. apply FloatSum.plus_rel; auto. }
  intros Fl n HN HB HG. destruct (MAIN Fl HN HB HG) as (r & E & F & A). exists r. split; auto. split; auto. eapply Rle_trans; [exact A|]. apply Rplus_le_compat_r. fold n.
  apply Rmult_le_compat_r; [apply poly_pos; [lra | apply coeffs_pos]|]. pose proof (bern_high u (2 * n) ltac:(lra)) as BH. rewrite mult_INR in BH. change (INR 2) with 2%R in BH. specialize (BH ltac:(lra)). lra.
Qed.
End Float.

Lemma horner_checked : forall f, supported f = true -> forall x l r, horner (fixed_ops Debug f) 0 x l = Ok r ->
  horner (fixed_ops Release f) 0 x l = Ok r /\
  (Rabs (fval f r - polyR (fval f x) (map (fval f) l)) <= ulp f * geo (Rabs (fval f x)) (length l))%R.
Proof. intros f Hf x l r E. destruct (horner_debug f Hf x l r E) as (_ & A & B). auto. Qed.
Lemma horner_example : horner (fixed_ops Debug (mkFty true 16 8)) 0 192 [384; -512; 128] = Ok 72 /\ horner (fixed_ops Debug (mkFty true 16 8)) 0 768 [384; -512; 128] = Ok 0 /\
  (Rabs (fval (mkFty true 16 8) 192) <= 1)%R /\
  (fold_right Rplus 0 (map (fun c => Rabs (fval (mkFty true 16 8) c)) [384; -512; 128]%Z) + INR 3 * ulp (mkFty true 16 8) <= fval (mkFty true 16 8) (fmax (mkFty true 16 8)))%R.
Proof.
  split; [vm_compute; reflexivity|]. split; [vm_compute; reflexivity|].
  unfold fval, ulp. cbn [ffrac map fold_right]. change (bpow radix2 (- (8))) with (/ 256)%R. change (fmax (mkFty true 16 8)) with 32767. cbn [INR].
  rewrite !Rabs_mult, (Rabs_pos_eq (/ 256)) by lra. rewrite (Rabs_pos_eq 192), (Rabs_pos_eq 384), (Rabs_pos_eq 128) by lra. replace (Rabs (-512)) with 512%R by (rewrite Rabs_left; lra). lra.
Qed.
