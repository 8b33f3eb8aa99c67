(** * Proofs: the complex square root (C161). *)

From Coq Require Import ZArith Reals Lia Lra Psatz Bool List.
From Flocq Require Import Core.Core IEEE754.BinarySingleNaN.
From Verif Require TrigProofs PhaseAcc PolarCart AngleProofs.
From Verif Require Import SinReal Base FloatBase Literals Traits Trig IntImpl FixedPrim FixedImpl FloatImpl Complex Spec SpecFilter SpecRotor SpecCsqrt
  Lemmas FloatLemmas FloatKit ScalarProofs ScalarProofs2 PolarProofs ProdProofs FilterProofs FloatProofs FloatArith RotorProofs MagProofs NiirfFixed4 DivFixed QuotProofs SqrtInv.
Import ListNotations.
Open Scope Z_scope.

Section Real.
Open Scope R_scope.
Lemma root_core : forall x y s q e1 e2, let R := sqrt (x * x + y * y) in let S0 := (R + Rabs x) / 2 in 0 < R -> 0 <= s -> Rabs (s * s - S0) <= e1 -> e1 <= S0 / 4 -> Rabs (2 * s * q - y) <= e2 ->
  Rabs (s * s - q * q - Rabs x) <= 7 / 3 * e1 + 4 / 3 * e2 + e2 * e2 / (3 * S0).
Proof.
  intros x y s q e1 e2 R S0 R0 s0 H1 H2 H3. assert (X0 : 0 <= Rabs x) by apply Rabs_pos.
  assert (RR : R * R = x * x + y * y) by (apply sqrt_sqrt; nra). assert (XX : x * x = Rabs x * Rabs x) by (unfold Rabs; destruct (Rcase_abs x); ring).
  assert (SP : 0 < S0) by (unfold S0; lra). assert (YS : y * y = 4 * S0 * (S0 - Rabs x)) by (unfold S0; nra).
  assert (SX : Rabs x <= S0). { unfold S0. assert (Rabs x <= R); [|lra]. apply Rsqr_incr_0_var; [unfold Rsqr; nra|lra]. }
  assert (Y2 : Rabs y <= 2 * S0). { apply Rsqr_incr_0_var; [|lra]. unfold Rsqr. rewrite <- Rabs_mult, Rabs_pos_eq by nra. nra. }
  clearbody S0. apply Rabs_le_inv in H1. set (w := s * s) in *. assert (W0 : 3 / 4 * S0 <= w) by lra. assert (WP : 0 < w) by lra.
  set (n := 2 * s * q - y) in *. assert (EQ : q * q = (y + n) * (y + n) / (4 * w)) by (unfold n, w; field; intros E; unfold w in WP; rewrite E in WP; lra).
  assert (ID : w - q * q - Rabs x = (w - S0) * (1 + (S0 - Rabs x) / w) - (2 * y * n + n * n) / (4 * w)). { rewrite EQ. replace ((y + n) * (y + n)) with (y * y + (2 * y * n + n * n)) by ring. rewrite YS. field. lra. }
  rewrite ID. assert (I : 0 < / w) by (apply Rinv_0_lt_compat; auto).
  assert (L1 : 0 <= (S0 - Rabs x) / w <= 4 / 3). { split; [apply Rmult_le_pos; lra|]. apply Rmult_le_reg_r with w; auto. unfold Rdiv at 1. rewrite Rmult_assoc, Rinv_l by lra. lra. }
  assert (E0 : 0 <= e2) by (pose proof (Rabs_pos n); lra).
  assert (L2 : Rabs ((w - S0) * (1 + (S0 - Rabs x) / w)) <= 7 / 3 * e1). { rewrite Rabs_mult, (Rabs_pos_eq (1 + _)) by lra. rewrite Rmult_comm. apply Rmult_le_compat; try lra; [apply Rabs_pos|apply Rabs_le; lra]. }
  assert (L3 : Rabs ((2 * y * n + n * n) / (4 * w)) <= 4 / 3 * e2 + e2 * e2 / (3 * S0)).
  { unfold Rdiv. rewrite Rabs_mult, (Rabs_pos_eq (/ (4 * w))) by (left; apply Rinv_0_lt_compat; lra).
    assert (N : Rabs (2 * y * n + n * n) <= 4 * S0 * e2 + e2 * e2).
    { eapply Rle_trans; [apply Rabs_triang|]. rewrite !Rabs_mult, (Rabs_pos_eq 2) by lra. pose proof (Rabs_pos y). pose proof (Rabs_pos n). apply Rplus_le_compat; [|apply Rmult_le_compat; auto]. apply Rmult_le_compat; try lra; nra. }
    assert (J : / (4 * w) <= / (3 * S0)) by (apply Rinv_le; lra). assert (0 < / (4 * w)) by (apply Rinv_0_lt_compat; lra).
    apply Rle_trans with ((4 * S0 * e2 + e2 * e2) * / (3 * S0)); [apply Rmult_le_compat; try lra; apply Rabs_pos|]. right. field. lra. }
  unfold Rminus at 1. eapply Rle_trans; [apply Rabs_triang|]. rewrite Rabs_Ropp. lra.
Qed.
Lemma cabs_sum : forall a b, cabs (a, b) <= Rabs a + Rabs b.
Proof.
  intros a b. pose proof (Rabs_pos a). pose proof (Rabs_pos b). apply Rsqr_incr_0_var; [|lra]. unfold Rsqr. rewrite cabs_sq. cbn [fst snd].
  replace (a * a) with (Rabs a * Rabs a) by (unfold Rabs; destruct (Rcase_abs a); ring). replace (b * b) with (Rabs b * Rabs b) by (unfold Rabs; destruct (Rcase_abs b); ring). nra.
Qed.
(** the three shapes of the result *)
Definition shape (x y s q : R) (w : R * R) : Prop := (0 <= x /\ w = (s, q)) \/ (x < 0 /\ 0 <= y /\ w = (q, s)) \/ (x < 0 /\ y < 0 /\ w = (- q, - s)).
Lemma shape_ok : forall x y s q w e1 e2, shape x y s q w -> let R := sqrt (x * x + y * y) in let S0 := (R + Rabs x) / 2 in 0 < R -> 0 <= s -> 0 <= q * y -> (y = 0 -> q = 0) -> Rabs (s * s - S0) <= e1 -> e1 <= S0 / 4 -> Rabs (2 * s * q - y) <= e2 ->
  cabs (csub (cmul w w) (x, y)) <= 7 / 3 * e1 + 7 / 3 * e2 + e2 * e2 / (3 * S0) /\ 0 <= fst w.
Proof.
  intros x y s q w e1 e2 H R S0 R0 s0 QY QZ H1 H2 H3. pose proof (root_core x y s q e1 e2 R0 s0 H1 H2 H3) as C. fold R S0 in C.
  assert (K : cabs (csub (cmul w w) (x, y)) <= Rabs (s * s - q * q - Rabs x) + Rabs (2 * s * q - y)).
  { unfold csub, cmul. cbn [fst snd]. eapply Rle_trans; [apply cabs_sum|]. destruct H as [[X ->]|[(X & Y & ->)|(X & Y & ->)]]; cbn [fst snd].
    - rewrite (Rabs_pos_eq x) by auto. apply Rplus_le_compat; right; f_equal; ring.
    - rewrite (Rabs_left x) by auto. apply Rplus_le_compat; [rewrite <- Rabs_Ropp|]; right; f_equal; ring.
    - rewrite (Rabs_left x) by auto. apply Rplus_le_compat; [rewrite <- Rabs_Ropp|]; right; f_equal; ring. }
  split; [lra|]. destruct H as [[X ->]|[(X & Y & ->)|(X & Y & ->)]]; cbn [fst].
  - exact s0.
  - destruct (Req_dec y 0) as [Z|Z]; [rewrite QZ by auto; lra|]. clear - QY Y Z. nra.
  - clear - QY Y. nra.
Qed.
End Real.

(** ** fixed *)
Section RealFixed.
Open Scope R_scope.
(** the numbers of the error analysis: [u] the ulp, [v] its root, [a] the relative error of the crate's root *)
Lemma fixed_budget : forall u v R x r h s a, 0 < v -> u = v * v -> v <= / 32 -> 16 * v <= R -> 0 <= x <= R -> a = / 1000 + 5 * u ->
  Rabs (r - R) <= a * R + 3 * u + 3 / 2 * v -> Rabs (h - (r + x) / 2) <= u -> 0 <= s -> Rabs (s - sqrt h) <= a * sqrt h + 3 * u ->
  let S0 := (R + x) / 2 in let e1 := (281 / 100000 + 18 * u) * R + 6 * u + 3 / 4 * v in Rabs (s * s - S0) <= e1 /\ e1 <= S0 / 4 /\ 0 < s.
Proof.
  intros u v R x r h s a V U V1 R1 X A HR Hh s0 HS S0 e1.
  assert (U0 : 0 < u) by (rewrite U; nra). assert (U1 : u <= v / 32) by (rewrite U; nra). assert (UR : u <= R / 512) by lra. assert (U2 : u <= / 1024) by lra.
  assert (A0 : 0 < a <= 21 / 1000) by lra. assert (AR : a * R <= 21 / 1000 * R) by (apply Rmult_le_compat_r; lra). assert (RP : 0 < R) by lra.
  apply Rabs_le_inv in HR, Hh. assert (SR : R / 2 <= S0 <= R) by (unfold S0; lra).
  assert (HL : 87 / 100 * S0 <= h) by (unfold S0 in *; lra). assert (HU : h <= 114 / 100 * S0) by (unfold S0 in *; lra). assert (HP : 0 < h) by lra.
  set (t := sqrt h) in *. assert (T0 : 0 <= t) by apply sqrt_pos. assert (TT : t * t = h) by (apply sqrt_sqrt; lra). clearbody t.
  set (d := s - t) in *. assert (Sd : s * s - h = d * (2 * t + d)) by (unfold d; rewrite <- TT; ring).
  assert (D : Rabs (s * s - h) <= (a * t + 3 * u) * (2 * t + (a * t + 3 * u))).
  { rewrite Sd, Rabs_mult. apply Rmult_le_compat; try apply Rabs_pos; auto. eapply Rle_trans; [apply Rabs_triang|]. rewrite (Rabs_pos_eq (2 * t)) by lra. lra. }
  assert (T1 : t <= (1 + h) / 2) by (assert (Q1 : 0 <= (t - 1) * (t - 1)) by apply Rle_0_sqr; clear - TT Q1; lra).
  assert (D2 : (a * t + 3 * u) * (2 * t + (a * t + 3 * u)) = a * (2 + a) * h + 6 * (1 + a) * (u * t) + 9 * (u * u)) by (rewrite <- TT; ring).
  assert (P1 : a * (2 + a) * h <= 2021 / 1000 * a * (114 / 100 * R)) by (apply Rmult_le_compat; [clear - A0; nra|lra|clear - A0; nra|lra]).
  assert (P2 : 6 * (1 + a) * (u * t) <= 6126 / 1000 * (u * ((1 + h) / 2))) by (apply Rmult_le_compat; [lra|clear - U0 T0; nra|lra|apply Rmult_le_compat_l; lra]).
  assert (P3 : u * h <= u * (114 / 100 * R)) by (apply Rmult_le_compat_l; lra). assert (P4 : u * u <= / 1024 * u) by (apply Rmult_le_compat_r; lra).
  assert (P5 : a * R = R / 1000 + 5 * (u * R)) by (rewrite A; field).
  assert (E1 : e1 = 281 / 100000 * R + 18 * (u * R) + 6 * u + 3 / 4 * v) by (unfold e1; ring).
  assert (UR2 : u * R <= R / 1024) by (replace (R / 1024) with (/ 1024 * R) by field; apply Rmult_le_compat_r; lra).
  split; [|split].
  - rewrite D2 in D. apply Rabs_le_inv in D. rewrite E1. assert (E : S0 = (R + x) / 2) by reflexivity. clearbody e1 S0 d. assert (UR3 : 0 <= u * R) by (apply Rmult_le_pos; lra). clear - UR3 D HR Hh P1 P2 P3 P4 P5 E U0 V RP HU HP SR. apply Rabs_le. split; lra.
  - rewrite E1. lra.
  - destruct (Rle_lt_or_eq_dec 0 s s0) as [L|L]; auto. exfalso. rewrite <- L, Rmult_0_l in D. rewrite D2 in D. apply Rabs_le_inv in D. lra.
Qed.
End RealFixed.
Lemma fmax_seven : forall f, supported f = true -> fsigned f = true -> ffrac f <= fwidth f - 4 -> (7 <= fval f (fmax f))%R.
Proof.
  intros f Hf S F. pose proof (supported_fwf f Hf) as W. rewrite fval_eq, fmax_signed by (auto; apply W). pose proof (fone_IZR_pos f (proj1 W)) as P.
  apply Rmult_le_reg_r with (IZR (fone f)); auto. unfold Rdiv. rewrite Rmult_assoc, Rinv_l, Rmult_1_r by lra. rewrite <- mult_IZR. apply IZR_le.
  pose proof (fone_pos f (proj1 W)). unfold fwf in W. assert (2 ^ 3 * fone f <= 2 ^ (fwidth f - 1)). { unfold fone. rewrite <- Z.pow_add_r by lia. apply Z.pow_le_mono_r; lia. } lia.
Qed.
Section Fixed.
Variables (m : mode) (f : fty) (z : Cartesian Z).
Hypotheses (Hf : supported f = true) (S : fsigned f = true) (F : 10 <= ffrac f <= fwidth f - 4).
Notation x := (fval f (re z)). Notation y := (fval f (im z)). Notation R := (cabs (cval f z)). Notation u := (ulp f). Notation v := (sqrt (ulp f)). Notation FM := (fval f (fmax f)).
Hypotheses (R1 : (16 * v <= R)%R) (R2 : (R * R <= FM)%R).
Lemma ulp_facts : (0 < v /\ u = v * v /\ v <= / 32)%R.
Proof using F.
  assert (U : (0 < u)%R) by apply bpow_gt_0. assert (U2 : (u <= / 32 * / 32)%R). { apply Rle_trans with (bpow radix2 (-10)); [apply bpow_le; lia|]. change (bpow radix2 (-10)) with (/ 1024)%R. lra. }
  split; [apply sqrt_lt_R0; auto|]. split; [symmetry; apply sqrt_sqrt; lra|]. rewrite <- (sqrt_square (/ 32)) by lra. apply sqrt_le_1; lra.
Qed.
Lemma csqrt_fixed : exists w, returns (fun fuel => complex_sqrt (fixed_ops m f) (fixed_signed m f) (fixed_sqrt m f fuel) (fixed_powi m f) (fixed_abs m f) (fixed_zero m f) z) w /\
  (cabs (csub (cmul (cval f w) (cval f w)) (cval f z)) <= (66 / 10000 + 45 * u) * R + 17 * u + 7 / 4 * v)%R /\ (0 <= fst (cval f w))%R.
Proof using Hf S F R1 R2.
  pose proof (supported_fwf f Hf) as W. destruct ulp_facts as (V0 & UV & V1). pose proof (fmax_seven f Hf S ltac:(lia)) as FM7. assert (U0 : (0 < u)%R) by apply bpow_gt_0.
  assert (RD : R = sqrt (x * x + y * y)) by reflexivity. assert (RS : (R * R = x * x + y * y)%R) by (apply cabs_sq). set (r0 := R) in *.
  assert (RP : (0 < r0)%R) by lra. assert (AX : (Rabs x <= r0)%R) by apply (cabs_fst (cval f z)). assert (AY : (Rabs y <= r0)%R) by apply (cabs_snd (cval f z)). assert (X0 := Rabs_pos x).
  assert (RF : (22 / 10 * r0 <= FM)%R). { apply Rsqr_incr_0_var; [|lra]. unfold Rsqr. replace (22 / 10 * r0 * (22 / 10 * r0))%R with (484 / 100 * (r0 * r0))%R by field. apply Rle_trans with (484 / 100 * FM)%R; [lra|]. apply Rmult_le_compat_r; lra. }
  destruct (fixed_mag_acc m f z Hf S ltac:(lia)) as (r & Er & Dr); [rewrite <- RS; exact R2|]. rewrite <- RD in Dr. set (a := (/ 1000 + 5 * u)%R) in *.
  assert (V2 : (sqrt (2 * u) <= 3 / 2 * v)%R). { rewrite sqrt_mult by lra. apply Rmult_le_compat_r; [lra|]. rewrite <- (sqrt_square (3 / 2)) by lra. apply sqrt_le_1; lra. }
  assert (Dr' : (Rabs (fval f r - r0) <= a * r0 + 3 * u + 3 / 2 * v)%R) by lra. clear Dr V2.
  assert (UV1 : (u <= v / 32)%R) by (rewrite UV at 1; set (vv := v) in *; clearbody vv; clear - V0 V1; nra). assert (A1 : (0 < a <= 6 / 1000)%R) by (unfold a; lra). assert (AR : (a * r0 <= 6 / 1000 * r0)%R) by (apply Rmult_le_compat_r; lra).
  assert (DL := Dr'). apply Rabs_le_inv in DL.
  set (ax := Z.abs (re z)). assert (VA : fval f ax = Rabs x) by (unfold ax; symmetry; apply TrigProofs.fval_abs; apply W).
  assert (EA : mixed_abs (fixed_abs m f) (re z) = Ok ax). { cbn [fixed_abs mixed_abs]. rewrite S. unfold fx_abs. apply fx_fin_ok. apply in_rangeb_spec, fval_inj_range; auto. fold ax. rewrite VA, Rabs_pos_eq by auto. lra. }
  set (t := r + ax). assert (VT : fval f t = (fval f r + Rabs x)%R) by (unfold t; rewrite PhaseAcc.fval_add, VA; reflexivity).
  assert (ET : o_add (fixed_ops m f) r ax = Ok t) by (apply (PolarCart.fadd_ok m f r ax W S); rewrite VA, Rabs_pos_eq by lra; lra).
  assert (E2 : o_of_i32 (fixed_ops m f) 2 = Ok (2 * fone f)) by (apply fx_of_int_small; auto; [intros Q; congruence|lia]).
  pose proof (fone_pos f (proj1 W)) as ON. assert (VO : fval f (2 * fone f) = 2%R) by (rewrite fval_eq by apply W; rewrite mult_IZR; pose proof (fone_IZR_pos f (proj1 W)); field; lra).
  destruct (div_fixed_near m f Hf S t (2 * fone f) ltac:(lia)) as (h & Eh & Dh & _); [rewrite VT, VO, Rabs_pos_eq by lra; lra|]. rewrite VT, VO in Dh.
  assert (DH := Dh). apply Rabs_le_inv in DH. assert (HP : (0 < fval f h)%R) by lra.
  assert (HV : fvalid f h). { apply in_rangeb_spec, fval_inj_range; auto. rewrite Rabs_pos_eq by lra. lra. }
  assert (H0 : 0 <= h). { apply (PhaseAcc.fval_le f 0 h (proj1 W)). unfold fval at 1. rewrite Rmult_0_l. lra. }
  destruct (sqrt_fixed_api m f Hf S ltac:(lia) h HV H0) as (s & Es & _ & Ds). fold a in Ds.
  assert (HH : (u <= r0 / 512)%R) by lra.
  assert (T0 : (0 < sqrt (fval f h))%R) by (apply sqrt_lt_R0; auto).
  assert (SN : (0 <= fval f s)%R).
  { apply Rabs_le_inv in Ds. assert (TU : (4 * u <= sqrt (fval f h))%R).
    { rewrite <- (sqrt_square (4 * u)) by lra. apply sqrt_le_1; [nra|lra|]. assert (u * u <= u * / 1024)%R by (apply Rmult_le_compat_l; lra). lra. }
    assert (a * sqrt (fval f h) <= 6 / 1000 * sqrt (fval f h))%R by (apply Rmult_le_compat_r; lra). lra. }
  destruct (fixed_budget u v r0 (Rabs x) (fval f r) (fval f h) (fval f s) a V0 UV V1 R1 (conj X0 AX) eq_refl Dr' Dh SN Ds) as (B1 & B2 & SP).
  set (S0 := ((r0 + Rabs x) / 2)%R) in *. set (e1 := ((281 / 100000 + 18 * u) * r0 + 6 * u + 3 / 4 * v)%R) in *.
  assert (S0R : (r0 / 2 <= S0 <= r0)%R) by (unfold S0; lra). assert (BB := B1). apply Rabs_le_inv in BB. set (sv := fval f s) in *.
  assert (SS : (3 / 4 * S0 <= sv * sv <= 5 / 4 * S0)%R) by lra. assert (S2 : (2 * sv <= 1 + sv * sv)%R) by (assert (0 <= (sv - 1) * (sv - 1))%R by apply Rle_0_sqr; lra).
  set (d := s + s). assert (VD : fval f d = (2 * sv)%R) by (unfold d; rewrite PhaseAcc.fval_add; fold sv; ring).
  assert (ED : o_add (fixed_ops m f) s s = Ok d) by (apply (PolarCart.fadd_ok m f s s W S); fold sv; rewrite Rabs_pos_eq by lra; lra).
  assert (DN : d <> 0) by (intros Q; rewrite Q in VD; unfold fval in VD; rewrite Rmult_0_l in VD; lra).
  assert (Y2 : (Rabs y <= 2 * S0)%R) by (unfold S0; lra).
  assert (QB : (Rabs (y / fval f d) <= 4 / 3 * sv)%R).
  { rewrite VD. unfold Rdiv. rewrite Rabs_mult, (Rabs_pos_eq (/ (2 * sv))) by (left; apply Rinv_0_lt_compat; lra). apply Rmult_le_reg_r with (2 * sv)%R; [lra|]. rewrite Rmult_assoc, Rinv_l, Rmult_1_r by lra.
    replace (4 / 3 * sv * (2 * sv))%R with (8 / 3 * (sv * sv))%R by field. lra. }
  destruct (div_fixed_near m f Hf S (im z) d DN) as (q & Eq & Dq & Lq); [lra|].
  set (qv := fval f q) in *. rewrite VD in Dq.
  assert (N2 : (Rabs (2 * sv * qv - y) <= 2 * sv * u)%R).
  { replace (2 * sv * qv - y)%R with (2 * sv * (qv - y / (2 * sv)))%R by (field; lra). rewrite Rabs_mult, (Rabs_pos_eq (2 * sv)) by lra. apply Rmult_le_compat_l; lra. }
  assert (QZ : y = 0%R -> qv = 0%R). { intros Y. rewrite Y in Lq. unfold Rdiv in Lq. rewrite Rmult_0_l, Rabs_R0 in Lq. pose proof (Rabs_pos qv). apply Rabs_eq_R0. lra. }
  assert (QS : (0 <= qv * y)%R).
  { assert (ST : forall k, (fval f k < 0)%R -> (fval f k <= - u)%R).
    { intros k K. assert (k <= -1). { assert (k < 0); [|lia]. apply (PhaseAcc.fval_lt f k 0 (proj1 W)). unfold fval at 2. rewrite Rmult_0_l. exact K. }
      replace (- u)%R with (fval f (-1)) by (unfold fval, ulp; ring). apply (PhaseAcc.fval_le f k (-1) (proj1 W)). auto. }
    set (g := (y / (2 * sv))%R) in *. assert (YG : y = (2 * sv * g)%R) by (unfold g; field; lra). rewrite VD in Lq. fold g in Lq. apply Rabs_le_inv in Dq.
    destruct (Rtotal_order y 0) as [L|[L|L]].
    - assert (GN : (g < 0)%R) by (clear - YG L SP; nra). destruct (Rle_or_lt qv 0) as [K|K]; [clear - K L; nra|]. exfalso.
      assert (K' : (fval f (- q) < 0)%R) by (rewrite PhaseAcc.fval_neg; fold qv; lra). apply ST in K'. rewrite PhaseAcc.fval_neg in K'. fold qv in K'. lra.
    - rewrite L. lra.
    - assert (GN : (0 < g)%R) by (clear - YG L SP; nra). destruct (Rle_or_lt 0 qv) as [K|K]; [clear - K L; nra|]. exfalso. pose proof (ST q K). fold qv in H. lra. }
  assert (NEG : forall k, (Rabs (fval f k) <= FM)%R -> fx_neg m f k = Ok (- k)). { intros k K. unfold fx_neg. apply fx_fin_ok. apply in_rangeb_spec, fval_inj_range; auto. rewrite PhaseAcc.fval_neg, Rabs_Ropp. exact K. }
  assert (SF : (Rabs (fval f s) <= FM)%R) by (fold sv; rewrite Rabs_pos_eq by lra; lra). assert (QF : (Rabs (fval f q) <= FM)%R) by (fold qv; lra).
  assert (EZ : mixed_zero (fixed_zero m f) = Ok 0) by (cbn [fixed_zero mixed_zero]; rewrite fx_of_int_small by (auto; lia); f_equal; lia).
  assert (LE : forall k, o_le (fixed_ops m f) 0 k = true <-> (0 <= fval f k)%R).
  { intros k. transitivity (0 <= k). { unfold o_le. cbn [fixed_ops o_cmp]. unfold fx_cmp. destruct (Z.compare_spec 0 k); split; intros; try lia; auto; discriminate. }
    rewrite <- (PhaseAcc.fval_le f 0 k (proj1 W)). unfold fval at 1. rewrite Rmult_0_l. tauto. }
  assert (RES : exists w, (q1 <- Ok q ;; zero <- mixed_zero (fixed_zero m f) ;; if o_le (fixed_ops m f) zero (re z) then Ok (mkC s q1) else if o_le (fixed_ops m f) zero (im z) then Ok (mkC q1 s) else q2 <- o_neg (fixed_signed m f) q1 ;; s1 <- o_neg (fixed_signed m f) s ;; Ok (mkC q2 s1)) = Ok w /\ shape x y sv qv (cval f w)).
  { cbn [bind]. rewrite EZ. cbn [bind]. destruct (o_le (fixed_ops m f) 0 (re z)) eqn:K1.
    - eexists. split; [reflexivity|]. left. split; [apply LE; auto|reflexivity].
    - assert (XN : (x < 0)%R) by (apply Rnot_le_lt; intros C; apply LE in C; congruence). destruct (o_le (fixed_ops m f) 0 (im z)) eqn:K2.
      + eexists. split; [reflexivity|]. right. left. split; [auto|]. split; [apply LE; auto|reflexivity].
      + assert (YN : (y < 0)%R) by (apply Rnot_le_lt; intros C; apply LE in C; congruence). cbn [fixed_signed o_neg]. rewrite (NEG q QF), (NEG s SF). cbn [bind].
        eexists. split; [reflexivity|]. right. right. repeat (split; [assumption|]). unfold cval. cbn [re im]. rewrite !PhaseAcc.fval_neg. reflexivity. }
  destruct RES as (w & EW & SH). exists w. split.
  - unfold complex_sqrt. apply (returns_bind2 _ _ _ _ r); [exact Er|]. rewrite EA. cbn [bind]. rewrite ET. cbn [bind]. rewrite E2. cbn [bind]. change (o_div (fixed_ops m f)) with (fx_div m f). rewrite Eh. cbn [bind].
    apply (returns_bind2 _ _ _ _ s); [exact Es|]. rewrite ED. cbn [bind]. rewrite Eq. exists 0%nat. intros _ _. exact EW.
  - destruct (shape_ok x y sv qv (cval f w) e1 (2 * sv * u) SH) as [C1 C2]; auto; try lra. split; [|exact C2]. eapply Rle_trans; [exact C1|]. rewrite <- RD. fold S0.
    assert (K1 : (2 * sv * u * (2 * sv * u) / (3 * S0) <= 5 / 3 * (u * u))%R).
    { apply Rmult_le_reg_r with (3 * S0)%R; [lra|]. unfold Rdiv at 1. rewrite Rmult_assoc, Rinv_l, Rmult_1_r by lra. replace (2 * sv * u * (2 * sv * u))%R with (4 * (sv * sv) * (u * u))%R by ring.
      replace (5 / 3 * (u * u) * (3 * S0))%R with (5 * S0 * (u * u))%R by field. apply Rmult_le_compat_r; [clear - U0; nra|lra]. }
    assert (K2 : (2 * sv * u <= (1 + 5 / 4 * r0) * u)%R) by (apply Rmult_le_compat_r; lra). assert (K3 : (u * u <= / 1024 * u)%R) by (apply Rmult_le_compat_r; lra).
    assert (K4 : (0 <= u * r0)%R) by (clear - U0 RP; nra). unfold e1. clear - K1 K2 K3 K4 U0 V0 RP. lra.
Qed.
End Fixed.

(** ** floats with a correctly rounded root *)
Section RealFloat.
Open Scope R_scope.
Lemma float_budget : forall u R x r t h s, 0 < u <= / 1000000 -> 0 < R -> 0 <= x <= R -> Rabs (r - R) <= 9 / 4 * u * R -> Rabs (t - (r + x)) <= u * (r + x) -> Rabs (h - t / 2) <= u * (t / 2) ->
  Rabs (s - sqrt h) <= u * sqrt h -> let S0 := (R + x) / 2 in Rabs (s * s - S0) <= 32 / 5 * u * R /\ 0 < s /\ 99 / 100 * S0 <= s * s <= 101 / 100 * S0 /\ 99 / 100 * S0 <= h <= 101 / 100 * S0.
Proof.
  intros u R x r t h s U R0 X Hr Ht Hh Hs S0. assert (S0R : R / 2 <= S0 <= R) by (unfold S0; lra). assert (UR : u * R <= / 1000000 * R) by (apply Rmult_le_compat_r; lra). assert (UR0 : 0 < u * R) by (apply Rmult_lt_0_compat; lra).
  apply Rabs_le_inv in Hr. set (S1 := (r + x) / 2) in *. assert (D1 : Rabs (S1 - S0) <= 9 / 4 * u * S0).
  { apply Rabs_le. assert (u * R <= 2 * (u * S0)) by (replace (2 * (u * S0)) with (u * (2 * S0)) by ring; apply Rmult_le_compat_l; lra). unfold S1, S0 in *. lra. }
  set (us := u * S0) in *. assert (US : 0 < us <= / 1000000 * S0) by (unfold us; split; [apply Rmult_lt_0_compat; lra|apply Rmult_le_compat_r; lra]). assert (USR : us <= u * R) by (unfold us; apply Rmult_le_compat_l; lra).
  replace (9 / 4 * u * S0) with (9 / 4 * us) in D1 by (unfold us; ring). replace (r + x) with (2 * S1) in Ht by (unfold S1; field). apply Rabs_le_inv in D1, Ht.
  assert (M1 : u * S1 <= 1001 / 1000 * us) by (apply Rle_trans with (u * (1001 / 1000 * S0)); [apply Rmult_le_compat_l; lra|right; unfold us; ring]).
  assert (M2 : u * (t / 2) <= 1002 / 1000 * us) by (apply Rle_trans with (u * (1002 / 1000 * S0)); [apply Rmult_le_compat_l; lra|right; unfold us; ring]).
  apply Rabs_le_inv in Hh. assert (D2 : Rabs (h - S0) <= 4254 / 1000 * us) by (apply Rabs_le; lra). apply Rabs_le_inv in D2. assert (HP : 0 < h) by lra.
  assert (T0 : 0 < sqrt h) by (apply sqrt_lt_R0; auto). assert (TT : sqrt h * sqrt h = h) by (apply sqrt_sqrt; lra). set (w := sqrt h) in *.
  assert (UW : u * w <= / 1000000 * w) by (apply Rmult_le_compat_r; lra). apply Rabs_le_inv in Hs. assert (S2 : (1 - u) * w <= s <= (1 + u) * w) by lra. assert (SP : 0 < s) by lra.
  assert (L1 : (1 - u) * w * ((1 - u) * w) <= s * s) by (apply Rmult_le_compat; try lra; apply Rmult_le_pos; lra). assert (L2 : s * s <= (1 + u) * w * ((1 + u) * w)) by (apply Rmult_le_compat; lra).
  replace ((1 - u) * w * ((1 - u) * w)) with ((1 - 2 * u + u * u) * h) in L1 by (rewrite <- TT; ring). replace ((1 + u) * w * ((1 + u) * w)) with ((1 + 2 * u + u * u) * h) in L2 by (rewrite <- TT; ring).
  assert (UU : 0 <= u * u <= / 1000000 * u) by (split; [apply Rmult_le_pos; lra|apply Rmult_le_compat_r; lra]).
  assert (UH : u * h <= 1001 / 1000 * us) by (apply Rle_trans with (u * (1001 / 1000 * S0)); [apply Rmult_le_compat_l; lra|right; unfold us; ring]).
  assert (UUH : 0 <= u * u * h <= / 1000000 * (u * h)) by (split; [apply Rmult_le_pos; lra|rewrite <- Rmult_assoc; apply Rmult_le_compat_r; lra]).
  assert (D3 : Rabs (s * s - S0) <= 6300 / 1000 * us) by (apply Rabs_le; lra). apply Rabs_le_inv in D3.
  split; [apply Rabs_le; lra|]. repeat split; lra.
Qed.
Lemma quotient_budget : forall u R y s d q eta, 0 < u <= / 1000000 -> 0 < R -> Rabs y <= R -> 0 < s -> Rabs (d - 2 * s) <= u * (2 * s) -> 0 <= eta -> s * eta <= / 100 * (u * R) ->
  Rabs (q - y / d) <= u * Rabs (y / d) + / 2 * eta -> Rabs (2 * s * q - y) <= 21 / 10 * u * R /\ Rabs (y / d) <= 101 / 100 * (R / (2 * s)) /\ 0 < d.
Proof.
  intros u R y s d q eta U R0 Y S0 Hd E0 E1 Hq. assert (US : u * (2 * s) <= / 1000000 * (2 * s)) by (apply Rmult_le_compat_r; lra). apply Rabs_le_inv in Hd. assert (D0 : 0 < d) by lra.
  assert (Y0 := Rabs_pos y). assert (RR : 2 * s / d <= 1001 / 1000). { apply Rmult_le_reg_r with d; auto. unfold Rdiv at 1. rewrite Rmult_assoc, Rinv_l by lra. lra. }
  assert (R1 : 0 < 2 * s / d) by (apply Rmult_lt_0_compat; [lra|apply Rinv_0_lt_compat; auto]).
  assert (AQ : Rabs (y / d) = Rabs y / d) by (unfold Rdiv; rewrite Rabs_mult, (Rabs_pos_eq (/ d)) by (left; apply Rinv_0_lt_compat; auto); reflexivity).
  split; [|split; auto].
  - replace (2 * s * q - y) with (2 * s * (q - y / d) + y * ((2 * s - d) / d)) by (field; lra). eapply Rle_trans; [apply Rabs_triang|]. rewrite !Rabs_mult, (Rabs_pos_eq 2), (Rabs_pos_eq s) by lra.
    assert (P1 : 2 * s * Rabs (q - y / d) <= 2 * s * (u * Rabs (y / d) + / 2 * eta)) by (apply Rmult_le_compat_l; lra). rewrite AQ in P1.
    replace (2 * s * (u * (Rabs y / d) + / 2 * eta)) with (u * Rabs y * (2 * s / d) + s * eta) in P1 by (field; lra).
    assert (UY : 0 <= u * Rabs y <= u * R) by (split; [apply Rmult_le_pos; lra|apply Rmult_le_compat_l; lra]).
    assert (P2 : u * Rabs y * (2 * s / d) <= u * R * (1001 / 1000)) by (apply Rmult_le_compat; lra).
    assert (P3 : Rabs ((2 * s - d) / d) <= 1001 / 1000 * u). { unfold Rdiv at 1. rewrite Rabs_mult, (Rabs_pos_eq (/ d)) by (left; apply Rinv_0_lt_compat; auto). apply Rle_trans with (u * (2 * s) * / d); [apply Rmult_le_compat_r; [left; apply Rinv_0_lt_compat; auto|apply Rabs_le; lra]|].
      replace (u * (2 * s) * / d) with (2 * s / d * u) by (field; lra). apply Rmult_le_compat_r; lra. }
    assert (P4 : Rabs y * Rabs ((2 * s - d) / d) <= R * (1001 / 1000 * u)) by (apply Rmult_le_compat; try lra; apply Rabs_pos). lra.
  - rewrite AQ. replace (101 / 100 * (R / (2 * s))) with (R * (101 / 100 * / (2 * s))) by (field; lra). apply Rmult_le_compat; try lra; [left; apply Rinv_0_lt_compat; auto|].
    apply Rmult_le_reg_r with d; auto. rewrite Rinv_l by lra. apply Rmult_le_reg_r with (2 * s); [lra|]. replace (101 / 100 * / (2 * s) * d * (2 * s)) with (101 / 100 * d) by (field; lra). lra.
Qed.
End RealFloat.
Section Float.
Context {prec emax : Z} {Hp : Prec_gt_0 prec} {He : Prec_lt_emax prec emax}.
Notation float := (binary_float prec emax).
Notation rnd := (round radix2 (SpecFloat.fexp prec emax) ZnearestE).
Notation u := (bpow radix2 (- prec)).
Hypotheses (P24 : 24 <= prec) (E40 : 40 <= emax).
Notation hh := (emax / 2).
Lemma rnd_pos v : (bpow radix2 (2 - emax) <= v)%R -> (Rabs (rnd v - v) <= u * v)%R.
Proof using Hp. intros L. pose proof (bpow_gt_0 radix2 (2 - emax)). pose proof (rnd_norm (prec := prec) (emax := emax) v) as N. rewrite (Rabs_pos_eq v) in N by lra. apply N, L. Qed.
Variables (m : mode) (fuel : nat) (sq : float -> float) (z : Cartesian float).
Hypothesis SQ : forall x, sq x = Bsqrt mode_NE x.
Hypotheses (F1 : is_finite (re z) = true) (F2 : is_finite (im z) = true).
Notation x := (B2R (re z)). Notation y := (B2R (im z)). Notation R := (cabs (cvalf z)).
Hypotheses (L : (bpow radix2 (8 - hh) <= R <= bpow radix2 (hh - 4))%R).
Lemma csqrt_float : exists w, complex_sqrt float_ops float_signed (float_sqrt m sq fuel) float_powi float_abs float_zero z = Ok w /\ is_finite (re w) = true /\ is_finite (im w) = true /\
  (cabs (csub (cmul (cvalf w) (cvalf w)) (cvalf z)) <= 20 * u * R)%R /\ (0 <= fst (cvalf w))%R.
Proof using P24 E40 SQ F1 F2 L.
  assert (HL : 2 * hh <= emax < 2 * hh + 2) by (pose proof (Z.div_mod emax 2 ltac:(lia)); pose proof (Z.mod_pos_bound emax 2 ltac:(lia)); lia).
  pose proof (@ep_small prec P24) as EP. assert (RD : R = sqrt (x * x + y * y)) by reflexivity. assert (RS : (R * R = x * x + y * y)%R) by (apply cabs_sq).
  assert (AX : (Rabs x <= R)%R) by apply (cabs_fst (cvalf z)). assert (AY : (Rabs y <= R)%R) by apply (cabs_snd (cvalf z)). assert (X0 := Rabs_pos x). assert (Y0 := Rabs_pos y).
  set (r0 := R) in *. assert (RP : (0 < r0)%R) by (pose proof (bpow_gt_0 radix2 (8 - hh)); lra).
  assert (B4 : (4 * bpow radix2 (hh - 4) = bpow radix2 (hh - 2))%R) by (replace (hh - 2) with (2 + (hh - 4)) by ring; rewrite bpow_plus; reflexivity).
  assert (B2 : (2 <= bpow radix2 (hh - 2))%R) by (change 2%R with (bpow radix2 1); apply bpow_le; lia).
  assert (BS : (bpow radix2 (4 - emax) <= / 1000 * r0)%R). { apply Rle_trans with (/ 1000 * bpow radix2 (8 - hh))%R; [|lra]. replace (4 - emax) with ((8 - hh) + (hh - emax - 4)) by ring. rewrite bpow_plus, Rmult_comm. apply Rmult_le_compat_r; [apply bpow_ge_0|].
    apply Rle_trans with (bpow radix2 (-10)); [apply bpow_le; lia|]. change (bpow radix2 (-10)) with (/ 1024)%R. lra. }
  assert (BN : (bpow radix2 (4 - emax) <= / 1000)%R) by (apply Rle_trans with (bpow radix2 (-10)); [apply bpow_le; lia|change (bpow radix2 (-10)) with (/ 1024)%R; lra]).
  assert (B23 : (bpow radix2 (2 - emax) <= bpow radix2 (4 - emax) /\ bpow radix2 (3 - emax) <= bpow radix2 (4 - emax))%R) by (split; apply bpow_le; lia).
  destruct (float_mag_acc P24 E40 m fuel z sq SQ (hh - 4) ltac:(lia) F1 F2) as (r & Er & Fr & Dr).
  { set (M := Rmax _ _). assert (M1 : (Rabs x <= M)%R) by apply Rmax_l. assert (M2 : (Rabs y <= M)%R) by apply Rmax_r. clearbody M.
    assert (XX : (x * x <= M * M)%R) by (replace (x * x)%R with (Rabs x * Rabs x)%R by (unfold Rabs; destruct (Rcase_abs x); ring); apply Rmult_le_compat; auto).
    assert (YY : (y * y <= M * M)%R) by (replace (y * y)%R with (Rabs y * Rabs y)%R by (unfold Rabs; destruct (Rcase_abs y); ring); apply Rmult_le_compat; auto).
    assert (r2 : (bpow radix2 (8 - hh) * bpow radix2 (8 - hh) <= r0 * r0)%R) by (apply Rmult_le_compat; try apply bpow_ge_0; lra). rewrite <- bpow_plus in r2.
    apply Rle_trans with (bpow radix2 (8 - hh + (8 - hh)) / 2)%R; [|lra]. apply Rmult_le_reg_r with 2%R; [lra|]. replace (bpow radix2 (8 - hh + (8 - hh)) / 2 * 2)%R with (bpow radix2 (8 - hh + (8 - hh))) by field.
    change 2%R with (bpow radix2 1). rewrite <- bpow_plus. apply bpow_le. lia. }
  { apply Rmax_lub; lra. }
  rewrite <- RD in Dr. assert (UR : (u * r0 <= / 1000000 * r0)%R) by (apply Rmult_le_compat_r; lra). assert (DL := Dr). apply Rabs_le_inv in DL.
  set (ax := Babs (re z)). assert (VA : B2R ax = Rabs x) by apply B2R_Babs. assert (FA : is_finite ax = true) by (unfold ax; rewrite is_finite_Babs; auto).
  destruct (plus_r (prec := prec) (emax := emax) r ax Fr FA (hh - 2)) as [Ft Vt]; [lia|rewrite VA, Rabs_pos_eq by lra; lra|]. set (t := Bplus mode_NE r ax) in *. rewrite VA in Vt.
  assert (Dt : (Rabs (B2R t - (B2R r + Rabs x)) <= u * (B2R r + Rabs x))%R). { rewrite Vt. apply rnd_pos. lra. }
  assert (UT : (u * (B2R r + Rabs x) <= / 1000000 * (B2R r + Rabs x))%R) by (apply Rmult_le_compat_r; lra). assert (TL := Dt). apply Rabs_le_inv in TL.
  destruct (float_of_Z_exact (prec := prec) (emax := emax) 2) as (V2 & F2z & _). { apply Z.lt_le_trans with (2 ^ 24); [reflexivity|apply Z.pow_le_mono_r; lia]. }
  set (two := float_of_Z prec emax 2) in *.
  destruct (div_r (prec := prec) (emax := emax) t two Ft ltac:(rewrite V2; lra) (hh - 2)) as [Fh Vh]; [lia|rewrite V2, Rabs_pos_eq by lra; lra|]. set (h := Bdiv mode_NE t two) in *. rewrite V2 in Vh.
  assert (Dh : (Rabs (B2R h - B2R t / 2) <= u * (B2R t / 2))%R). { rewrite Vh. apply rnd_pos. lra. }
  assert (UH : (u * (B2R t / 2) <= / 1000000 * (B2R t / 2))%R) by (apply Rmult_le_compat_r; lra). assert (HH := Dh). apply Rabs_le_inv in HH.
  destruct (sqrt_val P24 E40 h Fh ltac:(lra)) as [Fs Ds]. rewrite <- SQ in Fs, Ds. set (s := sq h) in *.
  destruct (float_budget u r0 (Rabs x) (B2R r) (B2R t) (B2R h) (B2R s) EP RP (conj X0 AX) Dr Dt Dh Ds) as (E1 & SP & SS & _). set (S0 := ((r0 + Rabs x) / 2)%R) in *. assert (S0R : (r0 / 2 <= S0 <= r0)%R) by (unfold S0; lra).
  set (sv := B2R s) in *. assert (S2 : (2 * sv <= 1 + sv * sv)%R) by (assert (0 <= (sv - 1) * (sv - 1))%R by apply Rle_0_sqr; lra).
  assert (SL : (bpow radix2 (4 - emax) <= sv)%R). { apply Rsqr_incr_0_var; [|lra]. unfold Rsqr. apply Rle_trans with (bpow radix2 (4 - emax) * / 1000)%R; [apply Rmult_le_compat_l; [apply bpow_ge_0|exact BN]|]. lra. }
  destruct (plus_r (prec := prec) (emax := emax) s s Fs Fs (hh - 2)) as [Fd Vd]; [lia|fold sv; rewrite Rabs_pos_eq by lra; lra|]. set (d := Bplus mode_NE s s) in *. fold sv in Vd. replace (sv + sv)%R with (2 * sv)%R in Vd by ring.
  assert (Dd : (Rabs (B2R d - 2 * sv) <= u * (2 * sv))%R). { rewrite Vd. apply rnd_pos. lra. }
  set (eta := bpow radix2 (3 - emax - prec)). assert (ET : (eta = u * bpow radix2 (3 - emax))%R) by (unfold eta; rewrite <- bpow_plus; f_equal; ring).
  assert (SE : (sv * eta <= / 100 * (u * r0))%R).
  { rewrite ET. replace (sv * (u * bpow radix2 (3 - emax)))%R with (u * (sv * bpow radix2 (3 - emax)))%R by ring. replace (/ 100 * (u * r0))%R with (u * (/ 100 * r0))%R by ring. apply Rmult_le_compat_l; [lra|].
    apply Rle_trans with ((1 + r0) * bpow radix2 (4 - emax))%R; [apply Rmult_le_compat; try lra; apply bpow_ge_0|]. assert (r0 * bpow radix2 (4 - emax) <= r0 * / 1000)%R by (apply Rmult_le_compat_l; lra). lra. }
  destruct (quotient_budget u r0 y sv (B2R d) (rnd (y / B2R d)) eta EP RP AY SP Dd (bpow_ge_0 _ _) SE (MagProofs.rnd_rel _)) as (E2 & QB & DP).
  assert (QL : (Rabs (y / B2R d) <= bpow radix2 (hh - 2))%R). { apply Rle_trans with (1 := QB). apply Rle_trans with (2 * sv)%R; [|lra]. apply Rmult_le_reg_r with (2 * sv)%R; [lra|]. replace (101 / 100 * (r0 / (2 * sv)) * (2 * sv))%R with (101 / 100 * r0)%R by (field; lra). replace (2 * sv * (2 * sv))%R with (4 * (sv * sv))%R by ring. lra. }
  destruct (div_r (prec := prec) (emax := emax) (im z) d F2 ltac:(lra) (hh - 2)) as [Fq Vq]; [lia|exact QL|]. set (q := Bdiv mode_NE (im z) d) in *. rewrite <- Vq in E2.
  assert (IP : (0 < / B2R d)%R) by (apply Rinv_0_lt_compat; auto).
  assert (QZ : y = 0%R -> B2R q = 0%R) by (intros E; rewrite Vq, E; unfold Rdiv; rewrite Rmult_0_l; apply round_0; typeclasses eauto).
  assert (QS : (0 <= B2R q * y)%R).
  { rewrite Vq. destruct (Rle_or_lt 0 y) as [K|K].
    - apply Rmult_le_pos; auto. rewrite <- (round_0 radix2 (SpecFloat.fexp prec emax) ZnearestE). apply round_le; [typeclasses eauto|typeclasses eauto|]. apply Rmult_le_pos; lra.
    - assert (rnd (y / B2R d) <= 0)%R. { rewrite <- (round_0 radix2 (SpecFloat.fexp prec emax) ZnearestE). apply round_le; [typeclasses eauto|typeclasses eauto|]. unfold Rdiv. clear - K IP. nra. } clear - H K. nra. }
  assert (LE : forall k : float, is_finite k = true -> (o_le float_ops (B754_zero false) k = true <-> (0 <= B2R k)%R)).
  { intros k K. unfold o_le. cbn [float_ops o_cmp]. rewrite Bcompare_correct by (auto; reflexivity). cbn [B2R]. destruct (Rcompare_spec 0 (B2R k)); split; intros; try discriminate; auto; lra. }
  assert (RES : exists w, (zero <- mixed_zero float_zero ;; if o_le float_ops zero (re z) then Ok (mkC s q) else if o_le float_ops zero (im z) then Ok (mkC q s) else q1 <- o_neg float_signed q ;; s1 <- o_neg float_signed s ;; Ok (mkC q1 s1)) = Ok w /\
    is_finite (re w) = true /\ is_finite (im w) = true /\ shape x y sv (B2R q) (cvalf w)).
  { cbn [float_zero mixed_zero bind]. rewrite float_of_Z_zero. destruct (o_le float_ops (B754_zero false) (re z)) eqn:K1.
    - eexists. split; [reflexivity|]. repeat (split; [assumption|]). left. split; [apply LE; auto|reflexivity].
    - assert (XN : (x < 0)%R) by (apply Rnot_le_lt; intros C; apply LE in C; [congruence|auto]). destruct (o_le float_ops (B754_zero false) (im z)) eqn:K2.
      + eexists. split; [reflexivity|]. repeat (split; [assumption|]). right. left. split; [auto|]. split; [apply LE; auto|reflexivity].
      + assert (YN : (y < 0)%R) by (apply Rnot_le_lt; intros C; apply LE in C; [congruence|auto]). cbn [float_signed o_neg bind].
        eexists. split; [reflexivity|]. cbn [re im]. rewrite !is_finite_Bopp. repeat (split; [assumption|]). right. right. repeat (split; [assumption|]). unfold cvalf. cbn [re im]. rewrite !B2R_Bopp. reflexivity. }
  destruct RES as (w & EW & W1 & W2 & SH). exists w. split.
  - unfold complex_sqrt. unfold float_mag in Er. rewrite Er. cbn [bind float_abs mixed_abs float_ops o_add o_of_i32 o_div float_sqrt mixed_sqrt]. exact EW.
  - repeat (split; [assumption|]). destruct (shape_ok x y sv (B2R q) (cvalf w) (32 / 5 * u * r0) (21 / 10 * u * r0) SH) as [C1 C2]; auto; try lra.
    split; [|exact C2]. eapply Rle_trans; [exact C1|]. try rewrite <- RD. fold S0. set (ur := (u * r0)%R) in *.
    assert (K1 : (21 / 10 * u * r0 * (21 / 10 * u * r0) / (3 * S0) <= / 1000 * ur)%R).
    { apply Rmult_le_reg_r with (3 * S0)%R; [lra|]. replace (21 / 10 * u * r0 * (21 / 10 * u * r0) / (3 * S0) * (3 * S0))%R with (441 / 100 * (ur * ur))%R by (unfold ur; field; lra).
      assert (0 <= ur)%R by (unfold ur; apply Rmult_le_pos; lra). assert (ur * ur <= ur * (/ 1000000 * r0))%R by (apply Rmult_le_compat_l; auto). assert (ur * r0 <= ur * (2 * S0))%R by (apply Rmult_le_compat_l; lra). assert (0 <= ur * S0)%R by (apply Rmult_le_pos; lra). replace (/ 1000 * ur * (3 * S0))%R with (3 / 1000 * (ur * S0))%R by field. lra. }
    assert (0 <= ur)%R by (unfold ur; apply Rmult_le_pos; lra). replace (20 * u * r0)%R with (20 * ur)%R by (unfold ur; ring). replace (7 / 3 * (32 / 5 * u * r0))%R with (7 / 3 * (32 / 5 * ur))%R by (unfold ur; field). replace (7 / 3 * (21 / 10 * u * r0))%R with (7 / 3 * (21 / 10 * ur))%R by (unfold ur; field). lra.
Qed.
End Float.
(** On the imaginary axis closer to zero than the square root of one step the magnitude is zero and the program divides by zero. *)
Lemma csqrt_fixed_zero : forall m f fuel y, supported f = true -> fsigned f = true -> y * y < 2 ^ ffrac f ->
  complex_sqrt (fixed_ops m f) (fixed_signed m f) (fixed_sqrt m f fuel) (fixed_powi m f) (fixed_abs m f) (fixed_zero m f) (mkC 0 y) = Panic PDivZero.
Proof.
  intros m f fuel y Hf S Y. pose proof (supported_fwf f Hf) as W. assert (N : forall k, fvalid f k -> fx_fin m f k = Ok k) by (intros k; apply fx_fin_ok).
  pose proof (AngleProofs.fmax_two f Hf S). assert (V0 : fvalid f 0). { apply in_rangeb_spec, fval_inj_range; auto. unfold fval at 1. rewrite Rmult_0_l, Rabs_R0. lra. }
  unfold complex_sqrt. cbn [re im]. assert (P : 0 < 2 ^ ffrac f) by (apply Z.pow_pos_nonneg; destruct W; lia).
  pose proof (fixed_mag_under m f fuel (mkC 0 y) Hf ltac:(cbn [re]; lia) Y) as E. unfold fixed_mag in E. rewrite E. clear E. cbn [bind fixed_abs mixed_abs]. rewrite S. unfold fx_abs. cbn [Z.abs]. rewrite (N 0 V0). cbn [bind fixed_ops o_add]. unfold fx_add. rewrite Z.add_0_r, (N 0 V0). cbn [bind].
  assert (E2 : o_of_i32 (fixed_ops m f) 2 = Ok (2 * fone f)) by (apply fx_of_int_small; auto; [intros Q; congruence|lia]). rewrite E2. cbn [bind fixed_ops o_div o_add]. unfold fx_div at 1. pose proof (fone_pos f (proj1 W)).
  destruct (Z.eqb_spec (2 * fone f) 0); [lia|]. change (0 * fone f) with 0. rewrite Z.quot_0_l by auto. rewrite (N 0 V0). cbn [bind].
  destruct (sqrt_zero_api m f Hf fuel) as [E _]. rewrite E. cbn [bind]. rewrite Z.add_0_r, (N 0 V0). cbn [bind]. reflexivity.
Qed.
