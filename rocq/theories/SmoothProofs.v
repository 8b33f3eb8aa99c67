(** * Proofs: neighbouring angles give neighbouring sines and cosines. *)

From Coq Require Import ZArith Reals Lia Lra Psatz Bool List.
From Flocq Require Import Core.Core IEEE754.BinarySingleNaN.
From Verif Require Import Base FloatBase Literals Traits Trig IntImpl FixedPrim FixedImpl FloatImpl Spec Lemmas FloatLemmas FloatProofs FloatKit SqrtReal ScalarProofs ScalarProofs2 WrapProofs WrapProofs2 FloatWrap
  NiirfZ NiirfFloat SinReal SinFixed SinFloat TrigProofs FloatU CrossSin.
Open Scope Z_scope.

(** ** fixed point *)
Section Fixed.
Variables (m : mode) (f : fty).
Hypothesis (W : fwf f) (S : fsigned f = true) (I20 : ffrac f <= fwidth f - 20).
Notation q := (fone f).
Notation p := (pi_bits f).

Lemma zfold_lip : forall x y, Z.abs (zfold p x - zfold p y) <= Z.abs (x - y).
Proof using W.
  intros x y. pose proof (pi_bits_bounds f W) as B. pose proof (fone_pos f (proj1 W)). unfold zfold. set (h := p / 2). assert (0 <= h) by (apply Z.div_pos; lia). clearbody h.
  destruct (Z.ltb_spec x (- h)), (Z.ltb_spec y (- h)); try destruct (Z.ltb_spec h x); try destruct (Z.ltb_spec h y); lia.
Qed.
Lemma zpoly_lip : forall x y, 10000 * Z.abs x <= 15711 * q -> 10000 * Z.abs y <= 15711 * q -> Z.abs (zpoly q x - zpoly q y) <= Z.abs (x - y) + 5.
Proof using W.
  intros x y X Y. pose proof (fone_pos f (proj1 W)) as Q. pose proof (zpoly_err q x Q X) as Ex. pose proof (zpoly_err q y Q Y) as Ey.
  pose proof (P9_lip _ _ (v_bound q x Q X) (v_bound q y Q Y)) as L. pose proof (q_real q Q) as Qr.
  assert (L' : (Rabs (IZR q * P9 (IZR x / IZR q) - IZR q * P9 (IZR y / IZR q)) <= IZR (Z.abs (x - y)))%R).
  { rewrite <- Rmult_minus_distr_l, Rabs_mult, (Rabs_pos_eq (IZR q)) by lra. apply Rle_trans with (IZR q * Rabs (IZR x / IZR q - IZR y / IZR q))%R; [apply Rmult_le_compat_l; lra|].
    replace (IZR x / IZR q - IZR y / IZR q)%R with ((IZR x - IZR y) * / IZR q)%R by (field; lra). rewrite Rabs_mult, Rabs_inv, (Rabs_pos_eq (IZR q)) by lra.
    rewrite abs_IZR, minus_IZR. apply Req_le. field. lra. }
  assert (Z.abs (zpoly q x - zpoly q y) < Z.abs (x - y) + 6); [|lia]. apply lt_IZR. rewrite abs_IZR, minus_IZR, plus_IZR.
  apply Rabs_le_inv in Ex, Ey, L'. apply Rabs_lt. lra.
Qed.
Lemma sin_smooth : forall x y, Z.abs x <= p -> Z.abs y <= p -> exists r s,
  sin (fixed_ops m f) (fixed_signed m f) (fixed_pi m f) (fixed_powi m f) x = Ok r /\ sin (fixed_ops m f) (fixed_signed m f) (fixed_pi m f) (fixed_powi m f) y = Ok s /\
  Z.abs (r - s) <= Z.abs (x - y) + 5.
Proof using W S I20.
  intros x y X Y. do 2 eexists. split; [apply sin_bits; auto|]. split; [apply sin_bits; auto|].
  pose proof (half_pi_small f W) as HP. pose proof (zfold_range f W x X). pose proof (zfold_range f W y Y). pose proof (zfold_lip x y).
  pose proof (zpoly_lip (zfold p x) (zfold p y) ltac:(lia) ltac:(lia)). lia.
Qed.

(** the folded angle as a function on all integers, of period two pi *)
Definition wrapped (a : Z) : Z := (a + p) mod (2 * p) - p.
Lemma p_pos : 3 <= p.
Proof using W. pose proof (pi_bits_bounds f W) as B. pose proof (fone_pos f (proj1 W)). lia. Qed.
Lemma step_one : forall a, Z.abs (zfold p (wrapped (a + 1)) - zfold p (wrapped a)) <= 1.
Proof using W.
  intros a. pose proof p_pos as P. unfold wrapped. pose proof (Z.mod_pos_bound (a + p) (2 * p) ltac:(lia)) as M. set (t := (a + p) mod (2 * p)) in *.
  destruct (Z.eq_dec t (2 * p - 1)) as [E|E].
  - assert (R : (a + 1 + p) mod (2 * p) = 0). { replace (a + 1 + p) with (a + p + 1) by ring. rewrite <- Zplus_mod_idemp_l. fold t. rewrite E. replace (2 * p - 1 + 1) with (2 * p) by ring. apply Z_mod_same_full. }
    rewrite R, E. pose proof (half_pi_range f) as H. unfold zfold. set (h := p / 2) in *. clearbody h t. clear - P H. set (pp := p) in *. clearbody pp. destruct (Z.ltb_spec (0 - pp) (- h)), (Z.ltb_spec (2 * pp - 1 - pp) (- h)), (Z.ltb_spec h (0 - pp)), (Z.ltb_spec h (2 * pp - 1 - pp)); lia.
  - assert (R : (a + 1 + p) mod (2 * p) = t + 1). { replace (a + 1 + p) with (a + p + 1) by ring. rewrite <- Zplus_mod_idemp_l. fold t. apply Z.mod_small. lia. }
    rewrite R. pose proof (zfold_lip (t + 1 - p) (t - p)). lia.
Qed.
Lemma wrapped_lip : forall a b, Z.abs (zfold p (wrapped a) - zfold p (wrapped b)) <= Z.abs (a - b).
Proof using W.
  assert (A : forall n a, 0 <= n -> Z.abs (zfold p (wrapped (a + n)) - zfold p (wrapped a)) <= n).
  { intros n a N. revert a. pattern n. apply natlike_ind; auto; clear n N.
    - intros a. replace (a + 0) with a by ring. lia.
    - intros n N IH a. pose proof (IH a). pose proof (step_one (a + n)). replace (a + Z.succ n) with (a + n + 1) by lia. lia. }
  intros a b. destruct (Z_le_dec a b).
  - pose proof (A (b - a) a ltac:(lia)) as K. replace (a + (b - a)) with b in K by ring. lia.
  - pose proof (A (a - b) b ltac:(lia)) as K. replace (b + (a - b)) with a in K by ring. lia.
Qed.
Lemma cos_wrapped : forall x, fvalid f (x + p / 2) -> returns (fun fuel => cos (fixed_ops m f) (fixed_signed m f) (fixed_pi m f) (fixed_powi m f) fuel x) (zpoly q (zfold p (wrapped (x + p / 2)))).
Proof using W S I20.
  intros x V. destruct (wrap_phase_fixed m f W S ltac:(right; lia) (x + p / 2) V) as [y [[n0 R] [Y1 [k Y2]]]]. pose proof p_pos as P.
  assert (E : y = wrapped (x + p / 2)). { unfold wrapped. replace (x + p / 2 + p) with (y + p + k * (2 * p)) by lia. rewrite Z_mod_plus_full, Z.mod_small by lia. lia. }
  exists n0. intros n Hn. unfold cos. rewrite half_pi_ok by auto. cbn [o_add fixed_ops]. unfold fx_add.
  rewrite fx_fin_ok by auto. cbn [bind]. specialize (R n Hn). cbn [mixed_wrap_phase fixed_wrap_phase] in R. rewrite R. cbn [bind]. rewrite <- E. apply sin_bits; auto. lia.
Qed.
Lemma cos_smooth : forall x y, fvalid f (x + p / 2) -> fvalid f (y + p / 2) -> exists r s,
  returns (fun fuel => cos (fixed_ops m f) (fixed_signed m f) (fixed_pi m f) (fixed_powi m f) fuel x) r /\ returns (fun fuel => cos (fixed_ops m f) (fixed_signed m f) (fixed_pi m f) (fixed_powi m f) fuel y) s /\
  Z.abs (r - s) <= Z.abs (x - y) + 5.
Proof using W S I20.
  intros x y X Y. do 2 eexists. split; [apply cos_wrapped; auto|]. split; [apply cos_wrapped; auto|].
  pose proof p_pos as P. assert (WR : forall a, Z.abs (wrapped a) <= p) by (intros a; unfold wrapped; pose proof (Z.mod_pos_bound (a + p) (2 * p) ltac:(lia)); lia).
  pose proof (half_pi_small f W) as HP. pose proof (zfold_range f W _ (WR (x + p / 2))). pose proof (zfold_range f W _ (WR (y + p / 2))). pose proof (wrapped_lip (x + p / 2) (y + p / 2)).
  pose proof (zpoly_lip (zfold p (wrapped (x + p / 2))) (zfold p (wrapped (y + p / 2))) ltac:(lia) ltac:(lia)). lia.
Qed.
End Fixed.

(** ** floats *)
Section Float.
Open Scope R_scope.
Context {prec emax : Z} {Hp : Prec_gt_0 prec} {He : Prec_lt_emax prec emax}.
Notation float := (binary_float prec emax).
Notation B2R := (@B2R prec emax).
Notation fin x := (is_finite x = true).
Notation U := (bpow radix2 (- prec)).
Hypothesis P24 : (24 <= prec <= 100)%Z.
Hypothesis E10 : (prec + 20 <= emax <= 2000)%Z.
Hypothesis Fh : fin (@fhalf prec emax _ _).
Hypothesis Vh : Rabs (B2R fhalf - PI / 2) <= 3 / 4 * U.
Notation O := (@float_ops prec emax Hp He).
Notation pf := (float_of_float prec emax lit_pi).
Notation tau := (Bmult mode_NE (float_of_Z prec emax 2) pf).
Hypothesis Fp : fin pf.
Hypothesis Vp : B2R pf = 2 * B2R fhalf.
Hypothesis Ft : fin tau.
Hypothesis Vt : B2R tau = 4 * B2R fhalf.

Lemma sin_smooth_float : forall x y : float, fin x -> fin y -> Rabs (B2R x) <= PI -> Rabs (B2R y) <= PI -> exists r s,
  sin float_ops float_signed float_pi float_powi x = Ok r /\ sin float_ops float_signed float_pi float_powi y = Ok s /\ fin r /\ fin s /\ Rabs (B2R r - B2R s) <= Rabs (B2R x - B2R y) + 19 * U.
Proof using P24 E10 Fh Vh.
  intros x y Fx Fy X Y. destruct (sin_float_P9 P24 E10 Fh Vh x Fx ltac:(lra)) as (r & Er & Fr & Br & Ar). destruct (sin_float_P9 P24 E10 Fh Vh y Fy ltac:(lra)) as (s & Es & Fs & Bs & As).
  exists r, s. repeat (split; auto). pose proof (P9_lip _ _ Br Bs) as L. pose proof (rfold_lip (PI / 2) (PI / 2) (B2R x) (B2R y)) as R. rewrite (Rminus_diag_eq (PI / 2)), Rabs_R0 in R by auto.
  apply Rabs_le_inv in Ar, As, L. apply Rabs_le. lra.
Qed.

Lemma rfold_seam : forall a, PI / 2 <= a <= 3 * PI / 2 -> rfold (PI / 2) (a - 2 * PI) = rfold (PI / 2) a.
Proof using. clear. intros a H. pose proof PI_RGT_0. rewrite !rfold_cases by lra. repeat (destruct (Rlt_dec _ _)); lra. Qed.
Lemma rfold_abs : forall a, - (PI / 2) <= a <= 3 * PI / 2 -> Rabs (rfold (PI / 2) a) <= 15711 / 10000.
Proof using. clear. intros a H. pose proof pi_bounds. rewrite rfold_cases by lra. repeat (destruct (Rlt_dec _ _)); apply Rabs_le; lra. Qed.

Lemma cos_float_P9 : forall x : float, fin x -> Rabs (B2R x) <= PI -> exists r, fin r /\ (forall fuel, (2 <= fuel)%nat -> cos O float_signed float_pi float_powi fuel x = Ok r) /\
  Rabs (B2R r - P9 (rfold (PI / 2) (B2R x + PI / 2))) <= 77 / 4 * U.
Proof using P24 E10 Fh Vh Fp Vp Ft Vt.
  intros x F H. pose proof pi_bounds as PB. apply Rabs_le_inv in H. pose proof (@U_pos prec ltac:(lia)) as UP.
  assert (E0 : forall y : float, Rabs (B2R y - B2R y) <= 0 * U) by (intros; rewrite Rminus_diag_eq, Rabs_R0 by auto; lra).
  destruct (addU P24 E10 x fhalf (B2R x) (PI / 2) 0 (3 / 4) 5 8 (19 / 4) 3 F Fh) as [Fy Vy]; auto; try lia; try lra; [apply Rabs_le; lra|].
  set (y := Bplus mode_NE x fhalf) in *. pose proof Vh as Vh'. apply Rabs_le_inv in Vh'. pose proof Vy as Vy'. apply Rabs_le_inv in Vy'.
  assert (Fop : fin (Bopp pf)) by (rewrite is_finite_Bopp; auto). assert (U1 : U <= / 16777216) by lra. assert (HA : - (PI / 2) <= B2R x + PI / 2 <= 3 * PI / 2) by lra.
  assert (K : exists z, fin z /\ Rabs (B2R z) <= PI + / 1000000 /\ (forall fuel, (2 <= fuel)%nat -> wrap_phase O float_signed float_pi fuel y = Ok z) /\
    Rabs (rfold (PI / 2) (B2R z) - rfold (PI / 2) (B2R x + PI / 2)) <= 39 / 4 * U).
  { assert (C1 : o_lt O y (Bopp pf) = false).
    { destruct (ltb_cmp y (Bopp pf) Fy Fop) as [[_ C]|[-> _]]; auto. rewrite B2R_Bopp in C. lra. }
    destruct (leb_cmp pf y Fp Fy) as [[C2 L2]|[C2 L2]].
    - destruct (subU P24 E10 y tau (B2R x + PI / 2) (2 * PI) (19 / 4) 3 (33/10) 4 (39 / 4) 2 Fy Ft) as [Fz Vz]; auto; try lia; try lra.
      + rewrite Vt. apply Rabs_le. lra.
      + apply Rabs_le. lra.
      + set (z := Bminus mode_NE y tau) in *. pose proof Vz as Vz'. apply Rabs_le_inv in Vz'.
        exists z. split; auto. split; [apply Rabs_le; lra|]. split.
        * intros [|[|fuel]] Hf; try lia. unfold wrap_phase. cbn [bind mixed_pi float_pi o_of_i32 float_ops o_mul while o_neg float_signed].
          change (o_lt _ y (Bopp pf)) with (o_lt O y (Bopp pf)). rewrite C1. cbn [bind while].
          change (o_le _ pf y) with (o_le O pf y). rewrite C2. change (o_sub O y tau) with (Ok z). cbn [bind].
          destruct (leb_cmp pf z Fp Fz) as [[_ L]|[-> _]]; [lra|]. reflexivity.
        * rewrite <- (rfold_seam (B2R x + PI / 2)) by lra. pose proof (rfold_lip (PI / 2) (PI / 2) (B2R z) (B2R x + PI / 2 - 2 * PI)) as R. rewrite (Rminus_diag_eq (PI / 2)), Rabs_R0 in R by auto. lra.
    - exists y. split; auto. split; [apply Rabs_le; lra|]. split.
      + intros [|[|fuel]] Hf; try lia. unfold wrap_phase. cbn [bind mixed_pi float_pi o_of_i32 float_ops o_mul while o_neg float_signed].
          change (o_lt _ y (Bopp pf)) with (o_lt O y (Bopp pf)). rewrite C1. cbn [bind while].
          change (o_le _ pf y) with (o_le O pf y). rewrite C2. reflexivity.
      + pose proof (rfold_lip (PI / 2) (PI / 2) (B2R y) (B2R x + PI / 2)) as R. rewrite (Rminus_diag_eq (PI / 2)), Rabs_R0 in R by auto. lra. }
  destruct K as (z & Fz & Bz & Wz & Az). destruct (sin_float_P9 P24 E10 Fh Vh z Fz Bz) as (r & Er & Fr & Br & Ar).
  exists r. split; auto. split.
  - intros fuel Hf. unfold cos. cbn [bind mixed_pi float_pi o_of_i32 float_ops o_div o_add]. fold (@fhalf prec emax Hp He). fold y. rewrite Wz by auto. cbn [bind]. exact Er.
  - pose proof (P9_lip _ _ Br (rfold_abs _ HA)) as L. apply Rabs_le_inv in Ar, L. apply Rabs_le_inv in Az. assert (Rabs (rfold (PI / 2) (B2R z) - rfold (PI / 2) (B2R x + PI / 2)) <= 39 / 4 * U) by (apply Rabs_le; lra). apply Rabs_le. lra.
Qed.
Lemma cos_smooth_float : forall x y : float, fin x -> fin y -> Rabs (B2R x) <= PI -> Rabs (B2R y) <= PI -> exists r s, fin r /\ fin s /\
  (forall fuel, (2 <= fuel)%nat -> cos O float_signed float_pi float_powi fuel x = Ok r /\ cos O float_signed float_pi float_powi fuel y = Ok s) /\ Rabs (B2R r - B2R s) <= Rabs (B2R x - B2R y) + 77 / 2 * U.
Proof using P24 E10 Fh Vh Fp Vp Ft Vt.
  intros x y Fx Fy X Y. destruct (cos_float_P9 x Fx X) as (r & Fr & Er & Ar). destruct (cos_float_P9 y Fy Y) as (s & Fs & Es & As). exists r, s. split; auto. split; auto. split; [auto|].
  apply Rabs_le_inv in X, Y. pose proof (P9_lip _ _ (rfold_abs (B2R x + PI / 2) ltac:(lra)) (rfold_abs (B2R y + PI / 2) ltac:(lra))) as L.
  pose proof (rfold_lip (PI / 2) (PI / 2) (B2R x + PI / 2) (B2R y + PI / 2)) as R. rewrite (Rminus_diag_eq (PI / 2)), Rabs_R0 in R by auto. replace (B2R x + PI / 2 - (B2R y + PI / 2)) with (B2R x - B2R y) in R by ring.
  apply Rabs_le_inv in Ar, As, L. apply Rabs_le. lra.
Qed.
End Float.

(** ** the statements *)
Open Scope R_scope.
Section Values.
Variables (m : mode) (f : fty).
Hypothesis (Hf : supported f = true) (S : fsigned f = true) (I20 : (ffrac f <= fwidth f - 20)%Z).
Notation p := (pi_bits f).
Let W := supported_fwf f Hf.
Lemma bits_val : forall r s x y, (Z.abs (r - s) <= Z.abs (x - y) + 5)%Z -> Rabs (fval f r - fval f s) <= Rabs (fval f x - fval f y) + 5 * ulp f.
Proof using.
  clear. intros r s x y H. unfold fval. change (ulp f) with (bpow radix2 (- ffrac f)). pose proof (bpow_gt_0 radix2 (- ffrac f)) as P. set (u := bpow radix2 (- ffrac f)) in *.
  rewrite <- !Rmult_minus_distr_r, !Rabs_mult, (Rabs_pos_eq u) by lra. rewrite <- Rmult_plus_distr_r. apply Rmult_le_compat_r; [lra|].
  apply IZR_le in H. rewrite plus_IZR, !abs_IZR, !minus_IZR in H. lra.
Qed.
Lemma sin_smooth_fixed : forall x y, Rabs (fval f x) <= PI -> Rabs (fval f y) <= PI -> exists r s,
  sin (fixed_ops m f) (fixed_signed m f) (fixed_pi m f) (fixed_powi m f) x = Ok r /\ sin (fixed_ops m f) (fixed_signed m f) (fixed_pi m f) (fixed_powi m f) y = Ok s /\
  Rabs (fval f r - fval f s) <= Rabs (fval f x - fval f y) + 5 * ulp f.
Proof using Hf S I20.
  intros x y X Y. pose proof (supported_inv f Hf). assert (F44 : (ffrac f <= 44)%Z) by lia.
  destruct (sin_smooth m f W S I20 x y) as (r & s & R & R' & E); try (apply below_pi; auto). exists r, s. repeat (split; auto). apply bits_val; auto.
Qed.
Lemma wrap_sin_fixed : forall x y, fvalid f x -> fvalid f y -> exists a b r s,
  returns (fun fuel => mixed_wrap_phase (fixed_wrap_phase m f fuel) x) a /\ returns (fun fuel => mixed_wrap_phase (fixed_wrap_phase m f fuel) y) b /\
  sin (fixed_ops m f) (fixed_signed m f) (fixed_pi m f) (fixed_powi m f) a = Ok r /\ sin (fixed_ops m f) (fixed_signed m f) (fixed_pi m f) (fixed_powi m f) b = Ok s /\
  Rabs (fval f r - fval f s) <= Rabs (fval f x - fval f y) + 5 * ulp f.
Proof using Hf S I20.
  assert (K : forall x, fvalid f x -> exists a, returns (fun fuel => mixed_wrap_phase (fixed_wrap_phase m f fuel) x) a /\ a = wrapped f x /\ (Z.abs a <= p)%Z).
  { intros x V. destruct (wrap_phase_fixed m f W S ltac:(right; lia) x V) as [a [R [Y1 [k Y2]]]]. exists a. split; auto. pose proof (p_pos f W). split; [|lia].
    unfold wrapped. replace (x + p)%Z with (a + p + k * (2 * p))%Z by lia. rewrite Z_mod_plus_full, Z.mod_small by lia. lia. }
  intros x y X Y. destruct (K x X) as (a & Ra & Ea & Ba). destruct (K y Y) as (b & Rb & Eb & Bb).
  exists a, b. do 2 eexists. split; [exact Ra|]. split; [exact Rb|]. split; [apply sin_bits; auto|]. split; [apply sin_bits; auto|]. apply bits_val.
  pose proof (half_pi_small f W) as HP. pose proof (zfold_range f W _ Ba). pose proof (zfold_range f W _ Bb). pose proof (wrapped_lip f W x y) as L. rewrite <- Ea, <- Eb in L.
  pose proof (zpoly_lip f W (zfold p a) (zfold p b) ltac:(lia) ltac:(lia)). lia.
Qed.
Lemma cos_smooth_fixed : forall x y, fvalid f x -> fvalid f y -> (fval f x <= fval f (fmax f) - 2) -> (fval f y <= fval f (fmax f) - 2) -> exists r s,
  returns (fun fuel => cos (fixed_ops m f) (fixed_signed m f) (fixed_pi m f) (fixed_powi m f) fuel x) r /\ returns (fun fuel => cos (fixed_ops m f) (fixed_signed m f) (fixed_pi m f) (fixed_powi m f) fuel y) s /\
  Rabs (fval f r - fval f s) <= Rabs (fval f x - fval f y) + 5 * ulp f.
Proof using Hf S I20.
  assert (K : forall x, fvalid f x -> fval f x <= fval f (fmax f) - 2 -> fvalid f (x + p / 2)).
  { intros x V L. pose proof (p_pos f W). pose proof (pi_bits_bounds f W) as B. assert (0 <= p / 2 < 2 * fone f)%Z by (split; [apply Z.div_pos; lia|apply Z.div_lt_upper_bound; lia]).
    assert (x <= fmax f - 2 * fone f)%Z. { rewrite !fval_eq in L by apply W. pose proof (q_real _ (fone_pos f (proj1 W))) as Q. apply le_IZR. rewrite minus_IZR, mult_IZR.
      apply Rmult_le_reg_r with (/ IZR (fone f)); [apply Rinv_0_lt_compat; auto|]. unfold Rdiv in L. rewrite Rmult_minus_distr_r. replace (2 * IZR (fone f) * / IZR (fone f)) with 2 by (field; lra). lra. }
    revert V. unfold fvalid, in_range, fmax in *. lia. }
  intros x y X Y LX LY. destruct (cos_smooth m f W S I20 x y (K x X LX) (K y Y LY)) as (r & s & R & R' & E). exists r, s. repeat (split; auto). apply bits_val; auto.
Qed.
End Values.

Section Two.
Notation fin x := (is_finite x = true).
Lemma smooth_f32 : forall x y : f32, fin x -> fin y -> Rabs (B2R x) <= PI -> Rabs (B2R y) <= PI ->
  (exists r s : f32, sin float_ops float_signed float_pi float_powi x = Ok r /\ sin float_ops float_signed float_pi float_powi y = Ok s /\ fin r /\ fin s /\ Rabs (B2R r - B2R s) <= Rabs (B2R x - B2R y) + 19 * bpow radix2 (-24)) /\
  exists r s : f32, fin r /\ fin s /\ (forall fuel, (2 <= fuel)%nat -> cos float_ops float_signed float_pi float_powi fuel x = Ok r /\ cos float_ops float_signed float_pi float_powi fuel y = Ok s) /\
    Rabs (B2R r - B2R s) <= Rabs (B2R x - B2R y) + 77 / 2 * bpow radix2 (-24).
Proof.
  intros x y Fx Fy X Y. pose proof pi_bounds as PB. destruct f32_half_val as [Vh Fh]. destruct f32_pi_val as [Vp Fp]. destruct f32_tau_val as [Vt Ft].
  assert (Vh' : (B2R (@fhalf 24 128 _ _) = IZR 13176795 * / IZR 8388608)%R) by exact Vh.
  assert (Vp' : (B2R f32_pi = IZR 13176795 * / IZR 4194304)%R) by exact Vp.
  assert (Vt' : (B2R f32_tau = IZR 13176795 * / IZR 2097152)%R) by exact Vt.
  assert (H : (Rabs (B2R (@fhalf 24 128 _ _) - PI / 2) <= 3 / 4 * bpow radix2 (- (24)))%R) by (rewrite Vh'; change (bpow radix2 (- (24))) with (/ 16777216); apply Rabs_le; lra).
  split.
  - apply (sin_smooth_float (prec := 24) (emax := 128) ltac:(lia) ltac:(lia) Fh H x y Fx Fy X Y).
  - apply (cos_smooth_float (prec := 24) (emax := 128) ltac:(lia) ltac:(lia) Fh H); auto.
    + change (B2R f32_pi = 2 * B2R (@fhalf 24 128 _ _))%R. rewrite Vh', Vp'. lra.
    + change (B2R f32_tau = 4 * B2R (@fhalf 24 128 _ _))%R. rewrite Vh', Vt'. lra.
Qed.
Lemma smooth_f64 : forall x y : f64, fin x -> fin y -> Rabs (B2R x) <= PI -> Rabs (B2R y) <= PI ->
  (exists r s : f64, sin float_ops float_signed float_pi float_powi x = Ok r /\ sin float_ops float_signed float_pi float_powi y = Ok s /\ fin r /\ fin s /\ Rabs (B2R r - B2R s) <= Rabs (B2R x - B2R y) + 19 * bpow radix2 (-53)) /\
  exists r s : f64, fin r /\ fin s /\ (forall fuel, (2 <= fuel)%nat -> cos float_ops float_signed float_pi float_powi fuel x = Ok r /\ cos float_ops float_signed float_pi float_powi fuel y = Ok s) /\
    Rabs (B2R r - B2R s) <= Rabs (B2R x - B2R y) + 77 / 2 * bpow radix2 (-53).
Proof.
  intros x y Fx Fy X Y. pose proof pi_bounds as PB. destruct f64_half_val as [Vh Fh]. destruct f64_pi_val as [Vp Fp]. destruct f64_tau_val as [Vt Ft].
  assert (Vh' : (B2R (@fhalf 53 1024 _ _) = IZR 7074237752028440 * / IZR 4503599627370496)%R) by exact Vh.
  assert (Vp' : (B2R f64_pi = IZR 7074237752028440 * / IZR 2251799813685248)%R) by exact Vp.
  assert (Vt' : (B2R f64_tau = IZR 7074237752028440 * / IZR 1125899906842624)%R) by exact Vt.
  assert (H : (Rabs (B2R (@fhalf 53 1024 _ _) - PI / 2) <= 3 / 4 * bpow radix2 (- (53)))%R) by (rewrite Vh'; change (bpow radix2 (- (53))) with (/ 9007199254740992); apply Rabs_le; lra).
  split.
  - apply (sin_smooth_float (prec := 53) (emax := 1024) ltac:(lia) ltac:(lia) Fh H x y Fx Fy X Y).
  - apply (cos_smooth_float (prec := 53) (emax := 1024) ltac:(lia) ltac:(lia) Fh H); auto.
    + change (B2R f64_pi = 2 * B2R (@fhalf 53 1024 _ _))%R. rewrite Vh', Vp'. lra.
    + change (B2R f64_tau = 4 * B2R (@fhalf 53 1024 _ _))%R. rewrite Vh', Vt'. lra.
Qed.
End Two.
