(** * Overflow in the two-argument arctangent on fixed-point types (proofs for C94). *)

From Coq Require Import ZArith Reals Lia Lra Psatz List Bool.
From Flocq Require Import Core.Core IEEE754.BinarySingleNaN.
From Verif Require Import Base FloatBase Literals Traits Trig FixedPrim FixedImpl Spec SpecAngle
  Lemmas ScalarProofs ScalarProofs2 WrapProofs NiirfZ NiirfFixed2 SinReal SinFixed AtanReal AtanFixed AtanProofs.
Open Scope Z_scope.

Section Over.
Variable f : fty.
Hypothesis W : fwf f.
Hypothesis S : fsigned f = true.
Notation q := (fone f).
Notation p := (pi_bits f).
Notation c := (c_bits f).
Notation O := (fixed_ops Debug f).
Notation B := (2 ^ (fwidth f - 1)).

Lemma fin_cases : forall z, (fx_fin Debug f z = Ok z /\ - B <= z <= B - 1) \/ (fx_fin Debug f z = Panic POverflow /\ ~ - B <= z <= B - 1).
Proof using S.
  clear W. intros z. destruct (Z_le_dec (- B) z) as [A|A]; [destruct (Z_le_dec z (B - 1)) as [A'|A']|].
  - left. split; [apply fit; auto | lia].
  - right. split; [|lia]. apply fin_debug_over. change (~ fvalid f z). rewrite fvalid_iff, S. lia.
  - right. split; [|lia]. apply fin_debug_over. change (~ fvalid f z). rewrite fvalid_iff, S. lia.
Qed.

Lemma poly_over : forall u v uv, Z.abs v <= Z.abs u -> B - 1 < u * u / q + c * (v * v / q) / q ->
  (xy <- fx_fin Debug f (uv / q) ;; x2 <- mixed_powi (fixed_powi Debug f) u 2 ;; c <- o_of_f64 O lit_atan ;;
   y2 <- mixed_powi (fixed_powi Debug f) v 2 ;; cy2 <- o_mul O c y2 ;; d <- o_add O x2 cy2 ;; o_div O xy d) = Panic POverflow.
Proof using W S.
  intros u v uv L N. pose proof (c_range f W) as [C0 C1]. pose proof (fone_pos f (proj1 W)) as Q. pose proof (fone_le_max f W) as M.
  pose proof (n_pos q u Q) as NP. pose proof (vv_le q u v Q L) as V. pose proof (cv_le q c u v Q C0 C1 L) as [D0 D1].
  destruct (fin_cases (uv / q)) as [[E _]|[E _]]; rewrite E; [|reflexivity]. cbn [bind]. rewrite !sq_eq, c_ok by auto. unfold fx_mul.
  destruct (fin_cases (u * u / q)) as [[E1 R1]|[E1 _]]; rewrite E1; [|reflexivity]. cbn [bind].
  rewrite (fit Debug f S (v * v / q)) by lia. cbn [bind]. cbn [o_mul o_add o_div fixed_ops]. unfold fx_mul, fx_add, fx_div.
  rewrite (fit Debug f S (c * _ / q)) by lia. cbn [bind].
  destruct (fin_cases (u * u / q + c * (v * v / q) / q)) as [[E2 R2]|[E2 _]]; [lia|]. rewrite E2. reflexivity.
Qed.

Lemma atan2_over : forall y x, x <> 0 -> y <> 0 -> Z.abs x < B -> Z.abs y < B -> B - 1 < den f y x ->
  fixed_atan2_poly Debug f y x = Panic POverflow.
Proof using W S.
  intros y x X0 Y0 X Y N. pose proof (fone_pos f (proj1 W)) as Q. pose proof (fone_le_max f W) as M.
  pose proof (pi_bits_bounds f W) as PB. pose proof (half_pi_range f) as HP.
  unfold fixed_atan2_poly, atan2. rewrite prelude by auto. rewrite zero_lit by auto. rewrite !fixed_pi_eq by auto.
  rewrite !o_eq_spec. cbn [mixed_is_positive mixed_is_negative fixed_real]. rewrite S.
  destruct (Z.eqb_spec y 0) as [E|_]; [lia|]. destruct (Z.eqb_spec x 0) as [E|_]; [lia|].
  cbn [o_sub o_add o_neg fixed_ops fixed_signed]. unfold fx_sub at 1 3 5 7. rewrite (fit Debug f S) by lia. cbn [bind].
  rewrite !o_lt_spec, !o_le_spec. unfold fx_neg. rewrite !(fit Debug f S) by lia. cbn [bind].
  assert (E1 : (Z.abs y - Z.abs x <? 0) = (Z.abs y <? Z.abs x)) by (destruct (Z.ltb_spec (Z.abs y - Z.abs x) 0); destruct (Z.ltb_spec (Z.abs y) (Z.abs x)); auto; lia).
  assert (E2 : (0 <=? Z.abs y - Z.abs x) = negb (Z.abs y <? Z.abs x)) by (destruct (Z.leb_spec 0 (Z.abs y - Z.abs x)); destruct (Z.ltb_spec (Z.abs y) (Z.abs x)); auto; lia).
  rewrite E1, E2. unfold den, big, small in *.
  destruct (Z.ltb_spec (Z.abs y) (Z.abs x)) as [L|L]; cbn [negb].
  - assert (P : atan_poly_1 O (fixed_powi Debug f) y x = Panic POverflow) by (apply (poly_over x y (x * y)); auto; lia).
    rewrite !P. destruct (0 <? y), (0 <? x); reflexivity.
  - assert (P : atan_poly_2 O (fixed_powi Debug f) y x = Panic POverflow) by (apply (poly_over y x (x * y)); auto; lia).
    rewrite !P. destruct (0 <? y), (0 <? x); reflexivity.
Qed.
End Over.

(** ** every outcome in a debug build *)
Lemma c94_debug : forall f, supported f = true -> fsigned f = true -> exists c, (Rabs (IZR c - 9 / 32 * IZR (fone f)) <= / 2)%R /\
  forall y x, fvalid f y -> fvalid f x ->
  let u := if Z.abs y <? Z.abs x then x else y in let v := if Z.abs y <? Z.abs x then y else x in
  let den := u * u / fone f + c * (v * v / fone f) / fone f in
  (y = fmin f \/ x = fmin f -> fixed_atan2_poly Debug f y x = Panic POverflow) /\
  (y <> fmin f -> x <> fmin f -> y = 0 \/ x = 0 -> exists r, fixed_atan2_poly Debug f y x = Ok r) /\
  (y <> fmin f -> x <> fmin f -> y <> 0 -> x <> 0 ->
    (u * u < fone f -> fixed_atan2_poly Debug f y x = Panic PDivZero) /\
    (fone f <= u * u -> den <= fmax f -> exists r, fixed_atan2_poly Debug f y x = Ok r) /\
    (fmax f < den -> fixed_atan2_poly Debug f y x = Panic POverflow)).
Proof.
  intros f Hf S. pose proof (supported_fwf f Hf) as W. pose proof (fone_pos f (proj1 W)) as Q. pose proof (fone_le_max f W) as FM.
  exists (c_bits f). split; [apply c_real; auto|]. intros y x VY VX u v.
  change u with (big y x). change v with (small y x). clear u v.
  cbv zeta. change (big y x * big y x / fone f + c_bits f * (small y x * small y x / fone f) / fone f) with (den f y x).
  pose proof (den_le f W y x) as DL. rewrite fmin_val, fmax_val by auto.
  pose proof (proj1 (fvalid_iff f y) VY) as RY. pose proof (proj1 (fvalid_iff f x) VX) as RX. rewrite S in RY, RX.
  split; [|split].
  - intros H. apply (atan2_min Debug f W S eq_refl y x VY VX). tauto.
  - intros NY NX H. assert (X : Z.abs x < 2 ^ (fwidth f - 1)) by lia. assert (Y : Z.abs y < 2 ^ (fwidth f - 1)) by lia.
    destruct (Z.eq_dec y 0) as [Y0|Y0]; [subst y; rewrite atan2_y0 by auto; eauto|].
    destruct H as [H|H]; [contradiction|]. subst x. rewrite atan2_x0 by auto. eauto.
  - intros NY NX Y0 X0. assert (X : Z.abs x < 2 ^ (fwidth f - 1)) by lia. assert (Y : Z.abs y < 2 ^ (fwidth f - 1)) by lia.
    assert (U0 : 0 <= big y x * big y x) by nia. split; [|split].
    + intros L. rewrite Z.div_small in DL by lia. rewrite atan2_inner_g by (auto; lia). rewrite Z.div_small by lia. reflexivity.
    + intros L D. rewrite atan2_inner_g by (auto; lia). assert (1 <= big y x * big y x / fone f) by (apply Z.div_le_lower_bound; lia).
      destruct (Z.eqb_spec (big y x * big y x / fone f) 0); [lia|]. eauto.
    + intros D. apply atan2_over; auto.
Qed.

(** what returns in a debug build is the computed angle *)
Lemma debug_value : forall f, supported f = true -> fsigned f = true -> forall y x r, fvalid f y -> fvalid f x ->
  fixed_atan2_poly Debug f y x = Ok r -> r = zatan2 (pi_bits f) (fone f) (c_bits f) y x.
Proof.
  intros f Hf S y x r VY VX H. pose proof (supported_fwf f Hf) as W. pose proof (fone_pos f (proj1 W)) as Q. pose proof (fone_le_max f W) as FM.
  pose proof (proj1 (fvalid_iff f y) VY) as RY. pose proof (proj1 (fvalid_iff f x) VX) as RX. rewrite S in RY, RX.
  destruct (Z.eq_dec x (- 2 ^ (fwidth f - 1))) as [EX|EX]; [rewrite (atan2_min Debug f W S eq_refl y x VY VX) in H by auto; discriminate|].
  destruct (Z.eq_dec y (- 2 ^ (fwidth f - 1))) as [EY|EY]; [rewrite (atan2_min Debug f W S eq_refl y x VY VX) in H by auto; discriminate|].
  assert (X : Z.abs x < 2 ^ (fwidth f - 1)) by lia. assert (Y : Z.abs y < 2 ^ (fwidth f - 1)) by lia.
  destruct (Z.eq_dec y 0) as [Y0|Y0].
  - subst y. rewrite atan2_y0 in H by auto. unfold zatan2. simpl. congruence.
  - destruct (Z.eq_dec x 0) as [X0|X0].
    + subst x. rewrite atan2_x0 in H by auto. unfold zatan2. destruct (Z.eqb_spec y 0); [lia|].
      destruct (Z.ltb_spec (Z.abs y) (Z.abs 0)); [lia|]. rewrite zp_zero, Z.sub_0_r by auto. congruence.
    + destruct (Z_le_dec (den f y x) (2 ^ (fwidth f - 1) - 1)) as [D|D].
      * rewrite atan2_inner_g in H by auto. destruct (_ =? 0); congruence.
      * rewrite atan2_over in H by (auto; lia). discriminate.
Qed.
Lemma c24_debug : forall f, supported f = true -> fsigned f = true -> forall y x th r, fvalid f y -> fvalid f x ->
  let M := Rmax (Rabs (fval f x)) (Rabs (fval f y)) in
  (16 * ulp f <= M * M -> is_angle (fval f y) (fval f x) th -> fixed_atan2_poly Debug f y x = Ok r ->
   Rabs (fval f r - th) <= 492 / 100000 + (3 + 5 / (M * M)) * ulp f)%R.
Proof.
  intros f Hf S y x th r VY VX M H A E. apply debug_value in E; auto. subst r.
  pose proof (c24_val f Hf (491036 / 100000000) y x th ltac:(intros t _ T; apply gap_bound; auto) H A) as B. fold M in B. lra.
Qed.

(** ** the point (1, 2^(int bits - 1) - 1) *)
Lemma fin_wrap : forall f z r k, fwf f -> fvalid f r -> z = r + k * 2 ^ fwidth f -> fx_fin Release f z = Ok r.
Proof.
  intros f z r k W V E. unfold fx_fin. rewrite Lemmas.fin_release by apply fwf_width, W. f_equal.
  apply wrap_unique with (- k); [apply fwf_width, W | exact V |]. cbn [fity iwidth]. rewrite E. ring.
Qed.
Lemma c94_large : forall f, supported f = true -> fsigned f = true ->
  let y := fone f in let x := 2 ^ (fwidth f - 1) - fone f in fvalid f y /\ fvalid f x /\ fval f y = 1%R /\
  fixed_atan2_poly Debug f y x = Panic POverflow /\
  exists r th, is_angle (fval f y) (fval f x) th /\ fixed_atan2_poly Release f y x = Ok r /\ (1 < fval f r - th)%R.
Proof.
  intros f Hf S y x. pose proof (supported_fwf f Hf) as W. pose proof (fone_pos f (proj1 W)) as Q. pose proof (fone_le_max f W) as FM.
  pose proof (fone_IZR_pos f (proj1 W)) as QR. pose proof (c_range f W) as [C0 C1].
  set (i := fwidth f - ffrac f - 3). assert (I0 : 0 <= i) by (unfold i; destruct W as [A A']; lia).
  assert (EB : 2 ^ (fwidth f - 1) = 4 * 2 ^ i * fone f).
  { unfold fone, i. destruct W as [A A']. change 4 with (2 ^ 2). rewrite <- !Z.pow_add_r by lia. f_equal. lia. }
  assert (EW : 2 ^ fwidth f = 8 * 2 ^ i * fone f).
  { replace (fwidth f) with (Z.succ (fwidth f - 1)) at 1 by lia. rewrite Z.pow_succ_r by (destruct W as [A A']; lia). rewrite EB. ring. }
  pose proof (Z.pow_pos_nonneg 2 i ltac:(lia) I0) as P0. set (k := 2 ^ i) in *. set (q := fone f) in *.
  assert (EX : x = (4 * k - 1) * q) by (unfold x; rewrite EB; ring). rewrite EB in *.
  assert (VR : forall z, 0 <= z <= 4 * k * q - 1 -> fvalid f z) by (intros z Hz; apply fvalid_iff; rewrite S, EB; lia).
  assert (XQ : 3 * q <= x <= 4 * k * q - 1) by (rewrite EX; nia).
  assert (VY : fvalid f y) by (apply VR; unfold y; lia). assert (VX : fvalid f x) by (apply VR; lia).
  assert (NY : y <> 0) by (unfold y; lia). assert (NX : x <> 0) by lia.
  assert (LT : (Z.abs y <? Z.abs x) = true) by (apply Z.ltb_lt; unfold y; lia).
  assert (XX : x * x / q = q + (2 * k - 1) * (8 * k * q)).
  { rewrite EX. replace ((4 * k - 1) * q * ((4 * k - 1) * q)) with ((q + (2 * k - 1) * (8 * k * q)) * q) by ring. apply Z.div_mul. lia. }
  split; auto. split; auto. split; [unfold y; rewrite fval_eq by apply W; fold q; field; lra|]. split.
  - apply atan2_over; auto; rewrite ?EB; try (unfold y; lia). unfold den, big, small. rewrite LT. fold q. rewrite XX.
    pose proof (cv_le q (c_bits f) x y Q C0 C1 ltac:(unfold y; lia)) as [D0 _]. nia.
  - exists (Z.quot (x * q) (q + c_bits f)), (angle (fval f y) (fval f x)). split; [|split].
    + apply angle_spec. right. unfold y. rewrite fval_eq by apply W. fold q. intro E. apply Rmult_integral in E. destruct E as [E|E]; [lra|]. apply Rinv_neq_0_compat in E; lra.
    + unfold fixed_atan2_poly, atan2. rewrite prelude by (auto; rewrite EB; unfold y; lia).
      rewrite zero_lit by auto. rewrite !fixed_pi_eq by auto.
      rewrite !o_eq_spec. cbn [mixed_is_positive mixed_is_negative fixed_real]. rewrite S.
      destruct (Z.eqb_spec y 0) as [E|_]; [lia|]. destruct (Z.eqb_spec x 0) as [E|_]; [lia|].
      assert (PY : (0 <? y) = true) by (apply Z.ltb_lt; unfold y; lia). assert (PX : (0 <? x) = true) by (apply Z.ltb_lt; lia). rewrite PY, PX.
      cbn [o_sub fixed_ops]. unfold fx_sub at 1. rewrite (fit Release f S) by (rewrite EB; unfold y; lia). cbn [bind].
      rewrite !o_lt_spec. assert (E1 : (Z.abs y - Z.abs x <? 0) = true) by (apply Z.ltb_lt; unfold y; lia). rewrite E1.
      unfold atan_poly_1. rewrite !sq_eq, c_ok by auto. cbn [o_mul o_add o_div fixed_ops]. unfold fx_mul, fx_add, fx_div. fold q.
      replace (x * y / q) with x by (unfold y; fold q; rewrite Z.div_mul by lia; reflexivity). rewrite (fx_fin_ok Release f x VX). cbn [bind].
      rewrite (fin_wrap f (x * x / q) q (2 * k - 1) W) by (auto; rewrite XX, EW; ring). cbn [bind].
      replace (y * y / q) with q by (unfold y; fold q; rewrite Z.div_mul by lia; reflexivity). rewrite (fx_fin_ok Release f q VY). cbn [bind].
      rewrite Z.div_mul by lia. rewrite (fx_fin_ok Release f (c_bits f)) by (apply VR; lia). cbn [bind].
      rewrite (fx_fin_ok Release f (q + c_bits f)) by (apply VR; lia). cbn [bind].
      destruct (Z.eqb_spec (q + c_bits f) 0) as [E|_]; [lia|]. apply fx_fin_ok, VR.
      rewrite Z.quot_div_nonneg by nia. split; [apply Z.div_pos; nia|].
      assert (x * q / (q + c_bits f) <= x) by (apply Z.div_le_upper_bound; nia). lia.
    + assert (R2 : 2 * q <= Z.quot (x * q) (q + c_bits f)).
      { rewrite Z.quot_div_nonneg by nia. apply Z.div_le_lower_bound; [lia|]. nia. }
      assert (A : (angle (fval f y) (fval f x) <= PI / 4)%R).
      { rewrite !fval_eq by apply W. fold q. assert (QX : (IZR q <= IZR x)%R) by (apply IZR_le; lia). unfold angle, y. fold q.
        assert (IQ : (0 < / IZR q)%R) by (apply Rinv_0_lt_compat; auto).
        destruct (Rlt_dec 0 (IZR x / IZR q)) as [_|C]; [|exfalso; apply C; apply Rmult_lt_0_compat; auto; lra].
        replace (IZR q / IZR q / (IZR x / IZR q))%R with (IZR q / IZR x)%R by (field; lra). rewrite <- atan_1.
        destruct (Rle_lt_or_eq_dec _ _ QX) as [L|L].
        - apply Rlt_le, atan_increasing. apply Rmult_lt_reg_r with (IZR x); [lra|]. unfold Rdiv. rewrite Rmult_assoc, Rinv_l by lra. lra.
        - rewrite <- L. unfold Rdiv. rewrite Rinv_r by lra. lra. }
      pose proof pi_bounds as PB. rewrite (fval_eq f (Z.quot _ _)) by apply W. fold q. apply IZR_le in R2. rewrite mult_IZR in R2.
      assert (2 <= IZR (Z.quot (x * q) (q + c_bits f)) / IZR q)%R; [|lra].
      apply Rmult_le_reg_r with (IZR q); auto. unfold Rdiv. rewrite Rmult_assoc, Rinv_l by lra. lra.
Qed.
