(** * The two-argument arctangent on fixed-point types. *)

From Coq Require Import ZArith Reals Lia Lra Psatz List Bool.
From Flocq Require Import Core.Core IEEE754.BinarySingleNaN.
From Verif Require Import Base FloatBase Literals Traits Trig FixedPrim FixedImpl Spec SpecAngle
  Lemmas ScalarProofs ScalarProofs2 WrapProofs NiirfZ NiirfFixed2 SinReal SinFixed AtanReal.
Open Scope Z_scope.

(** ** the coefficient *)
Definition c_bits (f : fty) : Z := fx_bits f lit_atan.
Lemma lit_atan_value : B2R lit_atan = (9 / 32)%R.
Proof. unfold lit_atan. simpl. unfold F2R. simpl. lra. Qed.
Lemma c_real : forall f, fwf f -> (Rabs (IZR (c_bits f) - 9 / 32 * IZR (fone f)) <= / 2)%R.
Proof. intros f W. pose proof (fx_bits_real f _ _ lit_atan (proj1 W)) as B. rewrite lit_atan_value in B. exact B. Qed.
Lemma c_range : forall f, fwf f -> 0 <= c_bits f /\ 2 * c_bits f <= fone f.
Proof.
  intros f W. pose proof (fone_pos f (proj1 W)) as Q.
  assert (A : 0 <= c_bits f). { apply fx_bits_ge; [apply W|]. rewrite lit_atan_value. apply IZR_lt in Q. lra. }
  split; auto. destruct (Z_le_dec 3 (fone f)) as [L|L].
  - pose proof (c_real f W) as C. apply Rabs_le_inv in C. apply IZR_le in L. apply le_IZR. rewrite mult_IZR. lra.
  - assert (K : ffrac f = 0 \/ ffrac f = 1).
    { destruct W as [W _]. destruct (Z_le_dec 2 (ffrac f)) as [G|G]; [|lia]. exfalso. apply L. unfold fone.
      pose proof (Z.pow_le_mono_r 2 2 (ffrac f) ltac:(lia) G). change (2 ^ 2) with 4 in *. lia. }
    unfold c_bits, fx_bits, fone, lit_atan. destruct K as [K|K]; rewrite K; vm_compute; congruence.
Qed.

(** ** the functions on bits; [u] is the larger coordinate *)
Definition zp (q c u v : Z) : Z := Z.quot (u * v / q * q) (u * u / q + c * (v * v / q) / q).
Definition zatan2 (p q c y x : Z) : Z :=
  if y =? 0 then (if x <? 0 then p else 0)
  else if Z.abs y <? Z.abs x then (if 0 <? x then 0 else if 0 <? y then p else - p) + zp q c x y
  else (if 0 <? y then p / 2 else - (p / 2)) - zp q c y x.

Section Z.
Variables (q c u v : Z).
Hypothesis Q : 0 < q.
Hypothesis C0 : 0 <= c.
Hypothesis C1 : 2 * c <= q.
Hypothesis L : Z.abs v <= Z.abs u.
Notation n := (u * u / q).

Lemma uv_abs : Z.abs (u * v) <= u * u.
Proof using L. rewrite Z.abs_mul, <- (Z.abs_square u). apply Z.mul_le_mono_nonneg_l; lia. Qed.
Lemma vv_le : 0 <= v * v / q <= n.
Proof using Q L.
  split; [apply Z.div_pos; [nia|auto]|]. apply Z.div_le_mono; auto.
  rewrite <- (Z.abs_square u), <- (Z.abs_square v). apply Z.mul_le_mono_nonneg; lia.
Qed.
Lemma n_pos : 0 <= n. Proof using Q. clear L. apply Z.div_pos; [nia|auto]. Qed.
Lemma cv_le : 0 <= c * (v * v / q) / q /\ 2 * (c * (v * v / q) / q) <= n.
Proof using Q C0 C1 L.
  pose proof vv_le as [A B]. set (w := v * v / q) in *. clearbody w. split; [apply Z.div_pos; nia|].
  assert (c * w / q <= w / 2). { apply Z.div_le_lower_bound; [lia|]. pose proof (Z.mul_div_le (c * w) q Q). nia. }
  pose proof (Z.mul_div_le w 2 ltac:(lia)). lia.
Qed.
Lemma a_range : - (n + 1) <= u * v / q <= n.
Proof using Q L.
  pose proof uv_abs as A. apply Z.abs_le in A. split.
  - apply Z.div_le_lower_bound; auto. pose proof (Z.mul_succ_div_gt (u * u) q Q). nia.
  - apply Z.div_le_mono; lia.
Qed.

Lemma zp_abs : 1 <= n -> Z.abs (zp q c u v) <= 2 * q.
Proof using Q C0 C1 L.
  intros N. unfold zp. pose proof cv_le as [A B]. pose proof a_range as R. set (d := c * (v * v / q) / q) in *.
  set (a := u * v / q) in *. set (k := u * u / q) in *. clearbody d a k. clear L C0 C1.
  rewrite <- Z.quot_abs by lia. rewrite (Z.abs_eq (k + d)) by lia. rewrite Z.quot_div_nonneg by lia.
  apply Z.div_le_upper_bound; [lia|]. rewrite Z.abs_mul, (Z.abs_eq q) by lia.
  assert (Z.abs a <= 2 * (k + d)) by lia. nia.
Qed.
Lemma zp_nonneg : 1 <= n -> 0 <= u * v -> 0 <= zp q c u v <= q.
Proof using Q C0 C1 L.
  intros N P. unfold zp. pose proof cv_le as [A B]. pose proof a_range as R.
  assert (0 <= u * v / q) by (apply Z.div_pos; auto). set (d := c * (v * v / q) / q) in *.
  set (a := u * v / q) in *. set (k := u * u / q) in *. clearbody d a k. clear L C0 C1.
  rewrite Z.quot_div_nonneg by nia. split; [apply Z.div_pos; nia|]. apply Z.div_le_upper_bound; nia.
Qed.
Lemma zp_nonpos : 1 <= n -> u * v <= 0 -> zp q c u v <= 0.
Proof using Q C0 C1 L.
  intros N P. unfold zp. pose proof cv_le as [A B].
  assert (u * v / q <= 0) by (apply Z.div_le_upper_bound; lia). set (d := c * (v * v / q) / q) in *.
  set (a := u * v / q) in *. set (k := u * u / q) in *. clearbody d a k. clear L C0 C1.
  replace (a * q) with (- (- a * q)) by ring. rewrite Z.quot_opp_l by lia.
  assert (0 <= Z.quot (- a * q) (k + d)); [|lia]. apply Z.quot_pos; nia.
Qed.
End Z.

Section Code.
Variables (m : mode) (f : fty).
Hypothesis W : fwf f.
Hypothesis S : fsigned f = true.
Notation q := (fone f).
Notation p := (pi_bits f).
Notation c := (c_bits f).
Notation O := (fixed_ops m f).
Notation B := (2 ^ (fwidth f - 1)).

Lemma fit : forall z, - B <= z <= B - 1 -> fx_fin m f z = Ok z.
Proof using S. clear W. intros. apply fx_fin_ok. apply fvalid_iff. rewrite S. auto. Qed.
Lemma c_ok : o_of_f64 O lit_atan = Ok c.
Proof using W S.
  cbn [o_of_f64 fixed_ops]. rewrite fx_of_float_bits by (auto; apply fwf_width; auto). apply fit.
  pose proof (c_range f W). pose proof (fone_le_max f W). pose proof (fone_pos f (proj1 W)). fold (c_bits f). lia.
Qed.

Lemma poly_common : forall u v uv, u * v = uv -> Z.abs v <= Z.abs u -> u * u / q + c * (v * v / q) / q <= B - 1 ->
  (xy <- fx_fin m f (uv / q) ;; x2 <- mixed_powi (fixed_powi m f) u 2 ;; c <- o_of_f64 O lit_atan ;;
   y2 <- mixed_powi (fixed_powi m f) v 2 ;; cy2 <- o_mul O c y2 ;; d <- o_add O x2 cy2 ;; o_div O xy d) =
  (if u * u / q =? 0 then Panic PDivZero else Ok (zp q c u v)).
Proof using W S.
  intros u v uv <- L N. pose proof (c_range f W) as [C0 C1]. pose proof (fone_pos f (proj1 W)) as Q. pose proof (fone_le_max f W) as M.
  pose proof (n_pos q u Q) as NP. pose proof (a_range q u v Q L) as R. pose proof (vv_le q u v Q L) as V.
  pose proof (cv_le q c u v Q C0 C1 L) as [D0 D1].
  assert (B0 : 4 <= B) by lia. rewrite !sq_eq, c_ok. unfold fx_mul.
  rewrite (fit (u * v / q)) by lia. cbn [bind]. rewrite (fit (u * u / q)) by lia. cbn [bind].
  rewrite (fit (v * v / q)) by lia. cbn [bind]. cbn [o_mul o_add o_div fixed_ops]. unfold fx_mul, fx_add, fx_div.
  rewrite (fit (c * _ / q)) by lia. cbn [bind]. rewrite fit by lia. cbn [bind].
  pose proof (zp_abs q c u v Q C0 C1 L) as A. unfold zp in *.
  set (n := u * u / q) in *. set (d := c * (v * v / q) / q) in *. set (z := Z.quot _ _) in *. clearbody n d z.
  destruct (Z.eqb_spec n 0) as [E|E].
  - destruct (Z.eqb_spec (n + d) 0) as [E'|E']; [reflexivity|]. lia.
  - destruct (Z.eqb_spec (n + d) 0) as [E'|E']; [lia|]. apply fit.
    specialize (A ltac:(lia)). lia.
Qed.
Lemma poly_1_ok : forall y x, Z.abs y <= Z.abs x -> x * x / q + c * (y * y / q) / q <= B - 1 ->
  atan_poly_1 O (fixed_powi m f) y x = if x * x / q =? 0 then Panic PDivZero else Ok (zp q c x y).
Proof using W S. intros y x L N. apply (poly_common x y (x * y)); auto. Qed.
Lemma poly_2_ok : forall y x, Z.abs x <= Z.abs y -> y * y / q + c * (x * x / q) / q <= B - 1 ->
  atan_poly_2 O (fixed_powi m f) y x = if y * y / q =? 0 then Panic PDivZero else Ok (zp q c y x).
Proof using W S. intros y x L N. apply (poly_common y x (x * y)); auto. ring. Qed.

Lemma prelude : forall A x y (k : Z -> Z -> Z -> Z -> Z -> res A), Z.abs x < B -> Z.abs y < B ->
  (y_abs <- mixed_abs (fixed_abs m f) y ;; x_abs <- mixed_abs (fixed_abs m f) x ;;
   pi <- mixed_pi (fixed_pi m f) ;; pi_ <- mixed_pi (fixed_pi m f) ;; two <- o_of_i32 O 2 ;; pi_half <- o_div O pi_ two ;;
   zero <- mixed_zero (fixed_zero m f) ;; k y_abs x_abs pi pi_half zero) = k (Z.abs y) (Z.abs x) p (p / 2) 0.
Proof using W S.
  intros A x y k X Y. cbn [mixed_abs fixed_abs]. rewrite S. unfold fx_abs. rewrite (fit (Z.abs y)), (fit (Z.abs x)) by lia. cbn [bind].
  pose proof (half_pi_ok m f W S A (fun pi h => zero <- mixed_zero (fixed_zero m f) ;; k (Z.abs y) (Z.abs x) pi h zero)) as H.
  rewrite fixed_pi_eq in * by auto. cbn [bind] in *. rewrite H.
  cbn [mixed_zero fixed_zero]. unfold fx_of_int. pose proof (fone_le_max f W). pose proof (fone_pos f (proj1 W)). rewrite fit by lia. reflexivity.
Qed.
Lemma half_only : forall A (k : Z -> res A),
  (p_ <- mixed_pi (fixed_pi m f) ;; two <- o_of_i32 O 2 ;; h <- o_div O p_ two ;; k h) = k (p / 2).
Proof using W S. intros. apply (half_pi_ok m f W S A (fun _ h => k h)). Qed.
Lemma half_neg : (p_ <- mixed_pi (fixed_pi m f) ;; np <- o_neg (fixed_signed m f) p_ ;; two <- o_of_i32 O 2 ;; o_div O np two) = Ok (- (p / 2)).
Proof using W S.
  pose proof (pi_bits_bounds f W) as PB. pose proof (fone_pos f (proj1 W)) as Q. pose proof (fone_le_max f W) as M.
  pose proof (half_pi_range f) as HP.
  rewrite fixed_pi_eq by auto. cbn [bind o_neg fixed_signed]. unfold fx_neg. rewrite fit by lia. cbn [bind o_of_i32 o_div fixed_ops].
  unfold fx_of_int. rewrite fit by lia. cbn [bind]. unfold fx_div. destruct (Z.eqb_spec (2 * q) 0); [lia|].
  rewrite quot_scale by lia. rewrite Z.quot_opp_l, Z.quot_div_nonneg by lia. apply fit. lia.
Qed.

Lemma zero_lit : o_of_f64 O lit_zero = Ok 0.
Proof using W S.
  cbn [o_of_f64 fixed_ops]. unfold lit_zero. reflexivity.
Qed.

(** both coordinates different from zero *)
Definition big (y x : Z) : Z := if Z.abs y <? Z.abs x then x else y.
Definition small (y x : Z) : Z := if Z.abs y <? Z.abs x then y else x.
Definition den (y x : Z) : Z := big y x * big y x / q + c * (small y x * small y x / q) / q.
Lemma atan2_inner_g : forall y x, x <> 0 -> y <> 0 -> Z.abs x < B -> Z.abs y < B -> den y x <= B - 1 ->
  fixed_atan2_poly m f y x =
  if big y x * big y x / q =? 0 then Panic PDivZero else Ok (zatan2 p q c y x).
Proof using W S.
  intros y x X0 Y0 X Y N. pose proof (fone_pos f (proj1 W)) as Q. pose proof (fone_le_max f W) as M.
  pose proof (pi_bits_bounds f W) as PB. pose proof (half_pi_range f) as HP. pose proof (c_range f W) as [C0 C1].
  pose proof (half_pi_small f W) as HS.
  unfold fixed_atan2_poly, atan2. rewrite prelude by auto. rewrite zero_lit. rewrite !fixed_pi_eq by auto.
  rewrite !o_eq_spec. cbn [mixed_is_positive mixed_is_negative fixed_real]. rewrite S.
  destruct (Z.eqb_spec y 0) as [E|_]; [lia|]. destruct (Z.eqb_spec x 0) as [E|_]; [lia|].
  cbn [o_sub o_add o_neg fixed_ops fixed_signed]. unfold fx_sub at 1 3 5 7. rewrite fit by lia. cbn [bind].
  rewrite !o_lt_spec, !o_le_spec. unfold fx_neg. rewrite !fit by lia. cbn [bind].
  assert (E1 : (Z.abs y - Z.abs x <? 0) = (Z.abs y <? Z.abs x)) by (destruct (Z.ltb_spec (Z.abs y - Z.abs x) 0); destruct (Z.ltb_spec (Z.abs y) (Z.abs x)); auto; lia).
  assert (E2 : (0 <=? Z.abs y - Z.abs x) = negb (Z.abs y <? Z.abs x)) by (destruct (Z.leb_spec 0 (Z.abs y - Z.abs x)); destruct (Z.ltb_spec (Z.abs y) (Z.abs x)); auto; lia).
  rewrite E1, E2. unfold den, big, small in *. unfold zatan2. destruct (Z.eqb_spec y 0) as [E|_]; [lia|].
  destruct (Z.ltb_spec (Z.abs y) (Z.abs x)) as [L|L]; cbn [negb].
  - rewrite poly_1_ok by (auto; lia). destruct (Z.eqb_spec (x * x / q) 0) as [E|E].
    + destruct (0 <? y), (0 <? x); reflexivity.
    + pose proof (n_pos q x Q). assert (NN : 1 <= x * x / q) by (clear - E H; lia).
      pose proof (zp_abs q c x y Q C0 C1 ltac:(lia) NN) as ZA. pose proof (zp_nonneg q c x y Q C0 C1 ltac:(lia) NN) as ZP.
      pose proof (zp_nonpos q c x y Q C0 C1 ltac:(lia) NN) as ZN. set (z := zp q c x y) in *. clearbody z. clear N E NN HS E1 E2 H.
      cbn [bind]. unfold fx_add.
      destruct (Z.ltb_spec 0 y) as [Y1|Y1]; destruct (Z.ltb_spec 0 x) as [X1|X1]; try reflexivity; apply fit.
      * specialize (ZN ltac:(nia)). lia.
      * specialize (ZP ltac:(nia)). lia.
  - rewrite poly_2_ok by (auto; lia). destruct (Z.eqb_spec (y * y / q) 0) as [E|E].
    + destruct (0 <? y), (0 <? x); reflexivity.
    + pose proof (n_pos q y Q). assert (NN : 1 <= y * y / q) by (clear - E H; lia).
      pose proof (zp_abs q c y x Q C0 C1 ltac:(lia) NN) as ZA. set (z := zp q c y x) in *. clearbody z. clear N E NN E1 E2 H.
      cbn [bind]. unfold fx_sub.
      destruct (Z.ltb_spec 0 y) as [Y1|Y1]; destruct (Z.ltb_spec 0 x) as [X1|X1]; apply fit; lia.
Qed.

Lemma den_le : forall y x, 2 * den y x <= 3 * (big y x * big y x / q).
Proof using W.
  clear S. intros y x. pose proof (fone_pos f (proj1 W)) as Q. pose proof (c_range f W) as [C0 C1].
  pose proof (cv_le q c (big y x) (small y x) Q C0 C1) as H. unfold den.
  destruct H as [_ H]; [unfold big, small; destruct (Z.ltb_spec (Z.abs y) (Z.abs x)); lia | lia].
Qed.
Lemma atan2_inner : forall y x, x <> 0 -> y <> 0 -> Z.abs x < B -> Z.abs y < B ->
  3 * (big y x * big y x / q) <= 2 * (B - 1) ->
  fixed_atan2_poly m f y x =
  if big y x * big y x / q =? 0 then Panic PDivZero else Ok (zatan2 p q c y x).
Proof using W S. intros y x X0 Y0 X Y N. apply atan2_inner_g; auto. pose proof (den_le y x). lia. Qed.

(** on the axes *)
Lemma abs_total : forall x, m = Release \/ Z.abs x < B -> exists a, mixed_abs (fixed_abs m f) x = Ok a.
Proof using S.
  clear W. intros x [E|E]; cbn [mixed_abs fixed_abs]; rewrite S; unfold fx_abs.
  - rewrite E. apply fin_release.
  - rewrite fit by lia. eauto.
Qed.
Lemma prelude_total : forall A x y (k : Z -> Z -> Z -> Z -> Z -> res A) r, m = Release \/ Z.abs x < B -> m = Release \/ Z.abs y < B ->
  (forall ya xa, k ya xa p (p / 2) 0 = r) ->
  (y_abs <- mixed_abs (fixed_abs m f) y ;; x_abs <- mixed_abs (fixed_abs m f) x ;;
   pi <- mixed_pi (fixed_pi m f) ;; pi_ <- mixed_pi (fixed_pi m f) ;; two <- o_of_i32 O 2 ;; pi_half <- o_div O pi_ two ;;
   zero <- mixed_zero (fixed_zero m f) ;; k y_abs x_abs pi pi_half zero) = r.
Proof using W S.
  intros A x y k r X Y K. destruct (abs_total y Y) as [ya Ey]. destruct (abs_total x X) as [xa Ex]. rewrite Ey, Ex. cbn [bind].
  pose proof (half_pi_ok m f W S A (fun pi h => zero <- mixed_zero (fixed_zero m f) ;; k ya xa pi h zero)) as H.
  rewrite fixed_pi_eq in * by auto. cbn [bind] in *. rewrite H.
  cbn [mixed_zero fixed_zero]. unfold fx_of_int. pose proof (fone_le_max f W). pose proof (fone_pos f (proj1 W)). rewrite fit by lia. apply K.
Qed.
Lemma atan2_y0 : forall x, m = Release \/ Z.abs x < B -> fixed_atan2_poly m f 0 x = Ok (if x <? 0 then p else 0).
Proof using W S.
  intros x X. pose proof (fone_pos f (proj1 W)) as Q. pose proof (fone_le_max f W) as M.
  unfold fixed_atan2_poly, atan2. apply prelude_total; auto.
  - right. simpl. lia.
  - intros ya xa. rewrite o_eq_spec. cbn [mixed_is_negative fixed_real]. rewrite S. rewrite Z.eqb_refl.
    destruct (x <? 0); [apply fixed_pi_eq; auto|]. cbn [mixed_zero fixed_zero]. unfold fx_of_int. rewrite fit by lia. reflexivity.
Qed.
Lemma atan2_x0 : forall y, y <> 0 -> m = Release \/ Z.abs y < B ->
  fixed_atan2_poly m f y 0 = Ok (if 0 <? y then p / 2 else - (p / 2)).
Proof using W S.
  intros y Y0 Y. pose proof (fone_pos f (proj1 W)) as Q. pose proof (fone_le_max f W) as M.
  unfold fixed_atan2_poly, atan2. apply prelude_total; auto.
  - right. simpl. lia.
  - intros ya xa. rewrite !o_eq_spec. cbn [mixed_is_positive fixed_real]. rewrite S. rewrite Z.eqb_refl.
    destruct (Z.eqb_spec y 0) as [E|_]; [lia|]. destruct (0 <? y).
    + pose proof (half_only Z (fun h => Ok h)) as H. rewrite <- H. rewrite fixed_pi_eq by auto. cbn [bind].
      destruct (o_of_i32 O 2); try reflexivity. cbn [bind]. destruct (o_div O p a); reflexivity.
    + apply half_neg.
Qed.
(** the absolute value of the smallest number overflows *)
Lemma atan2_min : m = Debug -> forall y x, fvalid f y -> fvalid f x -> x = - B \/ y = - B -> fixed_atan2_poly m f y x = Panic POverflow.
Proof using W S.
  intros E y x VY VX H. pose proof (fone_pos f (proj1 W)) as Q. pose proof (fone_le_max f W) as M.
  assert (P : forall z, z = - B -> mixed_abs (fixed_abs m f) z = Panic POverflow).
  { intros z Z. cbn [mixed_abs fixed_abs]. rewrite S, E. unfold fx_abs, fx_fin. apply fin_debug_over.
    change (~ fvalid f (Z.abs z)). rewrite fvalid_iff, S. lia. }
  unfold fixed_atan2_poly, atan2. destruct (Z.eq_dec y (- B)) as [Y|Y]; [rewrite P by auto; reflexivity|].
  destruct H as [H|H]; [|lia]. rewrite (P x) by auto. destruct (abs_total y) as [a Ea].
  - right. apply fvalid_iff in VY. rewrite S in VY. lia.
  - rewrite Ea. reflexivity.
Qed.
End Code.

(** ** accuracy *)
Lemma quot_perturb : forall q K N D a d : R, (0 < q -> 16 * q <= K -> K / q <= D -> Rabs N <= D -> -1 <= a - N <= 0 ->
  - (5 / 2) <= d - D <= 0 -> Rabs (a * q / d - q * (N / D)) <= 415 / 100 * (q * q / K))%R.
Proof.
  intros q K N D a d Q HK HD HN HA Hd.
  assert (K16 : (16 <= K / q)%R).
  { apply Rmult_le_reg_r with q; auto. unfold Rdiv. rewrite Rmult_assoc, Rinv_l by lra. lra. }
  assert (D16 : (27 / 32 * (K / q) <= d)%R) by lra. assert (DP : (0 < d)%R) by lra.
  assert (B : (Rabs (a / d - N / D) <= 7 / 2 * / d)%R).
  { replace (a / d - N / D)%R with (((a - N) + N / D * (D - d)) * / d)%R by (field; lra).
    rewrite Rabs_mult, (Rabs_pos_eq (/ d)) by (apply Rlt_le, Rinv_0_lt_compat; auto).
    apply Rmult_le_compat_r; [apply Rlt_le, Rinv_0_lt_compat; auto|].
    eapply Rle_trans; [apply Rabs_triang|]. rewrite Rabs_mult.
    assert (Rabs (a - N) <= 1)%R by (apply Rabs_le; lra). assert (Rabs (D - d) <= 5 / 2)%R by (apply Rabs_le; lra).
    assert (Rabs (N / D) <= 1)%R.
    { unfold Rdiv. rewrite Rabs_mult, Rabs_inv, (Rabs_pos_eq D) by lra. apply Rmult_le_reg_r with D; [lra|]. rewrite Rmult_assoc, Rinv_l by lra. lra. }
    pose proof (Rabs_pos (N / D)). pose proof (Rabs_pos (D - d)). nra. }
  replace (a * q / d - q * (N / D))%R with (q * (a / d - N / D))%R by (field; lra).
  rewrite Rabs_mult, (Rabs_pos_eq q) by lra.
  replace (415 / 100 * (q * q / K))%R with (q * (415 / 100 * / (K / q)))%R by (field; lra).
  apply Rmult_le_compat_l; [lra|]. eapply Rle_trans; [exact B|].
  assert (/ d <= / (27 / 32 * (K / q)))%R by (apply Rinv_le_contravar; lra).
  rewrite Rinv_mult in H by lra. assert (0 < / (K / q))%R by (apply Rinv_0_lt_compat; lra). lra.
Qed.

Section Acc.
Variables (q c u v : Z).
Hypothesis Q : 0 < q.
Hypothesis C0 : 0 <= c.
Hypothesis C1 : 2 * c <= q.
Hypothesis L : Z.abs v <= Z.abs u.
Hypothesis N : 16 * q <= u * u.
Hypothesis CR : (Rabs (IZR c - 9 / 32 * IZR q) <= / 2)%R.
Notation qr := (IZR q).
Notation U := (IZR u).
Notation V := (IZR v).

Lemma zp_acc_A : forall (A : R -> R) g, ((-1 <= V / U <= 1 -> Rabs (rat (V / U) - A (V / U)) <= g) ->
  Rabs (IZR (zp q c u v) - qr * A (V / U)) <= g * qr + 3 / 2 + 415 / 100 * (qr * qr / (U * U)))%R.
Proof using All.
  intros A g HG.
  assert (N1 : 1 <= u * u / q) by (apply Z.div_le_lower_bound; lia).
  assert (u <> 0) by (intro; subst; lia).
  pose proof (cv_le q c u v Q C0 C1 L) as [D0 _].
  pose proof (floor_real (u * v) q Q) as F1. pose proof (floor_real (u * u) q Q) as F2. pose proof (floor_real (v * v) q Q) as F3.
  pose proof (floor_real (c * (v * v / q)) q Q) as F4.
  assert (QR : (0 < qr)%R) by (apply IZR_lt; auto). assert (UR : U <> 0%R) by (apply not_0_IZR; auto).
  assert (NR : (16 * qr <= U * U)%R) by (rewrite <- !mult_IZR; apply IZR_le; auto).
  assert (CC : (0 <= IZR c <= qr / 2)%R) by (apply IZR_le in C0, C1; rewrite mult_IZR in C1; lra).
  assert (VU : (V * V <= U * U)%R).
  { rewrite <- !mult_IZR. apply IZR_le. rewrite <- (Z.abs_square u), <- (Z.abs_square v). apply Z.mul_le_mono_nonneg; lia. }
  rewrite !mult_IZR in *. unfold zp.
  assert (DP : 0 < u * u / q + c * (v * v / q) / q) by lia.
  (* the quotient *)
  assert (QT : (Rabs (IZR (Z.quot (u * v / q * q) (u * u / q + c * (v * v / q) / q)) -
    IZR (u * v / q) * qr / (IZR (u * u / q) + IZR (c * (v * v / q) / q))) <= 1)%R).
  { rewrite <- plus_IZR, <- mult_IZR. destruct (Z_le_dec 0 (u * v / q)).
    - pose proof (quot_nonneg (u * v / q * q) _ ltac:(nia) DP). apply Rabs_le. lra.
    - pose proof (quot_nonpos (u * v / q * q) _ ltac:(nia) DP). apply Rabs_le. lra. }
  set (a := IZR (u * v / q)) in *. set (d1 := IZR (u * u / q)) in *. set (w := IZR (v * v / q)) in *.
  set (d2 := IZR (c * (v * v / q) / q)) in *. set (z := IZR (Z.quot _ _)) in *.
  assert (W0 : (0 <= w)%R) by (apply IZR_le; apply Z.div_pos; nia). 
  clearbody a d1 w d2 z. 
  set (N' := (U * V / qr)%R) in *. set (D' := ((U * U + IZR c / qr * (V * V)) / qr)%R).
  assert (CQ : (0 <= IZR c / qr <= 1 / 2)%R).
  { split; [apply Rmult_le_pos; [lra | apply Rlt_le, Rinv_0_lt_compat; auto]|].
    apply Rmult_le_reg_r with qr; auto. unfold Rdiv. rewrite Rmult_assoc, Rinv_l by lra. lra. }
  assert (E4 : (IZR c * w / qr = IZR c / qr * w)%R) by (field; lra). rewrite E4 in F4.
  assert (VV : (0 <= V * V)%R) by apply Rle_0_sqr.
  assert (ED : (D' = U * U / qr + IZR c / qr * (V * V / qr))%R) by (unfold D'; field; lra).
  assert (VQ : (0 <= V * V / qr)%R) by (apply Rmult_le_pos; [auto | apply Rlt_le, Rinv_0_lt_compat; auto]).
  assert (UQ : (V * V / qr <= U * U / qr)%R) by (apply Rmult_le_compat_r; [apply Rlt_le, Rinv_0_lt_compat; auto | auto]).
  set (k := (IZR c / qr)%R) in *.
  assert (KB : (k * (V * V / qr) - 1 / 2 <= k * w <= k * (V * V / qr))%R) by (split; nra).
  assert (K0 : (0 <= k * (V * V / qr))%R) by (apply Rmult_le_pos; lra).
  assert (NN : (Rabs N' <= D')%R).
  { assert (Rabs N' <= U * U / qr)%R; [|lra]. unfold N', Rdiv. rewrite Rabs_mult, (Rabs_pos_eq (/ qr)) by (apply Rlt_le, Rinv_0_lt_compat; auto).
    apply Rmult_le_compat_r; [apply Rlt_le, Rinv_0_lt_compat; auto|]. apply Rabs_le. nra. }
  assert (P := quot_perturb qr (U * U) N' D' a (d1 + d2) QR NR ltac:(lra) NN ltac:(lra) ltac:(lra)).
  assert (ER : (N' / D' = ratk k (V / U))%R).
  { unfold N', D', ratk. field. repeat split; auto; try lra. nra. }
  rewrite ER in P.
  assert (T : (-1 <= V / U <= 1)%R).
  { assert (Rabs (V / U) <= 1)%R; [|apply Rabs_le_inv; auto]. unfold Rdiv. rewrite Rabs_mult, Rabs_inv, <- !abs_IZR.
    assert (0 < Rabs U)%R by (apply Rabs_pos_lt; auto). rewrite <- abs_IZR in H0. apply Rmult_le_reg_r with (IZR (Z.abs u)); auto.
    rewrite Rmult_assoc, Rinv_l, Rmult_1_r, Rmult_1_l by lra. apply IZR_le; auto. }
  pose proof (HG T) as G. unfold rat in G.
  pose proof (ratk_coef k (9 / 32) (V / U) ltac:(lra) ltac:(lra) T) as RC.
  assert (KC : (qr * Rabs (k - 9 / 32) <= / 2)%R).
  { rewrite <- (Rabs_pos_eq qr) at 1 by lra. rewrite <- Rabs_mult. replace (qr * (k - 9 / 32))%R with (IZR c - 9 / 32 * qr)%R by (unfold k; field; lra). exact CR. }
  set (at_ := A (V / U)%R) in *. set (r1 := ratk k (V / U)) in *. set (r2 := ratk (9 / 32) (V / U)) in *.
  replace (z - qr * at_)%R with ((z - a * qr / (d1 + d2)) + (a * qr / (d1 + d2) - qr * r1) + qr * (r1 - r2) + qr * (r2 - at_))%R by ring.
  eapply Rle_trans; [apply Rabs_triang|]. eapply Rle_trans; [apply Rplus_le_compat_r, Rabs_triang|].
  eapply Rle_trans; [apply Rplus_le_compat_r, Rplus_le_compat_r, Rabs_triang|].
  rewrite (Rabs_mult qr (r1 - r2)), (Rabs_mult qr (r2 - at_)), (Rabs_pos_eq qr) by lra.
  assert (qr * Rabs (r1 - r2) <= qr * Rabs (k - 9 / 32))%R by (apply Rmult_le_compat_l; lra).
  assert (qr * Rabs (r2 - at_) <= qr * g)%R by (apply Rmult_le_compat_l; lra).
  lra.
Qed.
Lemma zp_acc_g : forall g, ((-1 <= V / U <= 1 -> Rabs (rat (V / U) - Ratan.atan (V / U)) <= g) ->
  Rabs (IZR (zp q c u v) - qr * Ratan.atan (V / U)) <= g * qr + 3 / 2 + 415 / 100 * (qr * qr / (U * U)))%R.
Proof using All. exact (zp_acc_A Ratan.atan). Qed.
End Acc.

Section Final.
Variables (m : mode) (f : fty).
Hypothesis W : fwf f.
Hypothesis S : fsigned f = true.
Notation q := (fone f).
Notation p := (pi_bits f).
Notation c := (c_bits f).
Notation B := (2 ^ (fwidth f - 1)).

Lemma zp_zero : forall u, zp q c u 0 = 0.
Proof using W.
  clear S. intros u. pose proof (fone_pos f (proj1 W)). unfold zp. rewrite Z.mul_0_r, Z.div_0_l, Z.mul_0_l by lia.
  set (d := u * u / q + _). destruct (Z.eq_dec d 0) as [E|E]; [rewrite E; reflexivity | apply Z.quot_0_l; auto].
Qed.

Lemma big_bound : forall y x, 3 * (big y x * big y x / q) <= 2 * (B - 1) -> Z.abs x < B /\ Z.abs y < B.
Proof using W.
  clear S. intros y x N. pose proof (fone_pos f (proj1 W)) as Q. pose proof (fone_le_max f W) as M.
  assert (A : Z.abs (big y x) < B).
  { set (u := big y x) in *. clearbody u. pose proof (Z.mul_succ_div_gt (u * u) q Q) as D. rewrite <- Z.abs_square in D, N.
    set (a := Z.abs u) in *. assert (0 <= a) by (unfold a; lia). clearbody a. set (k := a * a / q) in *. clearbody k.
    destruct (Z_lt_dec a B); auto. exfalso. assert (B * B <= a * a) by nia. nia. }
  unfold big in A. destruct (Z.ltb_spec (Z.abs y) (Z.abs x)); lia.
Qed.

Lemma atan2_all : forall y x, 1 <= big y x * big y x / q -> 3 * (big y x * big y x / q) <= 2 * (B - 1) ->
  fixed_atan2_poly m f y x = Ok (zatan2 p q c y x).
Proof using W S.
  intros y x N1 N. destruct (big_bound y x N) as [X Y]. destruct (Z.eq_dec y 0) as [Y0|Y0].
  - subst y. rewrite atan2_y0 by auto. reflexivity.
  - destruct (Z.eq_dec x 0) as [X0|X0].
    + subst x. rewrite atan2_x0 by auto. unfold zatan2. destruct (Z.eqb_spec y 0); [lia|].
      destruct (Z.ltb_spec (Z.abs y) (Z.abs 0)); [lia|]. rewrite zp_zero, Z.sub_0_r. reflexivity.
    + rewrite atan2_inner by auto. destruct (Z.eqb_spec (big y x * big y x / q) 0); [lia|reflexivity].
Qed.

Lemma half_real : (Rabs (IZR (p / 2) - PI / 2 * IZR q) <= 3 / 4 + / 2000000000000000 * IZR q)%R.
Proof using W.
  clear S. pose proof (pi_real f W) as P. apply Rabs_le_inv in P. pose proof (half_pi_range f) as [H1 H2].
  apply IZR_le in H1, H2. rewrite plus_IZR in H2. rewrite !mult_IZR in *. apply Rabs_le.
  set (P1 := (PI * IZR q)%R) in *. replace (PI / 2 * IZR q)%R with (P1 / 2)%R by (unfold P1; field). lra.
Qed.

Lemma zatan2_acc_A : forall (A : R -> R) g y x, 16 * q <= big y x * big y x ->
  (forall t, t = IZR y / IZR x \/ t = IZR x / IZR y -> -1 <= t <= 1 -> Rabs (rat t - A t) <= g)%R ->
  (Rabs (IZR (zatan2 p q c y x) - IZR q * octant A (fval f y) (fval f x)) <=
   (g + / 1000000000000000) * IZR q + 9 / 4 + 415 / 100 * (IZR q * IZR q / (IZR (big y x) * IZR (big y x))))%R.
Proof using W.
  clear S. intros A g y x N HG. pose proof (fone_pos f (proj1 W)) as Q. pose proof (fone_IZR_pos f (proj1 W)) as QR.
  pose proof (c_range f W) as [C0 C1]. pose proof (c_real f W) as CR. pose proof (pi_real f W) as PR. pose proof half_real as HR.
  rewrite !fval_eq by apply W. set (qr := IZR q) in *.
  assert (IQ : (0 < / qr)%R) by (apply Rinv_0_lt_compat; auto).
  assert (AB : forall z, (Rabs (IZR z / qr) = IZR (Z.abs z) * / qr)%R) by (intros; unfold Rdiv; rewrite Rabs_mult, (Rabs_pos_eq (/ qr)), abs_IZR by lra; reflexivity).
  assert (SG : forall z, (0 < IZR z / qr)%R <-> 0 < z).
  { intros z. split; intros H.
    - apply lt_IZR. apply Rmult_lt_reg_r with (/ qr)%R; auto. unfold Rdiv in H. lra.
    - apply IZR_lt in H. apply Rmult_lt_0_compat; auto. }
  unfold big in *. destruct (Z.ltb_spec (Z.abs y) (Z.abs x)) as [L|L].
  - assert (X0 : x <> 0) by lia. assert (XR : IZR x <> 0%R) by (apply not_0_IZR; auto).
    rewrite octant_x by (rewrite !AB; apply Rmult_lt_compat_r; auto; apply IZR_lt; auto).
    replace (IZR y / qr / (IZR x / qr))%R with (IZR y / IZR x)%R by (field; lra).
    pose proof (zp_acc_A q c x y Q C0 C1 ltac:(lia) N CR A g (HG _ (or_introl eq_refl))) as ZA. fold qr in ZA. set (K := (415 / 100 * _)%R) in *.
    assert (K0 : (0 <= K)%R).
    { unfold K. apply Rmult_le_pos; [lra|]. apply Rmult_le_pos; [nra|]. apply Rlt_le, Rinv_0_lt_compat. apply Rsqr_pos_lt in XR. exact XR. }
    clearbody K. unfold zatan2. set (at_ := A (IZR y / IZR x)%R) in *.
    assert (E : exists b t, (if Rlt_dec 0 (IZR x / qr) then 0%R else if Rle_dec 0 (IZR y / qr) then PI else - PI)%R = t /\
      (Rabs (IZR b - qr * t) <= / 2 + / 1000000000000000 * qr)%R /\
      (if y =? 0 then (if x <? 0 then p else 0) else if Z.abs y <? Z.abs x then (if 0 <? x then 0 else if 0 <? y then p else - p) + zp q c x y
       else (if 0 <? y then p / 2 else - (p / 2)) - zp q c y x) = b + zp q c x y).
    { destruct (Z.ltb_spec (Z.abs y) (Z.abs x)); [|lia].
      destruct (Rlt_dec 0 (IZR x / qr)) as [X1|X1]; rewrite SG in X1.
      - exists 0, 0%R. split; auto. split; [rewrite Rmult_0_r, Rminus_0_r, Rabs_R0; lra|].
        destruct (Z.eqb_spec y 0) as [Y|Y]; [subst; rewrite zp_zero; destruct (Z.ltb_spec x 0); lia|].
        destruct (Z.ltb_spec 0 x); lia.
      - assert (SY : ~ (0 <= IZR y / qr)%R <-> y < 0).
        { split; intros G.
          - apply lt_IZR. apply Rnot_le_lt in G. apply Rmult_lt_reg_r with (/ qr)%R; auto. unfold Rdiv in G. lra.
          - apply Rlt_not_le. apply IZR_lt in G. unfold Rdiv. apply Rmult_lt_gt_compat_neg_l with (r := (- / qr)%R) in G; lra. }
        destruct (Rle_dec 0 (IZR y / qr)) as [Y1|Y1].
        + exists p, PI. split; auto. split; [rewrite (Rmult_comm qr); exact PR|].
          assert (~ y < 0) by (rewrite <- SY; auto).
          destruct (Z.eqb_spec y 0) as [Y|Y]; [subst; rewrite zp_zero; destruct (Z.ltb_spec x 0); lia|].
          destruct (Z.ltb_spec 0 x); [lia|]. destruct (Z.ltb_spec 0 y); lia.
        + exists (- p), (- PI)%R. split; auto. rewrite SY in Y1. split.
          * rewrite opp_IZR. rewrite <- Rabs_Ropp. replace (- (- IZR p - qr * - PI))%R with (IZR p - PI * qr)%R by ring. exact PR.
          * destruct (Z.eqb_spec y 0); [lia|]. destruct (Z.ltb_spec 0 x); [lia|]. destruct (Z.ltb_spec 0 y); lia. }
    destruct E as [b [t [-> [E2 E3]]]]. rewrite E3. rewrite plus_IZR.
    replace (IZR b + IZR (zp q c x y) - qr * (t + at_))%R with ((IZR b - qr * t) + (IZR (zp q c x y) - qr * at_))%R by ring.
    eapply Rle_trans; [apply Rabs_triang|]. lra.
  - assert (Y0 : y <> 0) by (intro; subst; lia). assert (YR : IZR y <> 0%R) by (apply not_0_IZR; auto).
    assert (YQ : (IZR y / qr <> 0)%R) by (unfold Rdiv; apply Rmult_integral_contrapositive; split; lra).
    rewrite octant_y; [| rewrite !AB; apply Rmult_le_compat_r; [lra | apply IZR_le; auto] | auto].
    replace (IZR x / qr / (IZR y / qr))%R with (IZR x / IZR y)%R by (field; lra).
    pose proof (zp_acc_A q c y x Q C0 C1 ltac:(lia) N CR A g (HG _ (or_intror eq_refl))) as ZA. fold qr in ZA. set (K := (415 / 100 * _)%R) in *.
    assert (K0 : (0 <= K)%R).
    { unfold K. apply Rmult_le_pos; [lra|]. apply Rmult_le_pos; [nra|]. apply Rlt_le, Rinv_0_lt_compat. apply Rsqr_pos_lt in YR. exact YR. }
    clearbody K. unfold zatan2. set (at_ := A (IZR x / IZR y)%R) in *.
    destruct (Z.eqb_spec y 0) as [Y|_]; [lia|]. destruct (Z.ltb_spec (Z.abs y) (Z.abs x)); [lia|].
    rewrite minus_IZR. destruct (Rlt_dec 0 (IZR y / qr)) as [Y1|Y1]; rewrite SG in Y1; destruct (Z.ltb_spec 0 y); try lia.
    + replace (IZR (p / 2) - IZR (zp q c y x) - qr * (PI / 2 - at_))%R with ((IZR (p / 2) - PI / 2 * qr) - (IZR (zp q c y x) - qr * at_))%R by ring.
      eapply Rle_trans; [apply Rabs_triang|]. rewrite Rabs_Ropp. lra.
    + rewrite opp_IZR.
      replace (- IZR (p / 2) - IZR (zp q c y x) - qr * (- (PI / 2) - at_))%R with (- (IZR (p / 2) - PI / 2 * qr) - (IZR (zp q c y x) - qr * at_))%R by ring.
      eapply Rle_trans; [apply Rabs_triang|]. rewrite !Rabs_Ropp. lra.
Qed.
Lemma zatan2_acc_g : forall g y x, 16 * q <= big y x * big y x ->
  (forall t, t = IZR y / IZR x \/ t = IZR x / IZR y -> -1 <= t <= 1 -> Rabs (rat t - Ratan.atan t) <= g)%R ->
  (Rabs (IZR (zatan2 p q c y x) - IZR q * angle (fval f y) (fval f x)) <=
   (g + 4 / 100000000) * IZR q + 9 / 4 + 415 / 100 * (IZR q * IZR q / (IZR (big y x) * IZR (big y x))))%R.
Proof using W.
  clear S. intros g y x N HG. pose proof (zatan2_acc_A Ratan.atan g y x N HG) as H. pose proof (fone_IZR_pos f (proj1 W)) as QR.
  rewrite angle_octant; [lra|]. rewrite !fval_eq by apply W.
  assert (K : x <> 0 \/ y <> 0) by (pose proof (fone_pos f (proj1 W)); unfold big in N; destruct (Z.ltb_spec (Z.abs y) (Z.abs x)); lia).
  assert (/ IZR q <> 0)%R by (apply Rgt_not_eq, Rinv_0_lt_compat; auto).
  destruct K as [K|K]; [left | right]; apply Rmult_integral_contrapositive; split; auto; apply not_0_IZR; auto.
Qed.
Lemma zatan2_acc : forall y x, 16 * q <= big y x * big y x ->
  (Rabs (IZR (zatan2 p q c y x) - IZR q * angle (fval f y) (fval f x)) <=
   49104 / 10000000 * IZR q + 9 / 4 + 415 / 100 * (IZR q * IZR q / (IZR (big y x) * IZR (big y x))))%R.
Proof using W.
  clear S. intros y x N. eapply Rle_trans; [apply (zatan2_acc_g (491036 / 100000000) y x N); intros t _ T; apply gap_bound; auto|].
  pose proof (fone_IZR_pos f (proj1 W)). lra.
Qed.
End Final.
