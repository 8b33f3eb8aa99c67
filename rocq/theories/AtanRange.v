(** * Quadrant of the two-argument arctangent. *)

From Coq Require Import ZArith Reals Lia Lra Psatz List Bool.
From Flocq Require Import Core.Core IEEE754.BinarySingleNaN.
From Verif Require Import Base FloatBase Literals Traits Trig FixedPrim FixedImpl FloatImpl Spec SpecAngle
  Lemmas ScalarProofs ScalarProofs2 WrapProofs NiirfZ NiirfFixed2 SinReal SinFixed AtanReal AtanFixed AtanProofs FloatLemmas FloatProofs FloatWrap FloatKit WrapProofs2 SinFloat AtanFloat.
From Flocq Require Import Plus_error.
Open Scope Z_scope.

(** ** fixed point *)
Lemma zp_low : forall q c u v, 0 < q -> 0 <= c -> 2 * c <= q -> Z.abs v <= Z.abs u -> 2 <= u * u / q -> - 3 * q <= 2 * zp q c u v.
Proof.
  intros q c u v Q C0 C1 L N. unfold zp. pose proof (cv_le q c u v Q C0 C1 L) as [A B]. pose proof (a_range q u v Q L) as R.
  set (d := c * (v * v / q) / q) in *. set (a := u * v / q) in *. set (k := u * u / q) in *. clearbody d a k. clear L C0 C1.
  assert (D : 0 < k + d) by lia. set (D' := k + d) in *. assert (K : - (D' + 1) <= a) by lia. assert (2 <= D') by lia. clearbody D'.
  destruct (Z_le_dec 0 a) as [P|P].
  - assert (0 <= Z.quot (a * q) D') by (apply Z.quot_pos; nia). lia.
  - replace (a * q) with (- (- a * q)) by ring. rewrite Z.quot_opp_l by lia. rewrite Z.quot_div_nonneg by nia.
    pose proof (Z.mul_div_le (- a * q) D' D) as M. set (z := - a * q / D') in *. clearbody z. nia.
Qed.
Lemma zatan2_quadrant : forall p q c y x, 0 < q -> 0 <= c -> 2 * c <= q -> 3 * q <= p -> 2 <= big y x * big y x / q -> y <> 0 ->
  let r := zatan2 p q c y x in let h := p / 2 in
  (0 < y -> 0 <= x -> 0 <= r <= h) /\ (0 < y -> x <= 0 -> h <= r <= p) /\
  (y < 0 -> 0 <= x -> - h <= r <= 0) /\ (y < 0 -> x <= 0 -> - p <= r <= - h).
Proof.
  intros p q c y x Q C0 C1 P N Y r h. unfold big in N. unfold r, zatan2. destruct (Z.eqb_spec y 0) as [E|_]; [lia|].
  pose proof (Z.mul_div_le p 2 ltac:(lia)) as H1. pose proof (Z.mul_succ_div_gt p 2 ltac:(lia)) as H2. fold h in H1, H2 |- *. clearbody h.
  destruct (Z.ltb_spec (Z.abs y) (Z.abs x)) as [L|L].
  - assert (L' : Z.abs y <= Z.abs x) by lia. assert (N1 : 1 <= x * x / q) by (clear - N; lia).
    pose proof (zp_low q c x y Q C0 C1 L' N) as ZL. pose proof (zp_nonneg q c x y Q C0 C1 L' N1) as ZP. pose proof (zp_nonpos q c x y Q C0 C1 L' N1) as ZN.
    set (z := zp q c x y) in *. clearbody z. clear N N1.
    destruct (Z.ltb_spec 0 x) as [X|X]; destruct (Z.ltb_spec 0 y) as [Y1|Y1]; (split; [|split; [|split]]); intros; try (exfalso; lia).
    + specialize (ZP ltac:(nia)). lia.
    + specialize (ZN ltac:(nia)). lia.
    + specialize (ZN ltac:(nia)). lia.
    + specialize (ZP ltac:(nia)). lia.
  - assert (N1 : 1 <= y * y / q) by (clear - N; lia).
    pose proof (zp_low q c y x Q C0 C1 L N) as ZL. pose proof (zp_nonneg q c y x Q C0 C1 L N1) as ZP. pose proof (zp_nonpos q c y x Q C0 C1 L N1) as ZN.
    set (z := zp q c y x) in *. clearbody z. clear N N1.
    destruct (Z.ltb_spec 0 y) as [Y1|Y1]; (split; [|split; [|split]]); intros; try (exfalso; lia).
    + specialize (ZP ltac:(nia)). lia.
    + specialize (ZN ltac:(nia)). lia.
    + specialize (ZN ltac:(nia)). lia.
    + specialize (ZP ltac:(nia)). lia.
Qed.

Lemma sq_bound : forall f k y x, fwf f -> let M := Rmax (Rabs (fval f x)) (Rabs (fval f y)) in
  (IZR k * ulp f <= M * M)%R -> k <= big y x * big y x / fone f.
Proof.
  intros f k y x W M H. unfold M in H. rewrite big_sq in H by apply W. pose proof (fone_pos f (proj1 W)) as Q. pose proof (fone_IZR_pos f (proj1 W)) as QR.
  set (u := big y x) in *. rewrite ulp_eq in H by apply W. rewrite !fval_eq in H by apply W.
  apply Z.div_le_lower_bound; auto. apply le_IZR. rewrite !mult_IZR. rewrite <- (Z.abs_square u) || idtac.
  set (q := IZR (fone f)) in *. assert (IQ : (0 < / q)%R) by (apply Rinv_0_lt_compat; auto).
  apply Rmult_le_reg_r with (/ q * / q)%R; [apply Rmult_lt_0_compat; auto|].
  replace (q * IZR k * (/ q * / q))%R with (IZR k * / q)%R by (field; lra).
  replace (IZR u * IZR u * (/ q * / q))%R with (IZR (Z.abs u) / q * (IZR (Z.abs u) / q))%R; [auto|].
  replace (IZR u * IZR u)%R with (IZR (Z.abs u) * IZR (Z.abs u))%R by (rewrite <- !mult_IZR; f_equal; apply Z.abs_square). field. lra.
Qed.
Lemma sq_top : forall f y x, fwf f -> fsigned f = true -> let M := Rmax (Rabs (fval f x)) (Rabs (fval f y)) in
  (3 / 2 * (M * M) <= fval f (fmax f))%R -> 3 * (big y x * big y x / fone f) <= 2 * (2 ^ (fwidth f - 1) - 1).
Proof.
  intros f y x W S M H. unfold M in H. rewrite big_sq in H by apply W. pose proof (fone_pos f (proj1 W)) as Q. pose proof (fone_IZR_pos f (proj1 W)) as QR.
  set (u := big y x) in *. rewrite !fval_eq in H by apply W. rewrite fmax_val in H by auto.
  set (k := u * u / fone f). assert (K : fone f * k <= u * u) by (apply Z.mul_div_le; auto).
  apply le_IZR. rewrite !mult_IZR. apply IZR_le in K. rewrite !mult_IZR in K. set (q := IZR (fone f)) in *. set (t := IZR (2 ^ (fwidth f - 1) - 1)) in *.
  assert (IQ : (0 < / q)%R) by (apply Rinv_0_lt_compat; auto).
  assert (E : (IZR (Z.abs u) / q * (IZR (Z.abs u) / q) = IZR u * IZR u * / q * / q)%R).
  { replace (IZR u * IZR u)%R with (IZR (Z.abs u) * IZR (Z.abs u))%R by (rewrite <- !mult_IZR; f_equal; apply Z.abs_square). field. lra. }
  rewrite E in H. assert (A : (3 / 2 * (IZR u * IZR u * / q) <= t)%R).
  { apply Rmult_le_reg_r with (/ q)%R; auto. unfold Rdiv at 2 in H. lra. }
  assert (B : (IZR k <= IZR u * IZR u * / q)%R).
  { apply Rmult_le_reg_r with q; auto. replace (IZR u * IZR u * / q * q)%R with (IZR u * IZR u)%R by (field; lra). lra. }
  lra.
Qed.

Lemma quadrant_fixed : forall m f, supported f = true -> fsigned f = true -> forall y x,
  let M := Rmax (Rabs (fval f x)) (Rabs (fval f y)) in
  (2 * ulp f <= M * M)%R -> (3 / 2 * (M * M) <= fval f (fmax f))%R -> y <> 0 ->
  exists p r, mixed_pi (fixed_pi m f) = Ok p /\ fixed_atan2_poly m f y x = Ok r /\ let h := p / 2 in
  (0 < y -> 0 <= x -> 0 <= r <= h) /\ (0 < y -> x <= 0 -> h <= r <= p) /\
  (y < 0 -> 0 <= x -> - h <= r <= 0) /\ (y < 0 -> x <= 0 -> - p <= r <= - h).
Proof.
  intros m f Hf S y x M H1 H2 Y. pose proof (supported_fwf f Hf) as W. pose proof (c_range f W) as [C0 C1]. pose proof (fone_pos f (proj1 W)) as Q.
  pose proof (sq_bound f 2 y x W H1) as N. pose proof (sq_top f y x W S H2) as T.
  exists (pi_bits f), (zatan2 (pi_bits f) (fone f) (c_bits f) y x). split; [apply fixed_pi_eq; auto|].
  split; [apply atan2_all; auto; clear - N; lia|]. apply zatan2_quadrant; auto. apply pi_bits_bounds; auto.
Qed.

(** close to the origin the quotient can reach two *)
Lemma zp_two : forall q c u, 8 <= q -> 0 <= c -> 2 * c <= q -> q < u * u < 2 * q -> zp q c u (- u) = - 2 * q.
Proof.
  intros q c u Q C0 C1 U. unfold zp. replace (- u * - u) with (u * u) by ring.
  assert (E : u * u / q = 1). { symmetry. apply (Z.div_unique _ _ 1 (u * u - q)); lia. }
  rewrite E. replace (c * 1 / q) with 0 by (symmetry; apply Z.div_small; lia).
  replace (u * - u / q) with (-2); [rewrite Z.add_0_r, Z.quot_1_r; ring|].
  apply (Z.div_unique _ _ (-2) (2 * q - u * u)); lia.
Qed.
Lemma root_between : forall q, 8 <= q -> exists u, 0 < u <= q /\ q < u * u < 2 * q.
Proof.
  intros q Q. exists (Z.sqrt q + 1). pose proof (Z.sqrt_spec q ltac:(lia)) as [A B]. pose proof (Z.sqrt_nonneg q) as C.
  set (s := Z.sqrt q) in *. clearbody s. unfold Z.succ in B. assert (2 <= s) by nia. assert (s + 1 <= q) by nia. split; [lia|]. split; [lia|].
  destruct (Z_le_dec 3 s); nia.
Qed.
Lemma quadrant_refuted : forall m f, supported f = true -> fsigned f = true -> 3 <= ffrac f ->
  exists u p, fvalid f u /\ fvalid f (- u) /\ 0 < u /\ mixed_pi (fixed_pi m f) = Ok p /\
  exists r r', fixed_atan2_poly m f u (- u) = Ok r /\ p < r /\ fixed_atan2_poly m f (- u) u = Ok r' /\ 0 < r'.
Proof.
  intros m f Hf S F. pose proof (supported_fwf f Hf) as W. pose proof (c_range f W) as [C0 C1]. pose proof (pi_bits_bounds f W) as PB.
  pose proof (fone_le_max f W) as FM.
  assert (Q : 8 <= fone f) by (unfold fone; change 8 with (2 ^ 3); apply Z.pow_le_mono_r; lia).
  destruct (root_between _ Q) as (u & U0 & U). exists u, (pi_bits f).
  split; [apply fvalid_iff; rewrite S; lia|]. split; [apply fvalid_iff; rewrite S; lia|]. split; [lia|]. split; [apply fixed_pi_eq; auto|].
  assert (E : u * u / fone f = 1). { symmetry. apply (Z.div_unique _ _ 1 (u * u - fone f)); lia. }
  pose proof (zp_two _ (c_bits f) u Q C0 C1 U) as Z1. pose proof (zp_two _ (c_bits f) (- u) Q C0 C1 ltac:(replace (- u * - u) with (u * u) by ring; auto)) as Z2.
  rewrite Z.opp_involutive in Z2.
  assert (B1 : big u (- u) = u) by (unfold big; destruct (Z.ltb_spec (Z.abs u) (Z.abs (- u))); lia).
  assert (B2 : big (- u) u = - u) by (unfold big; destruct (Z.ltb_spec (Z.abs (- u)) (Z.abs u)); lia).
  pose proof (half_pi_range f) as HP. pose proof (half_pi_small f W) as HS.
  exists (pi_bits f / 2 + 2 * fone f), (- (pi_bits f / 2) + 2 * fone f).
  split; [|split; [lia|split; [|lia]]].
  - rewrite atan2_all; auto; rewrite ?B1, ?E; try (clear - FM Q; lia). unfold zatan2. rewrite Z1.
    destruct (Z.eqb_spec u 0); [lia|]. destruct (Z.ltb_spec (Z.abs u) (Z.abs (- u))); [lia|]. destruct (Z.ltb_spec 0 u); [|lia]. f_equal. ring.
  - rewrite atan2_all; auto; rewrite ?B2; replace (- u * - u) with (u * u) by ring; rewrite ?E; try (clear - FM Q; lia). unfold zatan2. rewrite Z2.
    destruct (Z.eqb_spec (- u) 0); [lia|]. destruct (Z.ltb_spec (Z.abs (- u)) (Z.abs u)); [lia|]. destruct (Z.ltb_spec 0 (- u)); [lia|]. f_equal. ring.
Qed.

(** ** floats *)
Section QuadF.
Context {prec emax : Z} {Hp : Prec_gt_0 prec} {He : Prec_lt_emax prec emax}.
Notation float := (binary_float prec emax).
Notation fexp := (SpecFloat.fexp prec emax).
Notation rnd := (round radix2 fexp ZnearestE).
Notation B2R := (@B2R prec emax).
Notation fin x := (is_finite x = true).
Notation int z := (float_of_Z prec emax z).
Notation "a ++. b" := (Bplus mode_NE a b) (at level 50, left associativity).
Notation "a --. b" := (Bminus mode_NE a b) (at level 50, left associativity).
Notation "a **. b" := (Bmult mode_NE a b) (at level 40, left associativity).
Notation "a //. b" := (Bdiv mode_NE a b) (at level 40, left associativity).
Notation O := (@float_ops prec emax Hp He).
Notation pf := (float_of_float prec emax lit_pi).
Notation cf := (float_of_float prec emax lit_atan).
Notation half := (@fhalf prec emax Hp He).
Hypothesis P24 : 24 <= prec <= 100.
Hypothesis E10 : prec + 20 <= emax <= 2000.

Let Vexp : Valid_exp fexp := fexp_correct prec emax _.

Lemma to_inf : forall (x : float) s, B2SF x = binary_overflow prec emax mode_NE s -> x = B754_infinity s.
Proof. clear. intros x s H. destruct x; cbn in H; try discriminate. injection H as ->. reflexivity. Qed.
Lemma rnd_mono : forall a b, (a <= b -> rnd a <= rnd b)%R.
Proof using P24 E10 Vexp. intros. apply round_le; auto; apply valid_rnd_N. Qed.
Lemma rnd_0 : rnd 0 = 0%R.
Proof using P24 E10 Vexp. apply round_0; apply valid_rnd_N. Qed.
Lemma rnd_abs' : forall a b, (Rabs a <= b -> Rabs (rnd a) <= rnd b)%R.
Proof using P24 E10 Vexp.
  intros a b H. apply Rabs_le_inv in H. apply Rabs_le. rewrite <- round_NE_opp. split; apply rnd_mono; lra.
Qed.
Lemma mult_ext : forall a b : float, fin a -> fin b ->
  (fin (a **. b) /\ B2R (a **. b) = rnd (B2R a * B2R b)) \/
  (a **. b = B754_infinity (xorb (Bsign a) (Bsign b)) /\ (bpow radix2 emax <= Rabs (rnd (B2R a * B2R b)))%R).
Proof using P24 E10 Vexp.
  intros a b Fa Fb. pose proof (Bmult_correct prec emax _ _ mode_NE a b) as H. change (round_mode mode_NE) with ZnearestE in H.
  destruct (Rlt_bool_spec (Rabs (rnd (B2R a * B2R b))) (bpow radix2 emax)).
  - left. rewrite Fa, Fb in H. tauto.
  - right. split; auto. apply to_inf, H.
Qed.
Lemma sq_ext : forall a : float, fin a ->
  (fin (a **. a) /\ B2R (a **. a) = rnd (B2R a * B2R a) /\ (0 <= B2R (a **. a))%R) \/ (a **. a = B754_infinity false).
Proof using P24 E10 Vexp.
  intros a F. destruct (mult_ext a a F F) as [[A B]|[A _]]; [left|right].
  - repeat split; auto. rewrite B, <- rnd_0. apply rnd_mono. apply Rle_0_sqr.
  - rewrite A. rewrite xorb_nilpotent. reflexivity.
Qed.

Lemma c_pos : exists m e H, cf = B754_finite false m e H.
Proof using P24 E10 Vexp.
  destruct (cf_val P24 E10) as [F V]. set (c := cf) in *. clearbody c. destruct c as [sg|sg| |sg m e H]; try discriminate.
  - cbn in V. lra.
  - destruct sg; [|eauto]. cbn in V. exfalso. assert (F2R (Float radix2 (Z.neg m) e) <= 0)%R by (apply F2R_le_0; cbn; lia). lra.
Qed.
(** the weighted square: not NaN, never negative *)
Lemma cs_ext : forall a : float, fin a -> (fin (cf **. (a **. a)) /\ (0 <= B2R (cf **. (a **. a)) <= B2R (a **. a))%R /\ fin (a **. a)) \/ cf **. (a **. a) = B754_infinity false.
Proof using P24 E10 Vexp.
  intros a F. destruct (cf_val P24 E10) as [Fc Vc]. destruct (sq_ext a F) as [[A [B C]]|A].
  - left. set (s := a **. a) in *. clearbody s.
    assert (K : (0 <= B2R cf * B2R s <= B2R s)%R) by (rewrite Vc; nra).
    assert (K' : (0 <= rnd (B2R cf * B2R s) <= B2R s)%R).
    { pose proof (rnd_between (B2R cf * B2R s) (B754_zero false) s) as R. cbn [BinarySingleNaN.B2R] in R. apply R. exact K. }
    destruct (mult_ext cf s Fc A) as [[G H]|[_ H]].
    + rewrite H. auto.
    + exfalso. rewrite Rabs_pos_eq in H by lra. pose proof (abs_B2R_lt_emax _ _ s) as L. rewrite Rabs_pos_eq in L by lra. lra.
  - right. rewrite A. destruct c_pos as [m [e [H E]]]. rewrite E. reflexivity.
Qed.

Definition quot (u v uv : float) : float := uv //. (u **. u ++. cf **. (v **. v)).
Lemma inf_div : forall (n : float) s, is_nan (n //. B754_infinity s) = true \/ (fin (n //. B754_infinity s) /\ B2R (n //. B754_infinity s) = 0%R).
Proof. clear. intros n s. destruct n; cbn; auto. Qed.

Lemma quot_sign : forall (u v uv : float), uv = u **. v -> fin u -> fin v -> (Rabs (B2R v) <= Rabs (B2R u))%R ->
  is_nan (quot u v uv) = true \/
  (fin (quot u v uv) /\ (Rabs (B2R (quot u v uv)) <= 1)%R /\
   (0 <= B2R u * B2R v -> 0 <= B2R (quot u v uv))%R /\ (B2R u * B2R v <= 0 -> B2R (quot u v uv) <= 0)%R).
Proof using P24 E10 Vexp.
  intros u v uv -> Fu Fv L. unfold quot.
  assert (Z : forall q : float, is_nan q = true \/ (fin q /\ B2R q = 0%R) ->
    is_nan q = true \/ (fin q /\ (Rabs (B2R q) <= 1)%R /\ (0 <= B2R u * B2R v -> 0 <= B2R q)%R /\ (B2R u * B2R v <= 0 -> B2R q <= 0)%R)).
  { intros q [N|[F E]]; auto. right. rewrite E, Rabs_R0. repeat split; auto; lra. }
  destruct (sq_ext u Fu) as [[F2 [V2 N2]]|E2].
  - assert (LL : (Rabs (B2R u * B2R v) <= B2R u * B2R u)%R).
    { rewrite Rabs_mult. replace (B2R u * B2R u)%R with (Rabs (B2R u) * Rabs (B2R u))%R by (rewrite <- Rabs_mult; apply Rabs_pos_eq, Rle_0_sqr).
      apply Rmult_le_compat_l; auto. apply Rabs_pos. }
    assert (NL := rnd_abs' _ _ LL). rewrite <- V2 in NL.
    pose proof (abs_B2R_lt_emax _ _ (u **. u)) as BU. rewrite Rabs_pos_eq in BU by auto.
    destruct (mult_ext u v Fu Fv) as [[Fn Vn]|[_ H]]; [|exfalso; lra].
    destruct (cs_ext v Fv) as [[Ft [Bt _]]|Et].
    + set (u2 := u **. u) in *. set (t := cf **. (v **. v)) in *. set (n := u **. v) in *. clearbody u2 t.
      pose proof (Bplus_correct prec emax _ _ mode_NE u2 t F2 Ft) as H. change (round_mode mode_NE) with ZnearestE in H.
      destruct (Rlt_bool_spec (Rabs (rnd (B2R u2 + B2R t))) (bpow radix2 emax)) as [Lt|Ge].
      * destruct H as [Vd [Fd _]]. set (d := u2 ++. t) in *. clearbody d.
        assert (UD : (B2R u2 <= B2R d)%R) by (rewrite Vd; eapply Rle_trans; [right; symmetry; apply round_B2R | apply rnd_mono; lra]).
        destruct (Rle_lt_or_eq_dec 0 (B2R d) ltac:(lra)) as [Dp|D0].
        -- assert (ND : (Rabs (B2R n / B2R d) <= 1)%R).
           { apply div_le_1; [|lra]. rewrite Vn, (Rabs_pos_eq (B2R d)); lra. }
           assert (S1 : (0 <= B2R u * B2R v -> 0 <= B2R n / B2R d)%R).
           { intros S. apply Rmult_le_pos; [|left; apply Rinv_0_lt_compat; auto]. rewrite Vn, <- rnd_0. apply rnd_mono; auto. }
           assert (S2 : (B2R u * B2R v <= 0 -> B2R n / B2R d <= 0)%R).
           { intros S. assert (B2R n <= 0)%R by (rewrite Vn, <- rnd_0; apply rnd_mono; auto).
             assert (0 < / B2R d)%R by (apply Rinv_0_lt_compat; auto). unfold Rdiv. nra. }
           destruct (div_r (prec := prec) (emax := emax) n d Fn ltac:(lra) 0 ltac:(lia)) as [Fq Vq]; [exact ND|].
           right. split; auto. rewrite Vq. split; [|split].
           ++ apply (rnd_le (prec := prec) (emax := emax) (B2R n / B2R d) 0); [exact ND | clear - E10 P24; lia].
           ++ intros S. rewrite <- rnd_0. apply rnd_mono; auto.
           ++ intros S. rewrite <- rnd_0. apply rnd_mono; auto.
        -- assert (n0 : B2R n = 0%R). { rewrite Vn. destruct (Req_dec (rnd (B2R u * B2R v)) 0); auto. pose proof (Rabs_pos_lt _ H). lra. }
           left. destruct n as [| | |sn mn en Hn]; try discriminate; [|exfalso; cbn in n0; apply eq_0_F2R in n0; destruct sn; discriminate].
           destruct d as [| | |sd md ed Hd]; try discriminate; [reflexivity|exfalso; cbn in D0; symmetry in D0; apply eq_0_F2R in D0; destruct sd; discriminate].
      * destruct H as [H _]. apply to_inf in H. rewrite H. apply Z, inf_div.
    + rewrite Et. apply Z. replace (u **. u ++. B754_infinity false) with (B754_infinity false : float); [apply inf_div|].
      destruct (u **. u); try discriminate; reflexivity.
  - rewrite E2. apply Z.
    replace (B754_infinity false ++. cf **. (v **. v)) with (B754_infinity false : float); [apply inf_div|].
    destruct (cs_ext v Fv) as [[Ft _]|Et]; [destruct (cf **. (v **. v)); try discriminate; reflexivity | rewrite Et; reflexivity].
Qed.

Lemma diff_sign' : forall (y x : float), fin y -> fin x ->
  ((Rabs (B2R y) < Rabs (B2R x))%R /\ o_lt O (Babs y --. Babs x) fzero = true) \/
  ((Rabs (B2R x) <= Rabs (B2R y))%R /\ o_lt O (Babs y --. Babs x) fzero = false /\ o_le O fzero (Babs y --. Babs x) = true).
Proof using P24 E10 Vexp.
  intros y x Fy Fx. assert (Fya : fin (Babs y)) by (rewrite is_finite_Babs; auto). assert (Fxa : fin (Babs x)) by (rewrite is_finite_Babs; auto).
  pose proof (Rabs_pos (B2R y)) as Py. pose proof (Rabs_pos (B2R x)) as Px.
  destruct (Bminus_ok (Babs y) (Babs x) Fya Fxa) as [Vd Fd].
  { rewrite !B2R_Babs. apply (between_lt_emax _ (Bopp (Babs x)) (Babs y)). apply rnd_between. rewrite B2R_Bopp, !B2R_Babs. lra. }
  rewrite !B2R_Babs in Vd.
  assert (Gy : generic_format radix2 fexp (Rabs (B2R y))) by (apply generic_format_abs, generic_format_B2R).
  assert (Gx : generic_format radix2 fexp (- Rabs (B2R x))) by (apply generic_format_opp, generic_format_abs, generic_format_B2R).
  assert (F0 : fin (@fzero prec emax)) by reflexivity.
  destruct (Rlt_or_le (Rabs (B2R y)) (Rabs (B2R x))) as [L|L].
  - left. split; auto. assert (N : B2R (Babs y --. Babs x) <> 0%R).
    { rewrite Vd. change fexp with (FLT_exp (3 - emax - prec) prec). apply (round_plus_neq_0 radix2 (FLT_exp (3 - emax - prec) prec)); auto; try typeclasses eauto. lra. }
    assert (B2R (Babs y --. Babs x) <= 0)%R by (rewrite Vd, <- rnd_0; apply rnd_mono; lra).
    apply lt_cmp; auto. change (B2R fzero) with 0%R. lra.
  - right. split; auto. assert (P : (0 <= B2R (Babs y --. Babs x))%R) by (rewrite Vd, <- rnd_0; apply rnd_mono; lra).
    split.
    + apply not_true_is_false. intros T. apply lt_cmp in T; auto. change (B2R fzero) with 0%R in T. lra.
    + apply le_cmp; auto.
Qed.

Hypothesis Fh : fin half.
Hypothesis Vh : (15 / 10 <= B2R half <= 16 / 10)%R.
Hypothesis Fp : fin pf.
Hypothesis Vp : (B2R pf = 2 * B2R half)%R.
Hypothesis NegHalf : Bopp pf //. int 2 = Bopp half.

Lemma plus_in : forall (a q lo hi : float), fin a -> (is_nan q = true \/ fin q /\ (B2R lo <= B2R a + B2R q <= B2R hi)%R) ->
  is_nan (a ++. q) = true \/ (fin (a ++. q) /\ (B2R lo <= B2R (a ++. q) <= B2R hi)%R).
Proof using.
  clear. intros a q lo hi Fa [N|[Fq L]].
  - left. destruct q; try discriminate. destruct a; reflexivity.
  - right. pose proof (rnd_between _ _ _ L) as R. pose proof (between_lt_emax _ _ _ R) as B. destruct (Bplus_ok a q Fa Fq B) as [V F]. rewrite V. auto.
Qed.
Lemma minus_in : forall (a q lo hi : float), fin a -> (is_nan q = true \/ fin q /\ (B2R lo <= B2R a - B2R q <= B2R hi)%R) ->
  is_nan (a --. q) = true \/ (fin (a --. q) /\ (B2R lo <= B2R (a --. q) <= B2R hi)%R).
Proof using.
  clear. intros a q lo hi Fa [N|[Fq L]].
  - left. destruct q; try discriminate. destruct a; reflexivity.
  - right. pose proof (rnd_between _ _ _ L) as R. pose proof (between_lt_emax _ _ _ R) as B. destruct (Bminus_ok a q Fa Fq B) as [V F]. rewrite V. auto.
Qed.

Lemma quadrant_float : forall y x : float, fin y -> fin x -> B2R y <> 0%R ->
  is_nan (fatan2 y x) = true \/ (fin (fatan2 y x) /\ in_quadrant (B2R y) (B2R x) (B2R (fatan2 y x)) (B2R pf)).
Proof using P24 E10 Vexp Fh Vh Fp Vp NegHalf.
  intros y x Fy Fx Y0. unfold fatan2. destruct (eq_zero y Fy) as [[_ A]|[-> _]]; [lra|].
  set (Q := fun r => in_quadrant (B2R y) (B2R x) r (B2R pf)).
  assert (W : forall (r lo hi : float), is_nan r = true \/ (fin r /\ (B2R lo <= B2R r <= B2R hi)%R) -> (forall v, (B2R lo <= v <= B2R hi)%R -> Q v) ->
     is_nan r = true \/ (fin r /\ Q (B2R r))).
  { intros r lo hi [N|[F L]] K; auto. }
  change (fin ?r /\ in_quadrant (B2R y) (B2R x) (B2R ?r) (B2R pf)) with (fin r /\ Q (B2R r)).
  assert (DS := diff_sign' y x Fy Fx).
  destruct (eq_zero x Fx) as [[-> X0]|[-> X0]].
  - right. destruct (sign_cases y Fy Y0) as [[-> Py]|[-> Py]].
    + rewrite NegHalf. split; [rewrite is_finite_Bopp; auto|]. rewrite B2R_Bopp. unfold Q, in_quadrant. rewrite X0. lra.
    + split; auto. unfold Q, in_quadrant. rewrite X0. lra.
  - destruct DS as [[L C]|[L [C C']]]; rewrite C; [|rewrite C', andb_false_r].
    + pose proof (quot_sign x y (x **. y) eq_refl Fx Fy ltac:(lra)) as K. change (quot x y (x **. y)) with (fp1 y x) in K.
      destruct (sign_cases x Fx X0) as [[-> Px]|[-> Px]]; destruct (sign_cases y Fy Y0) as [[Sy Py]|[Sy Py]]; try rewrite Sy.
      * apply (W _ (Bopp pf) (Bopp half)).
        -- apply plus_in; [rewrite is_finite_Bopp; auto|]. destruct K as [K|[K1 [K2 [K3 K4]]]]; auto. right. split; auto. apply Rabs_le_inv in K2.
           specialize (K3 ltac:(nra)). rewrite !B2R_Bopp. lra.
        -- intros v. rewrite !B2R_Bopp. unfold Q, in_quadrant. lra.
      * apply (W _ half pf).
        -- apply plus_in; auto. destruct K as [K|[K1 [K2 [K3 K4]]]]; auto. right. split; auto. apply Rabs_le_inv in K2.
           specialize (K4 ltac:(nra)). lra.
        -- intros v. unfold Q, in_quadrant. lra.
      * destruct K as [K|[K1 [K2 [K3 K4]]]]; auto. right. split; auto. apply Rabs_le_inv in K2. specialize (K4 ltac:(nra)). unfold Q, in_quadrant. lra.
      * destruct K as [K|[K1 [K2 [K3 K4]]]]; auto. right. split; auto. apply Rabs_le_inv in K2. specialize (K3 ltac:(nra)). unfold Q, in_quadrant. lra.
    + pose proof (quot_sign y x (x **. y) (Bmult_comm x y) Fy Fx L) as K. change (quot y x (x **. y)) with (fp2 y x) in K.
      destruct (sign_cases x Fx X0) as [[_ Px]|[_ Px]]; destruct (sign_cases y Fy Y0) as [[-> Py]|[-> Py]].
      * apply (W _ (Bopp pf) (Bopp half)).
        -- apply minus_in; [rewrite is_finite_Bopp; auto|]. destruct K as [K|[K1 [K2 [K3 K4]]]]; auto. right. split; auto. apply Rabs_le_inv in K2.
           specialize (K3 ltac:(nra)). rewrite !B2R_Bopp. lra.
        -- intros v. rewrite !B2R_Bopp. unfold Q, in_quadrant. lra.
      * apply (W _ half pf).
        -- apply minus_in; auto. destruct K as [K|[K1 [K2 [K3 K4]]]]; auto. right. split; auto. apply Rabs_le_inv in K2.
           specialize (K4 ltac:(nra)). lra.
        -- intros v. unfold Q, in_quadrant. lra.
      * apply (W _ (Bopp half) (B754_zero false)).
        -- apply minus_in; [rewrite is_finite_Bopp; auto|]. destruct K as [K|[K1 [K2 [K3 K4]]]]; auto. right. split; auto. apply Rabs_le_inv in K2.
           specialize (K4 ltac:(nra)). rewrite !B2R_Bopp. cbn [BinarySingleNaN.B2R]. lra.
        -- intros v. rewrite !B2R_Bopp. cbn [BinarySingleNaN.B2R]. unfold Q, in_quadrant. lra.
      * apply (W _ (B754_zero false) half).
        -- apply minus_in; auto. destruct K as [K|[K1 [K2 [K3 K4]]]]; auto. right. split; auto. apply Rabs_le_inv in K2.
           specialize (K3 ltac:(nra)). cbn [BinarySingleNaN.B2R]. lra.
        -- intros v. cbn [BinarySingleNaN.B2R]. unfold Q, in_quadrant. lra.
Qed.

(** off the axes an infinite coordinate gives NaN *)
Lemma inf_nan : forall y x : float, o_eq O y fzero = false -> o_eq O x fzero = false -> is_nan y = false -> is_nan x = false ->
  (is_finite y = false \/ is_finite x = false) -> is_nan (fatan2 y x) = true.
Proof using P24 E10 Vexp.
  intros y x Ey Ex Ny Nx I. unfold fatan2. rewrite Ey, Ex. destruct c_pos as [cm [ce [cH EC]]].
  assert (A : forall a : float, fin a -> a = B754_zero true \/ True) by auto.
  assert (NN : forall a q : float, is_nan q = true -> is_nan (a ++. q) = true /\ is_nan (a --. q) = true).
  { intros a q N. destruct q; try discriminate. destruct a; split; reflexivity. }
  assert (I1 : forall z : float, fin z -> (B754_infinity false : float) ++. cf **. (z **. z) = B754_infinity false).
  { intros z Fz. destruct (cs_ext z Fz) as [[Ft _]|Et]; [destruct (cf **. (z **. z)); try discriminate; reflexivity | rewrite Et; reflexivity]. }
  assert (I2 : forall z : float, fin z -> z **. z ++. (B754_infinity false : float) = B754_infinity false).
  { intros z Fz. destruct (sq_ext z Fz) as [[Ft _]|Et]; [destruct (z **. z); try discriminate; reflexivity | rewrite Et; reflexivity]. }
  assert (M : forall s s', is_nan ((B754_infinity s : float) //. B754_infinity s') = true) by reflexivity.
  assert (CI : cf **. (B754_infinity false : float) = B754_infinity false) by (rewrite EC; reflexivity).
  assert (F1 : is_nan (fp1 y x) = true /\ is_nan (fp2 y x) = true).
  { unfold fp1, fp2. destruct y as [sy|sy| |sy my ey Hy]; [destruct sy; discriminate| |discriminate|].
    - replace ((B754_infinity sy : float) **. B754_infinity sy) with (B754_infinity false : float) by (destruct sy; reflexivity). rewrite CI.
      destruct x as [sx|sx| |sx mx ex Hx]; [destruct sx; discriminate| |discriminate|].
      + replace ((B754_infinity sx : float) **. B754_infinity sx) with (B754_infinity false : float) by (destruct sx; reflexivity). rewrite CI.
        split; reflexivity.
      + rewrite I1, I2 by reflexivity. split; reflexivity.
    - destruct x as [sx|sx| |sx mx ex Hx]; [destruct sx; discriminate| |discriminate|].
      + replace ((B754_infinity sx : float) **. B754_infinity sx) with (B754_infinity false : float) by (destruct sx; reflexivity). rewrite CI.
        rewrite I1, I2 by reflexivity. split; reflexivity.
      + destruct I; discriminate. }
  destruct F1 as [N1 N2].
  destruct (o_lt O _ fzero); [destruct (Bsign x); auto; apply NN; auto|].
  destruct (Bsign x && _); apply NN; auto.
Qed.
End QuadF.

Definition quadrant_claims {prec emax : Z} {Hp : Prec_gt_0 prec} {He : Prec_lt_emax prec emax} : Prop :=
  forall y x : binary_float prec emax, is_finite y = true -> is_finite x = true -> B2R y <> 0%R ->
  exists p r, mixed_pi float_pi = Ok p /\ float_atan2_poly y x = Ok r /\
  (is_nan r = true \/ is_finite r = true /\ in_quadrant (B2R y) (B2R x) (B2R r) (B2R p)).
Lemma quadrant_f32 : @quadrant_claims 24 128 _ _.
Proof.
  intros y x Fy Fx Y0. destruct f32_half_val as [Vh Fh]. destruct f32_pi_val as [Vp Fp].
  assert (Vh' : (B2R (@fhalf 24 128 _ _) = IZR 13176795 * / IZR 8388608)%R) by exact Vh.
  assert (Vp' : (B2R f32_pi = IZR 13176795 * / IZR 4194304)%R) by exact Vp.
  exists f32_pi, (fatan2 y x). split; [reflexivity|]. split; [apply atan2_float_eq|].
  apply (quadrant_float (prec := 24) (emax := 128) ltac:(lia) ltac:(lia)); auto.
  - rewrite Vh'. lra.
  - change (B2R f32_pi = 2 * B2R (@fhalf 24 128 _ _))%R. rewrite Vh', Vp'. lra.
  - unfold fhalf. apply Bdiv_opp_l.
Qed.
Lemma quadrant_f64 : @quadrant_claims 53 1024 _ _.
Proof.
  intros y x Fy Fx Y0. destruct f64_half_val as [Vh Fh]. destruct f64_pi_val as [Vp Fp].
  assert (Vh' : (B2R (@fhalf 53 1024 _ _) = IZR 7074237752028440 * / IZR 4503599627370496)%R) by exact Vh.
  assert (Vp' : (B2R f64_pi = IZR 7074237752028440 * / IZR 2251799813685248)%R) by exact Vp.
  exists f64_pi, (fatan2 y x). split; [reflexivity|]. split; [apply atan2_float_eq|].
  apply (quadrant_float (prec := 53) (emax := 1024) ltac:(lia) ltac:(lia)); auto.
  - rewrite Vh'. lra.
  - change (B2R f64_pi = 2 * B2R (@fhalf 53 1024 _ _))%R. rewrite Vh', Vp'. lra.
  - unfold fhalf. apply Bdiv_opp_l.
Qed.
Definition inf_claims {prec emax : Z} {Hp : Prec_gt_0 prec} {He : Prec_lt_emax prec emax} : Prop :=
  forall y x : binary_float prec emax, (forall s, y <> B754_zero s) -> (forall s, x <> B754_zero s) ->
  (is_finite y = false \/ is_finite x = false) -> exists r, float_atan2_poly y x = Ok r /\ is_nan r = true.
Lemma inf_any : forall {prec emax : Z} {Hp : Prec_gt_0 prec} {He : Prec_lt_emax prec emax}, 24 <= prec <= 100 -> prec + 20 <= emax <= 2000 ->
  @inf_claims prec emax Hp He.
Proof.
  intros prec emax Hp He P E y x Y X I. exists (fatan2 y x). split; [apply atan2_float_eq|].
  assert (Z : forall z : binary_float prec emax, (forall s, z <> B754_zero s) -> o_eq float_ops z fzero = false).
  { intros z N. destruct z as [s|[]| |[] ? ? ?]; try reflexivity. exfalso. eapply N; eauto. }
  assert (NN : forall (c1 c2 c3 : bool) (a b d : binary_float prec emax),
    is_nan (if c1 then if c2 then Bplus mode_NE a B754_nan else B754_nan else if c3 then Bplus mode_NE b B754_nan else Bminus mode_NE d B754_nan) = true).
  { intros. destruct c1, c2, c3, a, b, d; reflexivity. }
  destruct (is_nan y) eqn:Ny; [|destruct (is_nan x) eqn:Nx].
  - unfold fatan2. rewrite (Z y Y), (Z x X). destruct y; try discriminate.
    assert (N1 : @fp1 prec emax Hp He B754_nan x = B754_nan) by (unfold fp1; destruct x; reflexivity).
    assert (N2 : @fp2 prec emax Hp He B754_nan x = B754_nan) by (unfold fp2; destruct x; reflexivity).
    rewrite N1, N2. apply NN.
  - unfold fatan2. rewrite (Z y Y), (Z x X). destruct x; try discriminate.
    assert (N1 : @fp1 prec emax Hp He y B754_nan = B754_nan) by (unfold fp1; destruct y; reflexivity).
    assert (N2 : @fp2 prec emax Hp He y B754_nan = B754_nan) by (unfold fp2; destruct y; reflexivity).
    rewrite N1, N2. apply NN.
  - apply inf_nan; auto.
Qed.
Lemma inf_f32 : @inf_claims 24 128 _ _. Proof. apply inf_any; lia. Qed.
Lemma inf_f64 : @inf_claims 53 1024 _ _. Proof. apply inf_any; lia. Qed.
