(** * Conversions between polar and Cartesian form, and the operators built on them. *)

From Coq Require Import ZArith Reals Lia Lra Psatz List Bool.
From Flocq Require Import Core.Core IEEE754.BinarySingleNaN.
From Verif Require Import Base FloatBase Literals Traits Trig IntImpl FixedPrim FixedImpl FloatImpl Complex Spec SpecAngle SpecPolar
  Lemmas ScalarProofs ScalarProofs2 WrapProofs WrapProofs2 SinReal SinFixed TrigProofs MagProofs.
Open Scope Z_scope.

(** ** real analysis *)
Lemma cos_lipschitz : forall x y, (Rabs (Rtrigo_def.cos x - Rtrigo_def.cos y) <= Rabs (x - y))%R.
Proof.
  intros x y. rewrite <- (sin_shift x), <- (sin_shift y). eapply Rle_trans; [apply sin_lipschitz|].
  replace (PI / 2 - x - (PI / 2 - y))%R with (- (x - y))%R by ring. rewrite Rabs_Ropp. lra.
Qed.
Lemma sin_turns : forall x k, (Rtrigo_def.sin (x + 2 * IZR k * PI) = Rtrigo_def.sin x)%R.
Proof.
  intros x k. destruct (Z_le_dec 0 k) as [L|L].
  - rewrite <- (sin_period x (Z.to_nat k)). rewrite INR_IZR_INZ, Z2Nat.id by auto. reflexivity.
  - rewrite <- (sin_period (x + 2 * IZR k * PI) (Z.to_nat (- k))). rewrite INR_IZR_INZ, Z2Nat.id, opp_IZR by lia. f_equal. ring.
Qed.
Lemma cos_turns : forall x k, (Rtrigo_def.cos (x + 2 * IZR k * PI) = Rtrigo_def.cos x)%R.
Proof.
  intros x k. rewrite <- (sin_shift x), <- (sin_shift (x + _)).
  rewrite <- (sin_turns (PI / 2 - x) (- k)). f_equal. rewrite opp_IZR. ring.
Qed.

(** ** fixed-point products *)
Lemma fval_mul : forall f a b, 0 <= ffrac f -> (- ulp f < fval f (a * b / fone f) - fval f a * fval f b <= 0)%R.
Proof.
  intros f a b F. rewrite !fval_eq, ulp_eq by auto. pose proof (fone_IZR_pos f F) as Q.
  pose proof (floor_real (a * b) (fone f) (fone_pos f F)) as [L U]. rewrite mult_IZR in *.
  set (g := IZR (a * b / fone f)) in *. set (q := IZR (fone f)) in *. set (x := IZR a) in *. set (y := IZR b) in *.
  assert (I : (0 < / q)%R) by (apply Rinv_0_lt_compat; auto).
  replace (g / q - x / q * (y / q))%R with ((g - x * y / q) * / q)%R by (field; lra).
  split; [|apply Rmult_le_reg_r with q; auto; rewrite Rmult_assoc, Rinv_l by lra; lra].
  apply Rmult_lt_reg_r with q; auto. rewrite Rmult_assoc, Rinv_l by lra. rewrite <- Ropp_mult_distr_l, Rinv_l by lra. lra.
Qed.
Lemma fmul_ok : forall m f a b, fwf f -> fsigned f = true -> (Rabs (fval f a * fval f b) <= fval f (fmax f))%R ->
  fx_mul m f a b = Ok (a * b / fone f) /\ (Rabs (fval f (a * b / fone f) - fval f a * fval f b) < ulp f)%R.
Proof.
  intros m f a b W S H. pose proof (fval_mul f a b (proj1 W)) as [L U]. split.
  - unfold fx_mul. apply fx_fin_ok. apply fvalid_iff. rewrite S. rewrite (fmax_signed f) in H by auto.
    apply Rabs_le_inv in H. set (g := a * b / fone f) in *. destruct H as [H1 H2].
    assert (Ub : (ulp f = fval f 1)%R) by (unfold ulp, fval; rewrite Rmult_1_l; reflexivity). rewrite Ub in L.
    assert (A : (fval f g <= fval f (2 ^ (fwidth f - 1) - 1))%R) by lra. apply fval_le in A; [|apply W].
    assert (B : (fval f (- 2 ^ (fwidth f - 1)) <= fval f g)%R).
    { replace (- 2 ^ (fwidth f - 1)) with (- (2 ^ (fwidth f - 1) - 1) - 1) by lia. unfold fval in *.
      rewrite minus_IZR, opp_IZR. lra. }
    apply fval_le in B; [|apply W]. lia.
  - assert (0 < ulp f)%R by (unfold ulp; apply bpow_gt_0). apply Rabs_def1; lra.
Qed.

(** ** the wrapped angle *)
Section Fix.
Variable m : mode.
Variable f : fty.
Hypothesis W : fwf f.
Hypothesis S : fsigned f = true.
Hypothesis M : m = Release \/ ffrac f <= fwidth f - 4.
Notation p := (pi_bits f).
Notation turn := (ulp f + 2 / 1000000000000000)%R.

Lemma pi_fval : (Rabs (fval f p - PI) <= turn / 2)%R /\ (3 <= fval f p < 4)%R.
Proof using W.
  pose proof (pi_real f W) as P. pose proof (pi_bits_bounds f W) as [B1 B2]. pose proof (fone_IZR_pos f (proj1 W)) as Q.
  rewrite !fval_eq, ulp_eq by apply W. apply IZR_le in B1. apply IZR_lt in B2. rewrite mult_IZR in B1, B2.
  assert (I : (0 < / IZR (fone f))%R) by (apply Rinv_0_lt_compat; auto).
  split; [|split].
  - replace (IZR p / IZR (fone f) - PI)%R with ((IZR p - PI * IZR (fone f)) * / IZR (fone f))%R by (field; lra).
    rewrite Rabs_mult, (Rabs_pos_eq (/ _)) by lra.
    replace ((/ IZR (fone f) + 2 / 1000000000000000) / 2)%R with ((/ 2 + / 1000000000000000 * IZR (fone f)) * / IZR (fone f))%R by (field; lra).
    apply Rmult_le_compat_r; lra.
  - apply Rmult_le_reg_r with (IZR (fone f)); auto. unfold Rdiv. rewrite Rmult_assoc, Rinv_l by lra. lra.
  - apply Rmult_lt_reg_r with (IZR (fone f)); auto. unfold Rdiv. rewrite Rmult_assoc, Rinv_l by lra. lra.
Qed.

Lemma fval_Zmul : forall k a, (fval f (k * a) = IZR k * fval f a)%R.
Proof. intros. unfold fval. rewrite mult_IZR. ring. Qed.
Lemma fval_sub : forall a b, (fval f (a - b) = fval f a - fval f b)%R.
Proof. intros. unfold fval. rewrite minus_IZR. ring. Qed.
Lemma fval_opp : forall a, (fval f (- a) = - fval f a)%R.
Proof. intros. unfold fval. rewrite opp_IZR. ring. Qed.

Lemma wrapped : forall a, fvalid f a -> exists r,
  returns (fun fuel => mixed_wrap_phase (fixed_wrap_phase m f fuel) a) r /\ fvalid f r /\ (Rabs (fval f r) <= fval f p)%R /\
  (- fval f p <= fval f a < fval f p -> r = a)%R /\
  exists k, (Rabs (fval f r + 2 * IZR k * PI - fval f a) <= (Rabs (fval f a) / 6 + / 2) * turn)%R.
Proof.
  intros a V. destruct (wrap_phase_fixed m f W S M a V) as [r [R [T1 [k T2]]]].
  exists r. split; [exact R|]. destruct pi_fval as [P1 [P2 P3]].
  assert (T1' : - p <= r < p) by exact T1.
  assert (B : (Rabs (fval f r) <= fval f p)%R).
  { rewrite fval_abs by apply W. apply fval_le; [apply W|]. lia. }
  split.
  { apply fvalid_iff. rewrite S. pose proof (pi_bits_bounds f W). pose proof (fone_le_max f W). pose proof (fone_pos f (proj1 W)). lia. }
  split; [exact B|]. split.
  { intros [H1 H2]. rewrite <- fval_opp in H1. apply fval_le in H1; [|apply W].
    assert (H3 : a < p) by (apply Z.nle_gt; intros H; apply fval_le with (f := f) in H; [lra|apply W]).
    assert (E : k = 0) by (pose proof (pi_bits_bounds f W); pose proof (fone_pos f (proj1 W)); nia). subst k. lia. }
  exists k. assert (E : (fval f r = fval f a - IZR k * (2 * fval f p))%R).
  { rewrite <- (fval_Zmul 2), <- fval_Zmul, <- fval_sub. f_equal. lia. }
  replace (fval f r + 2 * IZR k * PI - fval f a)%R with (- (IZR k * (2 * (fval f p - PI))))%R by (rewrite E; ring).
  rewrite Rabs_Ropp, Rabs_mult.
  assert (K : (Rabs (IZR k) <= Rabs (fval f a) / 6 + / 2)%R).
  { assert (A : (Rabs (IZR k) * (2 * fval f p) <= Rabs (fval f a) + fval f p)%R).
    { replace (Rabs (IZR k) * (2 * fval f p))%R with (Rabs (IZR k * (2 * fval f p))) by (rewrite Rabs_mult, (Rabs_pos_eq (2 * _)) by lra; reflexivity).
      replace (IZR k * (2 * fval f p))%R with (fval f a + - fval f r)%R by (rewrite E; ring).
      eapply Rle_trans; [apply Rabs_triang|]. rewrite Rabs_Ropp. lra. }
    pose proof (Rabs_pos (fval f a)). set (x := Rabs (IZR k)) in *. set (y := Rabs (fval f a)) in *.
    assert (X : (0 <= x)%R) by apply Rabs_pos.
    destruct (Rle_dec x (/ 2)) as [L|L]; [lra|].
    assert (((x - / 2) * 6 <= (x - / 2) * (2 * fval f p))%R) by (apply Rmult_le_compat_l; lra). lra. }
  apply Rmult_le_compat; auto using Rabs_pos. rewrite Rabs_mult, (Rabs_pos_eq 2) by lra. lra.
Qed.

Definition ops_tc (Sn : MixedSin Z) (q : Polar Z) (fuel : nat) := ops_to_cartesian (fixed_ops m f) (fixed_wrap_phase m f fuel) Sn q.

(** the error of the angle reduction *)
Definition slip (a : R) : R := ((Rabs a / 6 + / 2) * turn)%R.

Lemma slip_pos : forall a, (0 <= slip a)%R.
Proof using. intros. unfold slip. assert (0 < ulp f)%R by (unfold ulp; apply bpow_gt_0). pose proof (Rabs_pos a).
  apply Rmult_le_pos; lra. Qed.

Lemma trig_err : forall a r k v, (Rabs (r + 2 * IZR k * PI - a) <= v ->
  Rabs (Rtrigo_def.sin r - Rtrigo_def.sin a) <= v /\ Rabs (Rtrigo_def.cos r - Rtrigo_def.cos a) <= v)%R.
Proof using.
  intros a r k v H. split.
  - rewrite <- (sin_turns r k). eapply Rle_trans; [apply sin_lipschitz|auto].
  - rewrite <- (cos_turns r k). eapply Rle_trans; [apply cos_lipschitz|auto].
Qed.

(** a product with a factor known to within [d] *)
Lemma scaled : forall g s d t, (Rabs t <= 1 -> Rabs (fval f s - t) <= d -> Rabs (fval f g) * (1 + d) <= fval f (fmax f) ->
  fx_mul m f g s = Ok (g * s / fone f)%Z /\ Rabs (fval f (g * s / fone f)%Z - fval f g * t) <= Rabs (fval f g) * d + ulp f)%R.
Proof using W S.
  clear M. intros g s d t T D B. pose proof (Rabs_pos (fval f g)) as G.
  assert (X : (Rabs (fval f s) <= 1 + d)%R).
  { replace (fval f s) with (t + (fval f s - t))%R by ring. eapply Rle_trans; [apply Rabs_triang|]. lra. }
  destruct (fmul_ok m f g s W S) as [E V].
  { rewrite Rabs_mult. eapply Rle_trans; [|exact B]. apply Rmult_le_compat_l; auto. }
  split; auto. replace (fval f (g * s / fone f)%Z - fval f g * t)%R with
    ((fval f (g * s / fone f)%Z - fval f g * fval f s) + fval f g * (fval f s - t))%R by ring.
  eapply Rle_trans; [apply Rabs_triang|]. rewrite Rabs_mult.
  assert (Rabs (fval f g) * Rabs (fval f s - t) <= Rabs (fval f g) * d)%R by (apply Rmult_le_compat_l; auto). lra.
Qed.

Lemma abs_sin : forall x, (Rabs (Rtrigo_def.sin x) <= 1)%R.
Proof using. intros. apply Rabs_le. apply SIN_bound. Qed.
Lemma abs_cos : forall x, (Rabs (Rtrigo_def.cos x) <= 1)%R.
Proof using. intros. apply Rabs_le. apply COS_bound. Qed.

Lemma tc_acc : forall Sn d, accurate_sincos f (fval f p) d Sn -> forall q, fvalid f (ang q) ->
  (Rabs (fval f (mag q)) * (1 + d) <= fval f (fmax f))%R ->
  exists z, returns (ops_tc Sn q) z /\
  (let B := (Rabs (fval f (mag q)) * (d + slip (fval f (ang q))) + ulp f)%R in
   Rabs (fval f (re z) - fval f (mag q) * Rtrigo_def.cos (fval f (ang q))) <= B /\
   Rabs (fval f (im z) - fval f (mag q) * Rtrigo_def.sin (fval f (ang q))) <= B)%R /\
  (- fval f p <= fval f (ang q) < fval f p ->
   let B := (Rabs (fval f (mag q)) * d + ulp f)%R in
   Rabs (fval f (re z) - fval f (mag q) * Rtrigo_def.cos (fval f (ang q))) <= B /\
   Rabs (fval f (im z) - fval f (mag q) * Rtrigo_def.sin (fval f (ang q))) <= B)%R.
Proof.
  intros Sn d AS q V Bd. destruct (wrapped (ang q) V) as [r [[n0 R] [Vr [Br [Rid [k K]]]]]].
  destruct (AS r Vr Br) as [s [c [E [Es Ec]]]].
  destruct (scaled (mag q) c d _ (abs_cos _) Ec Bd) as [E1 A1].
  destruct (scaled (mag q) s d _ (abs_sin _) Es Bd) as [E2 A2].
  exists (mkC (mag q * c / fone f) (mag q * s / fone f)). cbn [re im].
  split.
  { exists n0. intros n Hn. unfold ops_tc, ops_to_cartesian. rewrite (R n Hn). cbn [bind]. rewrite E. cbn [bind fst snd o_mul fixed_ops].
    rewrite E1. cbn [bind]. rewrite E2. reflexivity. }
  split; [|intros Hr; rewrite (Rid Hr) in *; auto].
  fold (slip (fval f (ang q))) in K. apply trig_err in K. destruct K as [Ks Kc].
  pose proof (Rabs_pos (fval f (mag q))) as G.
  set (g := fval f (mag q)) in *. set (a := fval f (ang q)) in *. set (x := fval f (mag q * c / fone f)%Z) in *. set (y := fval f (mag q * s / fone f)%Z) in *.
  cbv zeta. split.
  - replace (x - g * Rtrigo_def.cos a)%R with ((x - g * Rtrigo_def.cos (fval f r)) + g * (Rtrigo_def.cos (fval f r) - Rtrigo_def.cos a))%R by ring.
    eapply Rle_trans; [apply Rabs_triang|]. rewrite Rabs_mult. pose proof (Rmult_le_compat_l _ _ _ G Kc). lra.
  - replace (y - g * Rtrigo_def.sin a)%R with ((y - g * Rtrigo_def.sin (fval f r)) + g * (Rtrigo_def.sin (fval f r) - Rtrigo_def.sin a))%R by ring.
    eapply Rle_trans; [apply Rabs_triang|]. rewrite Rabs_mult. pose proof (Rmult_le_compat_l _ _ _ G Ks). lra.
Qed.
End Fix.

(** ** there and back *)
Lemma returns_bind2 : forall A B (f : nat -> res A) (g : nat -> A -> res B) a b, returns f a -> returns (fun n => g n a) b ->
  returns (fun n => bind (f n) (g n)) b.
Proof.
  intros A B f g a b [n1 H1] [n2 H2]. exists (n1 + n2)%nat. intros n Hn. rewrite H1 by lia. cbn [bind]. apply H2. lia.
Qed.
Lemma slip_angle : forall f a th e, (- PI < th <= PI -> Rabs (a - th) <= e -> slip f a <= (2 + e) * (ulp f + 2 / 1000000000000000))%R.
Proof.
  intros f a th e T E. unfold slip. assert (0 < ulp f)%R by (unfold ulp; apply bpow_gt_0).
  apply Rmult_le_compat_r; [lra|]. pose proof pi_bounds. apply Rabs_le_inv in E.
  assert (Rabs a <= 32 / 10 + e)%R by (apply Rabs_le; lra). pose proof (Rabs_pos a). lra.
Qed.

Lemma polar_parts : forall m f A z mg a, returns (fun fuel => cartesian_mag (fixed_ops m f) (fixed_sqrt m f fuel) (fixed_powi m f) z) mg ->
  mixed_atan2 A (im z) (re z) = Ok a ->
  returns (fun fuel => ops_to_polar (fixed_ops m f) (fixed_sqrt m f fuel) (fixed_powi m f) A z) (mkP mg a).
Proof.
  intros m f A z mg a [n0 R] E. exists n0. intros n Hn. specialize (R n Hn). unfold ops_to_polar.
  change (ops_abs (fixed_ops m f) (fixed_sqrt m f n) (fixed_powi m f) z) with (cartesian_mag (fixed_ops m f) (fixed_sqrt m f n) (fixed_powi m f) z).
  rewrite R. cbn [bind]. rewrite E. reflexivity.
Qed.

Lemma angle_radius : forall y x th, is_angle y x th ->
  (x = sqrt (x * x + y * y) * Rtrigo_def.cos th /\ y = sqrt (x * x + y * y) * Rtrigo_def.sin th)%R.
Proof.
  intros y x th [_ [rho [P [Hx Hy]]]].
  assert (E : (sqrt (x * x + y * y) = rho)%R).
  { apply sqrt_lem_1; [nra | lra |]. rewrite Hx, Hy. pose proof (sin2_cos2 th) as T. unfold Rsqr in T.
    replace (rho * Rtrigo_def.cos th * (rho * Rtrigo_def.cos th) + rho * Rtrigo_def.sin th * (rho * Rtrigo_def.sin th))%R with
      (rho * rho * (Rtrigo_def.sin th * Rtrigo_def.sin th + Rtrigo_def.cos th * Rtrigo_def.cos th))%R by ring. rewrite T. ring. }
  rewrite E. split; auto.
Qed.

(** the error of [to_polar]'s magnitude *)
Definition mag_err (f : fty) (rho : R) : R := ((/ 1000 + 5 * ulp f) * rho + 3 * ulp f + sqrt (2 * ulp f))%R.

Lemma roundtrip : forall m f, supported f = true -> fsigned f = true -> 2 <= ffrac f <= fwidth f - 4 ->
  forall p, mixed_pi (fixed_pi m f) = Ok p -> forall Sn d A z th a e,
  let rho := sqrt (fval f (re z) * fval f (re z) + fval f (im z) * fval f (im z)) in
  accurate_sincos f (fval f p) d Sn ->
  is_angle (fval f (im z)) (fval f (re z)) th -> mixed_atan2 A (im z) (re z) = Ok a -> fvalid f a -> (Rabs (fval f a - th) <= e)%R ->
  (rho * rho <= fval f (fmax f) -> (rho + mag_err f rho) * (1 + d) <= fval f (fmax f) ->
  exists w, returns (fun fuel => q <- ops_to_polar (fixed_ops m f) (fixed_sqrt m f fuel) (fixed_powi m f) A z ;;
     ops_to_cartesian (fixed_ops m f) (fixed_wrap_phase m f fuel) Sn q) w /\
   let B := mag_err f rho + (rho + mag_err f rho) * (d + e + (2 + e) * (ulp f + 2 / 1000000000000000)) + ulp f in
   Rabs (fval f (re w) - fval f (re z)) <= B /\ Rabs (fval f (im w) - fval f (im z)) <= B)%R.
Proof.
  intros m f Hf S F p Hp Sn d A z th a e rho AS HA E Va He N Bd.
  pose proof (supported_fwf f Hf) as W. rewrite fixed_pi_eq in Hp by auto. injection Hp as <-.
  assert (D0 : (0 <= d)%R).
  { destruct (AS 0) as (s & c & _ & X & _); [apply zero_in_range; apply fwf_width; auto | |eapply Rle_trans; [apply Rabs_pos|exact X]].
    destruct (pi_fval f W). unfold fval at 1. rewrite Rmult_0_l, Rabs_R0. lra. }
  destruct (angle_radius _ _ _ HA) as [Xr Yr]. fold rho in Xr, Yr.
  destruct (fixed_mag_acc m f z Hf S F) as [mg [R Em]].
  { fold rho in N. unfold rho in N. rewrite sqrt_sqrt in N; [exact N|]. pose proof (Rle_0_sqr (fval f (re z))) as X1. pose proof (Rle_0_sqr (fval f (im z))) as X2. unfold Rsqr in *. lra. }
  fold rho in Em. fold (mag_err f rho) in Em.
  assert (R0 : (0 <= rho)%R) by apply sqrt_pos.
  assert (Mb : (Rabs (fval f mg) <= rho + mag_err f rho)%R).
  { apply Rabs_le_inv in Em. assert (0 <= mag_err f rho)%R by lra. apply Rabs_le. lra. }
  destruct (tc_acc m f W S ltac:(right; lia) Sn d AS (mkP mg a) Va) as [w [Rw [[B1 B2] _]]].
  { cbn [mag]. eapply Rle_trans; [|exact Bd]. apply Rmult_le_compat_r; lra. }
  cbn [mag ang] in *. exists w. split.
  { eapply returns_bind2; [eapply polar_parts; [exact R|exact E]|exact Rw]. }
  pose proof (slip_angle f (fval f a) th e (proj1 HA) He) as SL.
  pose proof (Rabs_pos (fval f mg)) as G. pose proof (slip_pos f (fval f a)) as SP.
  destruct (trig_err (fval f a) th 0 e) as [Ts Tc]. { replace (th + 2 * 0 * PI - fval f a)%R with (- (fval f a - th))%R by ring. rewrite Rabs_Ropp. auto. }
  assert (E0 : (0 <= e)%R) by (eapply Rle_trans; [apply Rabs_pos|exact He]).
  assert (X : (Rabs (fval f mg) * (d + slip f (fval f a)) + Rabs (fval f mg) * e <= (rho + mag_err f rho) * (d + e + (2 + e) * (ulp f + 2 / 1000000000000000)))%R).
  { rewrite <- Rmult_plus_distr_l. apply Rmult_le_compat; lra. }
  cbv zeta. clearbody rho. split.
  - replace (fval f (re w) - fval f (re z))%R with ((fval f (re w) - fval f mg * Rtrigo_def.cos (fval f a))
      + (- (fval f mg * (Rtrigo_def.cos th - Rtrigo_def.cos (fval f a))) + (fval f mg - rho) * Rtrigo_def.cos th))%R by (rewrite Xr; ring).
    eapply Rle_trans; [apply Rabs_triang|]. eapply Rle_trans; [apply Rplus_le_compat; [exact B1|apply Rabs_triang]|].
    rewrite Rabs_Ropp, !Rabs_mult. pose proof (Rmult_le_compat_l _ _ _ G Tc) as Y1. pose proof (abs_cos th) as Y2.
    assert (Rabs (fval f mg - rho) * Rabs (Rtrigo_def.cos th) <= mag_err f rho * 1)%R by (apply Rmult_le_compat; auto using Rabs_pos). lra.
  - replace (fval f (im w) - fval f (im z))%R with ((fval f (im w) - fval f mg * Rtrigo_def.sin (fval f a))
      + (- (fval f mg * (Rtrigo_def.sin th - Rtrigo_def.sin (fval f a))) + (fval f mg - rho) * Rtrigo_def.sin th))%R by (rewrite Yr; ring).
    eapply Rle_trans; [apply Rabs_triang|]. eapply Rle_trans; [apply Rplus_le_compat; [exact B2|apply Rabs_triang]|].
    rewrite Rabs_Ropp, !Rabs_mult. pose proof (Rmult_le_compat_l _ _ _ G Ts) as Y1. pose proof (abs_sin th) as Y2.
    assert (Rabs (fval f mg - rho) * Rabs (Rtrigo_def.sin th) <= mag_err f rho * 1)%R by (apply Rmult_le_compat; auto using Rabs_pos). lra.
Qed.
