(** * The NIIRF square root on fixed-point types: the loops of the code. *)

From Coq Require Import ZArith Reals Lia Lra Psatz List Bool.
From Flocq Require Import Core.Core IEEE754.BinarySingleNaN.
From Verif Require Import Base FloatBase Literals Traits Trig FixedPrim FixedImpl Spec
  Lemmas ScalarProofs ScalarProofs2 WrapProofs SqrtReal NiirfZ NiirfFixed.
Open Scope Z_scope.

Section Fmt.
Variables (m : mode) (f : fty).
Hypothesis W : fwf f.
Notation q := (fone f).
Notation O := (fixed_ops m f).

Lemma q_pos : 0 < q. Proof. apply fone_pos. apply W. Qed.

Lemma fv_small : forall z, 0 <= z < 4 * q -> fvalid f z.
Proof.
  intros z Hz. apply fvalid_iff. pose proof (fone_le_max f W). pose proof (half_le_full (fwidth f) ltac:(destruct W; lia)).
  destruct (fsigned f); lia.
Qed.
Lemma fv_small_s : fsigned f = true -> forall z, - 4 * q <= z < 4 * q -> fvalid f z.
Proof.
  intros S z Hz. apply fvalid_iff. pose proof (fone_le_max f W). rewrite S. lia.
Qed.

Lemma mul_int : forall a k, a * (k * q) / q = a * k.
Proof. intros. rewrite Z.mul_assoc. apply Z.div_mul. pose proof q_pos. lia. Qed.
Lemma div_int : forall a k, 0 <= a -> 0 < k -> Z.quot (a * q) (k * q) = a / k.
Proof.
  intros a k Ha Hk. pose proof q_pos. rewrite Z.quot_div_nonneg by nia. apply Z.div_mul_cancel_r; lia.
Qed.

(** ** one update *)
Definition body (X : Z) (y : Z) : res Z :=
  b <- beta O X ;; y2 <- mixed_powi (fixed_powi m f) y 2 ;; d <- o_sub O X y2 ;; p <- o_mul O b d ;; o_add O p y.

Lemma sq_eq : forall y, mixed_powi (fixed_powi m f) y 2 = fx_mul m f y y.
Proof.
  intros y. cbn [mixed_powi fixed_powi]. rewrite to_N_usize_nonneg by lia.
  change (Z.to_N 2) with (N.succ (N.succ 0)). rewrite powi_succ. reflexivity.
Qed.

Lemma beta_bits_range : forall X, 0 <= beta_bits f X <= q.
Proof.
  intros X. unfold beta_bits.
  repeat match goal with |- context [if ?c then _ else _] => destruct c end; apply unit_lit; try apply W; unit_val.
Qed.

Lemma body_ok : forall X y, fsigned f = true -> 0 <= X < q -> small q y ->
  body X y = Ok (zstep q (beta_bits f X) X y).
Proof.
  intros X y S HX [Y0 Y1]. unfold body. rewrite beta_eq by auto. cbn [bind]. rewrite sq_eq.
  pose proof q_pos as P. pose proof (beta_bits_range X) as B. set (b := beta_bits f X) in *.
  assert (D0 : 0 <= y * y / q <= 2 * q).
  { split; [apply Z.div_pos; nia|]. apply Z.div_le_upper_bound; nia. }
  assert (Y2 : y <= 2 * q) by nia.
  unfold fx_mul. rewrite fx_fin_ok by (apply fv_small; lia). cbn [bind].
  cbn [o_sub o_mul o_add fixed_ops]. unfold fx_sub. rewrite fx_fin_ok by (apply fv_small_s; auto; lia). cbn [bind].
  set (d := X - y * y / q). 
  assert (E0 : - 2 * q <= b * d / q <= q).
  { split; [apply Z.div_le_lower_bound; nia | apply Z.div_le_upper_bound; unfold d; nia]. }
  unfold fx_mul. rewrite fx_fin_ok by (apply fv_small_s; auto; lia). cbn [bind].
  unfold fx_add. rewrite fx_fin_ok by (apply fv_small_s; auto; lia). reflexivity.
Qed.

(** in debug builds whatever is returned is the exact iteration, signed or not *)
Lemma body_inv : forall X y r, m = Debug -> body X y = Ok r -> r = zstep q (beta_bits f X) X y.
Proof.
  intros X y r Em H. unfold body in H. rewrite beta_eq in H by auto. cbn [bind] in H. rewrite sq_eq in H.
  binv H. binv H. binv H. cbn [o_sub o_mul o_add fixed_ops] in *. unfold fx_mul, fx_sub, fx_add, fx_fin in *. rewrite Em in *.
  apply fin_debug_inv in E, E0, E1, H. destruct E, E0, E1, H. subst. reflexivity.
Qed.

Lemma start_ok : forall X, 0 <= X < q ->
  (two <- o_of_i32 O 2 ;; tx <- o_mul O two X ;; three <- o_of_i32 O 3 ;; qq <- o_div O tx three ;;
   c <- o_of_f64 O lit_y0 ;; o_add O qq c) = Ok (start f X).
Proof.
  intros X HX. pose proof q_pos as P. cbn [o_of_i32 o_mul o_div o_of_f64 o_add fixed_ops].
  rewrite fx_of_int_small by (auto; lia). cbn [bind]. unfold fx_mul. 
  replace (2 * q * X) with (X * (2 * q)) by ring. rewrite mul_int. replace (X * 2) with (2 * X) by ring.
  rewrite fx_fin_ok by (apply fv_small; lia). cbn [bind].
  rewrite fx_of_int_small by (auto; lia). cbn [bind].
  unfold fx_div. destruct (Z.eqb_spec (3 * q) 0); [lia|]. rewrite div_int by lia.
  assert (D : 0 <= 2 * X / 3 <= q) by (split; [apply Z.div_pos; lia | apply Z.div_le_upper_bound; lia]).
  rewrite fx_fin_ok by (apply fv_small; lia). cbn [bind].
  rewrite unit_lit_ok by (auto; unit_val). cbn [bind].
  pose proof (unit_lit f _ _ lit_y0 (proj1 W) ltac:(unit_val)).
  unfold fx_add, start. apply fx_fin_ok. apply fv_small. lia.
Qed.

Lemma iterate_unfold : forall it X, 0 <= X < q ->
  niirf_iterate O (fixed_powi m f) it X = for_n (it - 1) (body X) (start f X).
Proof.
  intros it X HX. pose proof (start_ok X HX) as S. unfold niirf_iterate. 
  repeat match type of S with bind ?e _ = _ => destruct e as [?| |]; cbn [bind] in S |- *; try discriminate end.
  rewrite S. reflexivity.
Qed.

Lemma iterate_ok : forall it X, fsigned f = true -> 2 <= ffrac f -> q <= 4 * X -> X < q ->
  niirf_iterate O (fixed_powi m f) it X = Ok (ziter (it - 1) q (beta_bits f X) X (start f X)).
Proof.
  intros it X S F L U. rewrite iterate_unfold by lia.
  destruct (for_total (body X) (fun i y => y = ziter i q (beta_bits f X) X (start f X)) (it - 1)) with (s := start f X)
    as [y [E I]].
  - intros i y _ ->. exists (zstep q (beta_bits f X) X (ziter i q (beta_bits f X) X (start f X))).
    split; [|symmetry; apply ziter_succ]. apply body_ok; auto; [lia|]. apply core; auto.
  - reflexivity.
  - rewrite E, I. reflexivity.
Qed.

Lemma iterate_inv : forall it X r, m = Debug -> 0 <= X < q ->
  niirf_iterate O (fixed_powi m f) it X = Ok r -> r = ziter (it - 1) q (beta_bits f X) X (start f X).
Proof.
  intros it X r Em HX H. rewrite iterate_unfold in H by auto.
  apply (for_inv (body X) (fun i y => y = ziter i q (beta_bits f X) X (start f X))) in H; auto.
  intros i s s' -> B. apply body_inv in B; auto. rewrite B. symmetry. apply ziter_succ.
Qed.

(** ** normalisation *)
Hypothesis F2 : 2 <= ffrac f.
Hypothesis V4 : fvalid f (4 * q).
Hypothesis W64 : fwidth f <= 64.

Lemma q_quarter : q = 4 * 2 ^ (ffrac f - 2).
Proof using F2. clear V4 W64 W. unfold fone. change 4 with (2 ^ 2). rewrite <- Z.pow_add_r by lia. f_equal. lia. Qed.
Lemma quarter_bits : o_of_f64 O lit_quarter = Ok (2 ^ (ffrac f - 2)).
Proof using W F2. clear V4 W64.
  cbn [o_of_f64 fixed_ops]. rewrite unit_lit_ok by (auto; unit_val). f_equal.
  apply fx_bits_exact; [lia|]. rewrite q_quarter, mult_IZR. unfold lit_quarter, B2R, F2R. cbn [Fnum Fexp cond_Zopp]. 
  change (bpow radix2 (-54)) with (/ IZR (2 ^ 54))%R. lra.
Qed.
Lemma one_bits : o_of_f64 O lit_one = Ok q.
Proof using W. clear F2 V4 W64.
  cbn [o_of_f64 fixed_ops]. rewrite unit_lit_ok by (auto; unit_val). f_equal.
  apply fx_bits_exact; [apply W|]. unfold lit_one, B2R, F2R. cbn [Fnum Fexp cond_Zopp]. 
  change (bpow radix2 (-52)) with (/ IZR (2 ^ 52))%R. lra.
Qed.
Lemma four_bits : o_of_i32 O 4 = Ok (4 * q).
Proof using V4. clear F2 W W64. cbn [o_of_i32 fixed_ops]. unfold fx_of_int. apply fx_fin_ok. exact V4. Qed.

Lemma i32_small : forall n, -100 <= n <= 100 -> fin m i32 n = Ok n.
Proof using Type. clear W F2 V4 W64. intros. apply fin_ok. unfold in_range, imin, imax. simpl. lia. Qed.

Lemma valid_lt : forall X, fvalid f X -> X < 2 ^ 64.
Proof using W W64. clear F2 V4.
  intros X V. apply fvalid_iff in V. assert (2 ^ fwidth f <= 2 ^ 64) by (apply Z.pow_le_mono_r; lia).
  pose proof (half_le_full (fwidth f) ltac:(destruct W; lia)). assert (0 < 2 ^ (fwidth f - 1)) by (apply Z.pow_pos_nonneg; destruct W; lia).
  destruct (fsigned f); lia.
Qed.

Lemma pow4_lt : forall j, 0 <= j -> 4 ^ j < 2 ^ 64 -> j < 32.
Proof using Type. clear W F2 V4 W64.
  intros j J H. destruct (Z_lt_le_dec j 32); auto. exfalso.
  assert (4 ^ 32 <= 4 ^ j) by (apply Z.pow_le_mono_r; lia). change (4 ^ 32) with (2 ^ 64) in *. lia.
Qed.

Definition cond1 := fun s : Z * Z => qq <- o_of_f64 O lit_quarter ;; Ok (o_lt O (snd s) qq).
Definition body1 := fun s : Z * Z => n <- fin m i32 (fst s - 1) ;;
                    four <- o_of_i32 O 4 ;; x <- o_mul O (snd s) four ;; Ok (n, x).
Definition cond2 := fun s : Z * Z => one <- o_of_f64 O lit_one ;; Ok (o_le O one (snd s)).
Definition body2 := fun s : Z * Z => n <- fin m i32 (fst s + 1) ;;
              four <- o_of_i32 O 4 ;; x <- o_div O (snd s) four ;; Ok (n, x).

Lemma o_lt_spec : forall a b, o_lt O a b = (a <? b).
Proof. intros. unfold o_lt, o_cmp, fixed_ops, fx_cmp, Z.ltb. destruct (a ?= b); reflexivity. Qed.
Lemma o_le_spec : forall a b, o_le O a b = (a <=? b).
Proof. intros. unfold o_le, o_cmp, fixed_ops, fx_cmp, Z.leb. destruct (a ?= b); reflexivity. Qed.
Lemma o_eq_spec : forall a b, o_eq O a b = (a =? b).
Proof. intros. unfold o_eq, o_cmp, fixed_ops, fx_cmp. rewrite Z.eqb_compare. destruct (a ?= b); reflexivity. Qed.

Lemma loop1 : forall X fuel, 0 < X -> X < 2 ^ 64 -> (33 < fuel)%nat ->
  exists n x, while fuel cond1 body1 (0, X) = Ok (n, x) /\ -32 <= n <= 0 /\ x = X * 4 ^ (- n) /\ q <= 4 * x /\ (n < 0 -> x < q).
Proof.
  intros X fuel X0 X64 Hf. pose proof q_pos as P. pose proof q_quarter as Q4. set (h := 2 ^ (ffrac f - 2)) in *.
  assert (Qw : q < 2 ^ 62). { unfold fone. destruct W. apply Z.pow_lt_mono_r; lia. }
  destruct (while_total cond1 body1
    (fun s => -32 <= fst s <= 0 /\ snd s = X * 4 ^ (- fst s) /\ (fst s < 0 -> snd s < q))
    (fun s => Z.to_nat (33 + fst s))) with (n := fuel) (s := (0, X)) as [[n x] [E [[I1 [I2 I3]] C]]].
  - intros [n x] [I1 [I2 I3]]. cbn [fst snd] in *. unfold cond1, body1. rewrite quarter_bits. cbn [bind fst snd].
    rewrite o_lt_spec. fold h. destruct (Z.ltb_spec x h) as [L|L]; [right|left; reflexivity]. split; auto.
    assert (N32 : - n < 31).
    { assert (4 ^ (- n) < 2 ^ 62); [assert (0 < 4 ^ (- n)) by (apply Z.pow_pos_nonneg; lia); nia|].
      change (2 ^ 62) with (4 ^ 31) in *. apply Z.pow_lt_mono_r_iff in H; lia. }
    exists (n - 1, 4 * x). rewrite i32_small by lia. rewrite four_bits. cbn [bind]. cbn [o_mul fixed_ops]. unfold fx_mul.
    rewrite mul_int. assert (0 < x) by (rewrite I2; apply Z.mul_pos_pos; auto; apply Z.pow_pos_nonneg; lia).
    rewrite fx_fin_ok by (apply fv_small; lia). cbn [bind fst snd]. split; [f_equal; f_equal; ring|].
    split; [split; [lia|split]|lia].
    + replace (- (n - 1)) with (Z.succ (- n)) by lia. rewrite Z.pow_succ_r by lia. rewrite I2. ring.
    + lia.
  - cbn [fst snd]. split; [lia|]. split; [|lia]. change (4 ^ (- 0)) with 1. lia.
  - cbn [fst]. lia.
  - cbn [fst snd] in *. exists n, x. split; auto. split; auto. split; auto. split; auto.
    unfold cond1 in C. rewrite quarter_bits in C. cbn [bind fst snd] in C. rewrite o_lt_spec in C. 
    inversion C as [C']. rewrite C' in *. apply Z.ltb_ge in C'. fold h in C'. lia.
Qed.

Lemma fv_le : forall a b, 0 <= a <= b -> fvalid f b -> fvalid f a.
Proof using Type. clear W F2 V4 W64. intros a b H V. rewrite fvalid_iff in *. destruct (fsigned f); lia. Qed.

Lemma loop2 : forall X fuel, fvalid f X -> q <= 4 * X -> X < 2 ^ 64 -> (33 < fuel)%nat -> forall n0, -32 <= n0 <= 0 ->
  exists j x, while fuel cond2 body2 (n0, X) = Ok (n0 + j, x) /\ 0 <= j <= 33 /\ x = X / 4 ^ j /\ q <= 4 * x /\ x < q.
Proof.
  intros X fuel VX L U Hf n0 N0. pose proof q_pos as P. pose proof q_quarter as Q4. set (h := 2 ^ (ffrac f - 2)) in *.
  destruct (while_total cond2 body2
    (fun s => 0 <= fst s - n0 <= 33 /\ snd s = X / 4 ^ (fst s - n0) /\ q <= 4 * snd s)
    (fun s => Z.to_nat (33 - (fst s - n0)))) with (n := fuel) (s := (n0, X)) as [[n x] [E [[I1 [I2 I3]] C]]].
  - intros [n x] [I1 [I2 I3]]. cbn [fst snd] in *. unfold cond2, body2. rewrite one_bits. cbn [bind fst snd].
    rewrite o_le_spec. destruct (Z.leb_spec q x) as [G|G]; [right|left; reflexivity]. split; auto.
    assert (P4 : 0 < 4 ^ (n - n0)) by (apply Z.pow_pos_nonneg; lia).
    assert (N32 : n - n0 < 32).
    { apply pow4_lt; [lia|]. assert (X / 4 ^ (n - n0) * 4 ^ (n - n0) <= X) by (rewrite Z.mul_comm; apply Z.mul_div_le; auto). 
      rewrite <- I2 in H. nia. }
    exists (n + 1, x / 4). rewrite i32_small by lia. rewrite four_bits. cbn [bind]. cbn [o_div fixed_ops]. unfold fx_div.
    destruct (Z.eqb_spec (4 * q) 0); [lia|]. rewrite div_int by lia.
    assert (x / 4 <= x / 1) by (apply Z.div_le_compat_l; lia). rewrite Z.div_1_r in H.
    assert (Vx : fvalid f (x / 4)).
    { assert (x <= X) by (rewrite I2; apply Z.div_le_upper_bound; nia).  apply (fv_le _ X); auto. assert (0 <= x / 4) by (apply Z.div_pos; lia). lia. }
    rewrite fx_fin_ok by auto. cbn [bind fst snd]. split; auto.
    split; [split; [lia|split]|lia].
    + replace (n + 1 - n0) with (Z.succ (n - n0)) by lia. rewrite Z.pow_succ_r by lia. rewrite I2, Z.div_div by lia. f_equal. ring.
    + assert (h <= x / 4) by (apply Z.div_le_lower_bound; lia). lia.
  - cbn [fst snd]. rewrite Z.sub_diag. change (4 ^ 0) with 1. rewrite Z.div_1_r. lia.
  - cbn [fst]. lia.
  - cbn [fst snd] in *. exists (n - n0), x. split; [rewrite E; f_equal; f_equal; lia|]. split; auto. split; auto. split; auto.
    unfold cond2 in C. rewrite one_bits in C. cbn [bind fst snd] in C. rewrite o_le_spec in C. 
    inversion C as [C']. apply Z.leb_gt in C'. lia.
Qed.
(** ** undoing the normalisation *)
Definition cond3 := fun s : Z * Z => a <- fin m i32 (Z.abs (fst s)) ;; Ok (negb (a =? 0)).
Definition body3 := fun s : Z * Z => 
  if 0 <? fst s then
    two <- o_of_i32 O 2 ;; y <- o_mul O (snd s) two ;; n <- fin m i32 (fst s - 1) ;; Ok (n, y)
  else if fst s <? 0 then
    two <- o_of_i32 O 2 ;; y <- o_div O (snd s) two ;; n <- fin m i32 (fst s + 1) ;; Ok (n, y)
  else Ok s.
Definition scaled (n y : Z) : Z := if 0 <=? n then y * 2 ^ n else y / 2 ^ (- n).

Lemma loop3 : forall n y fuel, -100 <= n <= 100 -> 0 <= y -> fvalid f y -> fvalid f (scaled n y) -> (100 < fuel)%nat ->
  while fuel cond3 body3 (n, y) = Ok (0, scaled n y).
Proof using W. clear F2 V4 W64.
  intros n y fuel Hn Y V V' Hf. pose proof q_pos as P.
  destruct (while_total cond3 body3
    (fun s => -100 <= fst s <= 100 /\ 0 <= snd s /\ fvalid f (snd s) /\ scaled (fst s) (snd s) = scaled n y)
    (fun s => Z.to_nat (Z.abs (fst s)))) with (n := fuel) (s := (n, y)) as [[n' y'] [E [[I1 [I2 [I3 I4]]] C]]].
  - intros [k x] [I1 [I2 [I3 I4]]]. cbn [fst snd] in *. unfold cond3, body3. cbn [fst snd]. rewrite i32_small by lia. cbn [bind].
    destruct (Z.eqb_spec (Z.abs k) 0) as [K|K]; [left; reflexivity|right; split; [reflexivity|]].
    assert (TWO : o_of_i32 O 2 = Ok (2 * q)) by (cbn [o_of_i32 fixed_ops]; apply fx_of_int_small; auto; lia).
    destruct (Z.ltb_spec 0 k).
    + exists (k - 1, x * 2). rewrite TWO. cbn [bind]. cbn [o_mul fixed_ops]. unfold fx_mul. rewrite mul_int.
      assert (K4 : x * 2 ^ k = scaled n y) by (rewrite <- I4; unfold scaled; destruct (Z.leb_spec 0 k); [reflexivity|lia]).
      assert (PP : 2 ^ k = 2 * 2 ^ (k - 1)) by (rewrite <- Z.pow_succ_r by lia; f_equal; lia).
      assert (0 < 2 ^ (k - 1)) by (apply Z.pow_pos_nonneg; lia).
      assert (Vx : fvalid f (x * 2)).
      { apply (fv_le _ (scaled n y)); auto. rewrite <- K4, PP. nia. }
      rewrite fx_fin_ok by auto. rewrite i32_small by lia. cbn [bind fst snd]. split; auto.
      split; [|lia]. split; [lia|]. split; [lia|]. split; auto. rewrite <- K4. unfold scaled.
      destruct (Z.leb_spec 0 (k - 1)); [|lia]. rewrite PP. ring.
    + destruct (Z.ltb_spec k 0); [|lia]. exists (k + 1, x / 2). rewrite TWO. cbn [bind]. cbn [o_div fixed_ops]. unfold fx_div.
      destruct (Z.eqb_spec (2 * q) 0); [lia|]. rewrite div_int by lia.
      assert (D : 0 <= x / 2 <= x) by (split; [apply Z.div_pos; lia | apply Z.div_le_upper_bound; lia]).
      assert (Vx : fvalid f (x / 2)) by (apply (fv_le _ x); auto).
      rewrite fx_fin_ok by auto. rewrite i32_small by lia. cbn [bind fst snd]. split; auto.
      split; [|lia]. split; [lia|]. split; [lia|]. split; auto. rewrite <- I4. unfold scaled.
      destruct (Z.leb_spec 0 k); [lia|].
      replace (- k) with (Z.succ (- (k + 1))) by lia. rewrite Z.pow_succ_r by lia. 
      rewrite <- Z.div_div by (try apply Z.pow_pos_nonneg; lia).
      destruct (Z.leb_spec 0 (k + 1)); [|reflexivity]. replace (k + 1) with 0 by lia. cbn. rewrite Z.div_1_r. ring.
  - cbn [fst snd]. auto.
  - cbn [fst]. lia.
  - cbn [fst snd] in *. unfold cond3 in C. rewrite i32_small in C by (cbn [fst]; lia). cbn [bind fst] in C. inversion C as [C'].
    apply negb_false_iff, Z.eqb_eq in C'. assert (n' = 0) by lia. subst n'. rewrite E. rewrite <- I4.
    unfold scaled. cbn. rewrite Z.mul_1_r. reflexivity.
Qed.

(** normalised value and exponent of a positive value *)
Definition normed (X n X' : Z) : Prop :=
  -32 <= n <= 33 /\ q <= 4 * X' /\ X' < q /\
  ((n < 0 /\ X' = X * 4 ^ (- n)) \/ (0 <= n /\ X' = X / 4 ^ n)).

Lemma normalize_ok : forall X, 0 < X -> fvalid f X -> exists n X', normed X n X' /\
  forall fuel, (33 < fuel)%nat -> niirf_normalize O m fuel (0, X) = Ok (n, X').
Proof using W F2 V4 W64.
  intros X X0 V. pose proof (valid_lt X V) as X64.
  destruct (loop1 X 34 X0 X64 ltac:(lia)) as [n1 [x1 [E1 [N1 [Hx1 [L1 U1]]]]]].
  assert (Vx1 : fvalid f x1).
  { destruct (Z_lt_le_dec n1 0) as [L|L].
    - apply fv_small. pose proof q_pos. specialize (U1 L). lia.
    - replace n1 with 0 in Hx1 by lia. change (4 ^ (- 0)) with 1 in Hx1. replace x1 with X by lia. exact V. }
  destruct (loop2 x1 34 Vx1 L1 (valid_lt _ Vx1) ltac:(lia) n1 N1) as [j [x2 [E2 [J [Hx2 [L2 U2]]]]]].
  exists (n1 + j), x2. split.
  - unfold normed. 
    destruct (Z_lt_le_dec n1 0) as [L|L].
    + assert (j = 0).
      { destruct (Z.eq_dec j 0); auto. exfalso. specialize (U1 L). 
        assert (4 ^ 1 <= 4 ^ j) by (apply Z.pow_le_mono_r; lia).
        assert (x1 / 4 ^ j <= x1 / 4) by (apply Z.div_le_compat_l; lia).
        assert (x1 / 4 < x2); [|lia]. apply Z.div_lt_upper_bound; lia. }
      subst j. change (4 ^ 0) with 1 in Hx2. rewrite Z.div_1_r in Hx2. subst x2.
      split; [lia|]. split; [lia|]. split; [lia|]. left. rewrite Z.add_0_r. auto.
    + assert (n1 = 0) by lia. subst n1. change (4 ^ (- 0)) with 1 in Hx1. rewrite Z.mul_1_r in Hx1. subst x1.
      rewrite Z.add_0_l. split; [lia|]. split; [lia|]. split; [lia|]. right. auto with zarith.
  - intros fuel Hf. unfold niirf_normalize. fold cond1 body1 cond2 body2.
    rewrite (while_mono cond1 body1 34 (0, X) _ E1) by (try discriminate; lia). cbn [bind].
    apply (while_mono cond2 body2 34 (n1, x1) _ E2); [discriminate|lia].
Qed.

(** the doubled result fits *)
Lemma scaled_valid : forall X n X' y, fvalid f X -> 0 < X -> normed X n X' -> small q y -> fvalid f (scaled n y).
Proof using W V4. clear F2 W64.
  intros X n X' y V X0 [N [L [U D]]] [Y0 Y1]. pose proof q_pos as P. pose proof (fone_le_max f W) as Q4.
  assert (Yq : y < 2 * q) by nia.
  unfold scaled. destruct (Z.leb_spec 0 n) as [G|G].
  - destruct D as [[D _]|[_ D]]; [lia|].
    assert (P4 : 0 < 4 ^ n) by (apply Z.pow_pos_nonneg; lia). assert (P2 : 0 < 2 ^ n) by (apply Z.pow_pos_nonneg; lia).
    assert (PP : 4 ^ n = 2 ^ n * 2 ^ n) by (rewrite <- Z.pow_mul_l; reflexivity).
    assert (XX : X' * 4 ^ n <= X) by (rewrite D, Z.mul_comm; apply Z.mul_div_le; auto).
    assert (SQ : (y * 2 ^ n) * (y * 2 ^ n) <= 8 * q * X).
    { replace (y * 2 ^ n * (y * 2 ^ n)) with (y * y * 4 ^ n) by (rewrite PP; ring).
      assert (y * y * 4 ^ n <= 2 * q * q * 4 ^ n) by nia.
      assert (q * 4 ^ n <= 4 * X) by nia. nia. }
    assert (exists M, 8 * q * X < M * M /\ 0 <= M /\ (forall z, 0 <= z < M -> fvalid f z)) as [M [M1 [M2 M3]]].
    { apply fvalid_iff in V. pose proof V4 as V4'. apply fvalid_iff in V4'. destruct W as [W0 W1].
      pose proof (half_le_full (fwidth f) ltac:(lia)) as HF.
      destruct (fsigned f) eqn:S.
      - exists (2 ^ (fwidth f - 1)). set (M := 2 ^ (fwidth f - 1)) in *. 
        assert (8 * q <= M).
        { assert (ffrac f + 2 < fwidth f - 1).
          { apply (Z.pow_lt_mono_r_iff 2); try lia. fold M. rewrite Z.pow_add_r by lia. fold q. change (2 ^ 2) with 4. fold (fone f). lia. }
          unfold M, fone. change 8 with (2 ^ 3). rewrite <- Z.pow_add_r by lia. apply Z.pow_le_mono_r; lia. }
        split; [nia|]. split; [lia|]. intros z Hz. apply fvalid_iff. rewrite S. fold M. lia.
      - exists (2 ^ fwidth f). set (M := 2 ^ fwidth f) in *. 
        assert (8 * q <= M) by lia.
        split; [nia|]. split; [lia|]. intros z Hz. apply fvalid_iff. rewrite S. fold M. lia. }
    apply M3. split; [nia|]. nia.
  - apply fv_small. assert (P2 : 0 < 2 ^ (- n)) by (apply Z.pow_pos_nonneg; lia).
    split; [apply Z.div_pos; lia|]. apply Z.div_lt_upper_bound; nia.
Qed.

Lemma small_valid : forall y, small q y -> fvalid f y.
Proof using W. clear F2 V4 W64. intros y [Y0 Y1]. pose proof q_pos. apply fv_small. nia. Qed.

Definition NI (fuel : nat) (X : Z) (it : N) : res Z :=
  niirf O (fixed_zero m f) (fixed_abs m f) (fixed_powi m f) m fuel X it.

Lemma niirf_zero : forall fuel it, NI fuel 0 it = Ok 0.
Proof using W. clear F2 V4 W64.
  intros. unfold NI, niirf. cbn [mixed_zero fixed_zero]. rewrite fx_of_int_small by (auto; lia). cbn [bind].
  rewrite o_eq_spec. reflexivity.
Qed.

Lemma niirf_unfold : forall X fuel it n X', 0 < X -> fvalid f X -> (33 < fuel)%nat ->
  niirf_normalize O m fuel (0, X) = Ok (n, X') ->
  NI fuel X it = bind (niirf_iterate O (fixed_powi m f) it X')
                   (fun y => bind (niirf_denormalize O m fuel (n, y)) (fun s => Ok (snd s))).
Proof using W. clear F2 V4 W64.
  intros X fuel it n X' X0 V Hf E. unfold NI, niirf. cbn [mixed_zero fixed_zero]. rewrite fx_of_int_small by (auto; lia). cbn [bind].
  rewrite o_eq_spec. destruct (Z.eqb_spec X (0 * q)); [lia|]. 
  rewrite fixed_abs_spec; auto.
  2:{ intros [S E']. unfold fmin, imin in E'. simpl in E'. rewrite S in E'. 
      assert (0 < 2 ^ (fwidth f - 1)) by (apply Z.pow_pos_nonneg; destruct W; lia). lia. }
  rewrite Z.abs_eq by lia. cbn [bind]. rewrite E. cbn [bind fst snd]. reflexivity.
Qed.

Lemma niirf_signed : forall X it, fsigned f = true -> 0 < X -> fvalid f X ->
  exists n X', normed X n X' /\ forall fuel, (100 < fuel)%nat ->
    NI fuel X it = Ok (scaled n (ziter (it - 1) q (beta_bits f X') X' (start f X'))).
Proof.
  intros X it S X0 V. destruct (normalize_ok X X0 V) as [n [X' [N E]]]. exists n, X'. split; auto.
  intros fuel Hf. rewrite (niirf_unfold X fuel it n X' X0 V ltac:(lia) (E fuel ltac:(lia))).
  pose proof N as [N1 [L [U _]]]. rewrite iterate_ok by auto. cbn [bind].
  destruct (core f X' (it - 1) F2 L U) as [Sm _]. set (y := ziter _ _ _ _ _) in *.
  unfold niirf_denormalize. fold cond3 body3. 
  rewrite loop3; [reflexivity|lia|apply Sm|apply small_valid; auto| |lia].
  eapply scaled_valid; eauto.
Qed.

Lemma niirf_debug_inv : forall X it fuel r, m = Debug -> 0 < X -> fvalid f X -> (100 < fuel)%nat -> 
  NI fuel X it = Ok r -> exists n X', normed X n X' /\ 
  r = scaled n (ziter (it - 1) q (beta_bits f X') X' (start f X')).
Proof.
  intros X it fuel r Em X0 V Hf H. destruct (normalize_ok X X0 V) as [n [X' [N E]]]. exists n, X'. split; auto.
  rewrite (niirf_unfold X fuel it n X' X0 V ltac:(lia) (E fuel ltac:(lia))) in H.
  pose proof N as [N1 [L [U _]]]. binv H.
  apply iterate_inv in E0; auto; [|pose proof q_pos; lia]. 
  destruct (core f X' (it - 1) F2 L U) as [Sm _]. rewrite <- E0 in *.
  unfold niirf_denormalize in H. fold cond3 body3 in H.
  rewrite loop3 in H; [inversion H; reflexivity|lia|apply Sm|apply small_valid; auto| |lia].
  eapply scaled_valid; eauto.
Qed.
End Fmt.
