(** * Radix formats, width and flags. *)

From Coq Require Import ZArith Lia List Bool String Ascii.
From Verif Require Import Base Traits IntImpl Complex Display Spec SpecDisplay SpecRadix Lemmas ScalarProofs2 DisplayProofs.
Import ListNotations.
Open Scope string_scope.
Open Scope Z_scope.

Lemma digit_ok : forall up d, 0 <= d < 16 -> digit_val (digit up d) = Some d /\ calm (digit up d) /\ (digit up d = "0"%char -> d = 0) /\
  (Z.of_N (N_of_ascii (digit up d)) <= 57 \/ if up then Z.of_N (N_of_ascii (digit up d)) <= 90 else 97 <= Z.of_N (N_of_ascii (digit up d))).
Proof.
  intros up d H. assert (C : d = 0 \/ d = 1 \/ d = 2 \/ d = 3 \/ d = 4 \/ d = 5 \/ d = 6 \/ d = 7 \/ d = 8 \/ d = 9 \/ d = 10 \/ d = 11 \/ d = 12 \/ d = 13 \/ d = 14 \/ d = 15) by lia.
  unfold calm. repeat (destruct C as [->|C]; [destruct up; vm_compute; intuition congruence|]). subst d. destruct up; vm_compute; intuition congruence.
Qed.

Section B.
Variables (b : Z) (up : bool).
Hypothesis B : 2 <= b <= 16.

Lemma digits_len : forall k n a, (String.length a <= String.length (digits b up k n a))%nat.
Proof using.
  induction k as [|k IH]; intros n a; cbn [digits]; [lia|]. destruct (n / b =? 0); [cbn; lia|].
  specialize (IH (n / b) (String (digit up (n mod b)) a)). cbn [String.length] in IH. lia.
Qed.
Lemma digits_read : forall k n acc, 0 <= n < b ^ Z.of_nat k -> (0 < k)%nat ->
  forall v, read_from b v (digits b up k n acc) = read_from b (v * b ^ Z.of_nat (String.length (digits b up k n acc) - String.length acc) + n) acc.
Proof using B.
  induction k as [|k IH]; intros n acc N K v; [lia|]. cbn [digits].
  assert (M : 0 <= n mod b < b) by (apply Z.mod_pos_bound; lia). destruct (digit_ok up (n mod b) ltac:(lia)) as [D _].
  assert (E : n = b * (n / b) + n mod b) by (apply Z.div_mod; lia). assert (Q : 0 <= n / b) by (apply Z.div_pos; lia).
  destruct (Z.eqb_spec (n / b) 0) as [Z|Z].
  - cbn [read_from String.length]. rewrite D. destruct (Z.ltb_spec (n mod b) b); [|lia].
    replace (Datatypes.S (String.length acc) - String.length acc)%nat with 1%nat by lia. f_equal. change (Z.of_nat 1) with 1. rewrite Z.pow_1_r. lia.
  - assert (N' : 0 <= n / b < b ^ Z.of_nat k).
    { split; auto. apply Z.div_lt_upper_bound; [lia|]. rewrite <- Z.pow_succ_r by lia. rewrite <- Nat2Z.inj_succ. lia. }
    assert (K' : (0 < k)%nat). { destruct k; [|lia]. change (Z.of_nat 0) with 0 in N'. rewrite Z.pow_0_r in N'. lia. }
    rewrite IH by auto. cbn [read_from]. rewrite D. destruct (Z.ltb_spec (n mod b) b); [|lia]. f_equal.
    set (dg := digits b up k (n / b) (String (digit up (n mod b)) acc)).
    assert (L : (Datatypes.S (String.length acc) <= String.length dg)%nat).
    { unfold dg. pose proof (digits_len k (n / b) (String (digit up (n mod b)) acc)) as G. cbn [String.length] in G. lia. }
    cbn [String.length]. replace (String.length dg - String.length acc)%nat with (Datatypes.S (String.length dg - Datatypes.S (String.length acc))) by lia.
    rewrite Nat2Z.inj_succ, Z.pow_succ_r by lia. set (P := b ^ _). clearbody P. clear - E. set (q := n / b) in *. set (r := n mod b) in *. clearbody q r. subst n. ring.
Qed.
Lemma digits_calm : forall k n acc, 0 <= n -> text_all calm acc -> text_all calm (digits b up k n acc).
Proof using B.
  induction k as [|k IH]; intros n acc N C; cbn [digits]; auto.
  assert (M : 0 <= n mod b < b) by (apply Z.mod_pos_bound; lia). destruct (digit_ok up (n mod b) ltac:(lia)) as [_ [D _]].
  destruct (n / b =? 0); [split; auto|]. apply IH; [apply Z.div_pos; lia|]. split; auto.
Qed.
Lemma digits_cased : forall k n acc, 0 <= n -> cased up acc -> cased up (digits b up k n acc).
Proof using B.
  induction k as [|k IH]; intros n acc N C; cbn [digits]; auto.
  assert (M : 0 <= n mod b < b) by (apply Z.mod_pos_bound; lia). destruct (digit_ok up (n mod b) ltac:(lia)) as (_ & _ & _ & D).
  destruct (n / b =? 0); [split; auto|]. apply IH; [apply Z.div_pos; lia|]. split; auto.
Qed.
(** the first digit is not zero unless the number is *)
Lemma digits_head : forall k n acc, 0 <= n < b ^ Z.of_nat k -> (0 < k)%nat ->
  exists c s, digits b up k n acc = String c s /\ (c = "0"%char -> n = 0 /\ s = acc).
Proof using B.
  induction k as [|k IH]; intros n acc N K; [lia|]. cbn [digits].
  assert (M : 0 <= n mod b < b) by (apply Z.mod_pos_bound; lia). destruct (digit_ok up (n mod b) ltac:(lia)) as (_ & _ & D & _).
  assert (E : n = b * (n / b) + n mod b) by (apply Z.div_mod; lia). assert (Q : 0 <= n / b) by (apply Z.div_pos; lia).
  destruct (Z.eqb_spec (n / b) 0) as [Z|Z].
  - eexists _, _. split; [reflexivity|]. intros C. apply D in C. split; auto. lia.
  - assert (N' : 0 <= n / b < b ^ Z.of_nat k).
    { split; auto. apply Z.div_lt_upper_bound; [lia|]. rewrite <- Z.pow_succ_r by lia. rewrite <- Nat2Z.inj_succ. lia. }
    assert (K' : (0 < k)%nat). { destruct k; [|lia]. change (Z.of_nat 0) with 0 in N'. rewrite Z.pow_0_r in N'. lia. }
    destruct (IH (n / b) (String (digit up (n mod b)) acc) N' K') as (c & s & H & G). exists c, s. split; auto. intros C. apply G in C. tauto.
Qed.

Lemma radix_ok : forall t p z, 0 < iwidth t -> 0 <= z < 2 ^ iwidth t ->
  read b (radix_show t b up p z) = Some z /\ (tidy (radix_show t b up p z) /\ cased up (radix_show t b up p z)) /\ text_all calm (radix_show t b up p z) /\ radix_show t b up p z <> "".
Proof using B.
  intros t p z W R. unfold radix_show. rewrite Z.mod_small by auto.
  assert (K : (0 < Z.to_nat (iwidth t))%nat) by lia.
  assert (N : 0 <= z < b ^ Z.of_nat (Z.to_nat (iwidth t))).
  { rewrite Z2Nat.id by lia. split; [lia|]. eapply Z.lt_le_trans; [apply R|]. apply Z.pow_le_mono_l; lia. }
  destruct (digits_head _ z "" N K) as (c & s & E & H). pose proof (digits_read _ z "" N K 0) as RD. rewrite Z.mul_0_l, Z.add_0_l in RD. cbn [read_from] in RD.
  pose proof (digits_calm (Z.to_nat (iwidth t)) z "" ltac:(lia) I) as C. pose proof (digits_cased (Z.to_nat (iwidth t)) z "" ltac:(lia) I) as CS. rewrite E in *.
  split; [exact RD|]. split; [split; [|exact CS]|split; [exact C | congruence]].
  unfold tidy. destruct c as [[] [] [] [] [] [] [] []]; auto. destruct s; auto. destruct H as [_ H]; [reflexivity|discriminate].
Qed.
End B.

(** ** radix text of integers *)
Lemma mag_word : forall m t c, In t int_types -> in_range t c -> m = Release \/ (isigned t = true -> c <> imin t) ->
  exists r, (if c <? 0 then fin m t (0 - c) else Ok c) = Ok r /\ r mod 2 ^ iwidth t = Z.abs c /\ Z.abs c < 2 ^ iwidth t.
Proof.
  intros m t c T R D. pose proof (int_types_width t T) as W. assert (P : 2 ^ iwidth t = 2 * 2 ^ (iwidth t - 1)) by (rewrite <- Z.pow_succ_r by lia; f_equal; lia).
  assert (0 < 2 ^ (iwidth t - 1)) by (apply Z.pow_pos_nonneg; lia).
  assert (A : Z.abs c < 2 ^ iwidth t) by (unfold in_range, imin, imax in R; destruct (isigned t); lia).
  destruct (Z.ltb_spec c 0) as [N|N].
  - rewrite Z.sub_0_l. destruct (in_rangeb t (- c)) eqn:I.
    + apply in_rangeb_spec in I. exists (- c). rewrite fin_ok by auto. split; auto. rewrite Z.mod_small by lia. lia.
    + assert (E : isigned t = true /\ c = imin t).
      { apply in_rangeb_false in I. unfold in_range, imin, imax in *. destruct (isigned t); [split; auto; lia | lia]. }
      destruct E as [S E]. destruct D as [->|D]; [|exfalso; exact (D S E)]. rewrite fin_release by lia. exists (wrap t (- c)). split; auto.
      destruct (wrap_congr t ltac:(lia) (- c)) as [k ->]. rewrite Z.mod_add by lia. rewrite Z.mod_small by lia. lia.
  - exists c. rewrite Z.mod_small by lia. repeat split; lia.
Qed.

Lemma radix_write : forall m t b up std f pre z, In t int_types -> 2 <= b <= 16 -> cvalid t z -> m = Release \/ showable t z ->
  write_complex (int_ops m t) (int_zero t) (radix_show t b up) std f pre z =
  Ok (fmt_re_im std f pre (zneg (re z)) (zneg (im z)) (radix_show t b up None (Z.abs (re z))) (radix_show t b up None (Z.abs (im z)))).
Proof.
  intros m t b up std f pre [u v] T B [V1 V2] S. cbn [re im] in *. unfold write_complex. rewrite int_zero_ok by auto. cbn [bind re im]. rewrite !int_lt.
  change (o_sub (int_ops m t) 0 u) with (fin m t (0 - u)). change (o_sub (int_ops m t) 0 v) with (fin m t (0 - v)).
  assert (D : forall c, c = u \/ c = v -> m = Release \/ (isigned t = true -> c <> imin t)).
  { intros c C. destruct S as [S|[_ S]]; auto. right. intros I. destruct (S I). cbn [re im] in *. destruct C; subst; auto. }
  destruct (mag_word m t u T V1 (D u (or_introl eq_refl))) as (r & -> & R & LR). destruct (mag_word m t v T V2 (D v (or_intror eq_refl))) as (i & -> & I & LI).
  cbn [bind]. fold (zneg u) (zneg v). f_equal. unfold radix_show. rewrite R, I, !(Z.mod_small (Z.abs _)) by lia. reflexivity.
Qed.

Lemma radix_text : forall m t b up std z, In t int_types -> 2 <= b <= 16 -> cvalid t z -> m = Release \/ showable t z ->
  exists r i, write_complex (int_ops m t) (int_zero t) (radix_show t b up) std plain_spec "" z =
    Ok ((if re z <? 0 then "-" else "") ++ r ++ (if im z <? 0 then "-" else "+") ++ i ++ "i") /\
  read b r = Some (Z.abs (re z)) /\ read b i = Some (Z.abs (im z)) /\ tidy r /\ tidy i /\ cased up r /\ cased up i.
Proof.
  intros m t b up std z T B V S. exists (radix_show t b up None (Z.abs (re z))), (radix_show t b up None (Z.abs (im z))).
  rewrite radix_write by auto. pose proof (int_types_width t T) as W.
  assert (A : forall c, in_range t c -> 0 <= Z.abs c < 2 ^ iwidth t).
  { intros c C. destruct (mag_word Release t c T C (or_introl eq_refl)) as (? & _ & _ & L). lia. }
  destruct V as [V1 V2].
  destruct (radix_ok b up B t None (Z.abs (re z)) ltac:(lia) (A _ V1)) as (R1 & R2 & _). destruct (radix_ok b up B t None (Z.abs (im z)) ltac:(lia) (A _ V2)) as (I1 & I2 & _).
  split; [|tauto]. f_equal. rewrite fmt_re_im_eq. unfold fmt_complex, sign_text, im_sign, zneg. cbn [f_alternate f_sign_plus f_width plain_spec append].
  destruct std, (im z <? 0); reflexivity.
Qed.
Lemma radix_inj : forall m t b up std f pre z1 z2 s, In t int_types -> 2 <= b <= 16 -> text_all calm pre -> cvalid t z1 -> cvalid t z2 ->
  m = Release \/ (showable t z1 /\ showable t z2) ->
  write_complex (int_ops m t) (int_zero t) (radix_show t b up) std f pre z1 = Ok s ->
  write_complex (int_ops m t) (int_zero t) (radix_show t b up) std f pre z2 = Ok s -> z1 = z2.
Proof.
  intros m t b up std f pre z1 z2 s T B P V1 V2 S H1 H2. rewrite radix_write in H1, H2 by (auto; tauto).
  injection H1 as H1. injection H2 as H2. rewrite <- H1 in H2. symmetry in H2. pose proof (int_types_width t T) as W.
  assert (A : forall c, in_range t c -> 0 <= Z.abs c < 2 ^ iwidth t).
  { intros c C. destruct (mag_word Release t c T C (or_introl eq_refl)) as (? & _ & _ & L). lia. }
  destruct V1 as [V1 V1'], V2 as [V2 V2'].
  destruct (radix_ok b up B t None (Z.abs (re z1)) ltac:(lia) (A _ V1)) as (R1 & _ & C1 & N1).
  destruct (radix_ok b up B t None (Z.abs (re z2)) ltac:(lia) (A _ V2)) as (R2 & _ & C2 & N2).
  destruct (radix_ok b up B t None (Z.abs (im z1)) ltac:(lia) (A _ V1')) as (I1 & _).
  destruct (radix_ok b up B t None (Z.abs (im z2)) ltac:(lia) (A _ V2')) as (I2 & _).
  apply layout_inj in H2; auto. destruct H2 as (E1 & E2 & E3 & E4). rewrite E3 in R1. rewrite E4 in I1.
  assert (Z.abs (re z1) = Z.abs (re z2)) by congruence. assert (Z.abs (im z1) = Z.abs (im z2)) by congruence.
  destruct z1 as [a c], z2 as [a' c']. cbn [re im] in *. unfold zneg in *. f_equal; lia.
Qed.

(** ** width *)
Lemma spaces_blanks : forall n, spaces n = blanks n.
Proof. induction n; cbn; congruence. Qed.
Lemma spaces_len : forall n s, String.length (blanks n ++ s) = (n + String.length s)%nat.
Proof. induction n; intros; cbn; auto. Qed.
Definition no_width (f : fmt_spec) : fmt_spec := mkSpec (f_alternate f) (f_sign_plus f) (f_precision f) None.
Lemma width_all : forall T (O : MixedOps T) Z0 show f pre z w,
  f_width f = Some w ->
  (forall s, write_complex O Z0 show true f pre z = Ok s -> exists s0, write_complex O Z0 show true (no_width f) pre z = Ok s0 /\
     s = blanks (N.to_nat w - String.length s0) ++ s0 /\ String.length s = Nat.max (N.to_nat w) (String.length s0)) /\
  write_complex O Z0 show false f pre z = write_complex O Z0 show false (no_width f) pre z /\
  write_complex O Z0 show false f pre z = write_complex O Z0 show true (no_width f) pre z.
Proof.
  intros T O Z0 show f pre z w W. unfold write_complex.
  destruct (mixed_zero Z0) as [zz| |]; cbn [bind]; [|repeat split; discriminate..].
  destruct (if o_lt O (re z) zz then _ else _) as [r| |]; cbn [bind]; [|repeat split; discriminate..].
  destruct (if o_lt O (im z) zz then _ else _) as [i| |]; cbn [bind]; [|repeat split; discriminate..].
  rewrite !fmt_re_im_eq. unfold fmt_complex, sign_text. cbn [no_width f_alternate f_sign_plus f_precision f_width]. rewrite W.
  repeat split. intros s H. injection H as <-. eexists. split; [reflexivity|]. unfold pad_left. rewrite spaces_blanks. split; [reflexivity|]. rewrite spaces_len. lia.
Qed.

(** ** flags: full layout of the unpadded text *)
Lemma radix_flags : forall m t b up std f pre z, In t int_types -> 2 <= b <= 16 -> cvalid t z -> m = Release \/ showable t z -> f_width f = None ->
  exists r i, write_complex (int_ops m t) (int_zero t) (radix_show t b up) std f pre z =
    Ok ((if re z <? 0 then "-" else if f_sign_plus f then "+" else "") ++ (if f_alternate f then pre else "") ++ r ++
        (if im z <? 0 then "-" else "+") ++ (if f_alternate f then pre else "") ++ i ++ "i") /\
  read b r = Some (Z.abs (re z)) /\ read b i = Some (Z.abs (im z)) /\ tidy r /\ tidy i /\ cased up r /\ cased up i.
Proof.
  intros m t b up std f pre z T B V S F. exists (radix_show t b up None (Z.abs (re z))), (radix_show t b up None (Z.abs (im z))).
  rewrite radix_write by auto. pose proof (int_types_width t T) as W.
  assert (A : forall c, in_range t c -> 0 <= Z.abs c < 2 ^ iwidth t).
  { intros c C. destruct (mag_word Release t c T C (or_introl eq_refl)) as (? & _ & _ & L). lia. }
  destruct V as [V1 V2].
  destruct (radix_ok b up B t None (Z.abs (re z)) ltac:(lia) (A _ V1)) as (R1 & R2 & _). destruct (radix_ok b up B t None (Z.abs (im z)) ltac:(lia) (A _ V2)) as (I1 & I2 & _).
  split; [|tauto]. f_equal. rewrite fmt_re_im_eq. unfold fmt_complex, sign_text, im_sign, zneg. rewrite F.
  destruct std, (im z <? 0); rewrite !append_assoc; reflexivity.
Qed.
Lemma dec_flags : forall m t std f z, In t int_types -> showable t z -> f_width f = None ->
  write_complex (int_ops m t) (int_zero t) int_show std f "" z =
    Ok ((if re z <? 0 then "-" else if f_sign_plus f then "+" else "") ++ int_show None (Z.abs (re z)) ++
        (if im z <? 0 then "-" else "+") ++ int_show None (Z.abs (im z)) ++ "i").
Proof.
  intros m t std f z H S F. assert (W : 0 < iwidth t) by (apply int_types_width in H; lia). destruct (showable_neg t z W S) as [A B].
  rewrite (write_ok _ _ t m (int_lt m t) (fun a b => eq_refl) (int_zero_ok t H)) by auto.
  f_equal. rewrite fmt_re_im_eq. unfold fmt_complex, sign_text, im_sign, zneg. rewrite F.
  destruct std, (im z <? 0), (f_alternate f); cbn [append]; reflexivity.
Qed.
