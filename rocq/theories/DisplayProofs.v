(** * Display of complex numbers. *)

From Coq Require Import ZArith Reals Lia List Bool String Ascii Decimal DecimalString DecimalZ.
From Flocq Require Import Core.Core IEEE754.BinarySingleNaN.
From Verif Require Import Base FloatBase Traits Trig IntImpl FixedPrim FixedImpl FloatImpl Complex Display Spec SpecDisplay
  Lemmas ScalarProofs ScalarProofs2 FloatLemmas FloatProofs.
Open Scope string_scope.
Open Scope Z_scope.

(** ** text *)
Definition is_sign (c : ascii) : Prop := c = "+"%char \/ c = "-"%char.

Lemma append_assoc : forall a b c, (a ++ b) ++ c = a ++ (b ++ c).
Proof. induction a; intros; cbn; [auto | f_equal; auto]. Qed.
Lemma append_cancel : forall a b c, a ++ b = a ++ c -> b = c.
Proof. induction a; intros b c H; cbn in H; [auto | injection H; auto]. Qed.
Lemma append_cancel_r : forall t a b, String.length t = 1%nat -> a ++ t = b ++ t -> a = b.
Proof.
  assert (N : forall t s, s ++ t = "" -> t = "") by (intros t [|]; cbn; auto; discriminate).
  intros t a b L. revert b. induction a as [|c a IH]; intros [|d b] H; cbn in H; auto.
  - destruct t as [|x [|]]; try discriminate. injection H as _ H. apply eq_sym, N in H. discriminate.
  - destruct t as [|x [|]]; try discriminate. injection H as _ H. apply N in H. discriminate.
  - injection H as -> H. f_equal. auto.
Qed.
Lemma split_sign : forall a b c d r s, text_all calm a -> text_all calm b -> is_sign c -> is_sign d ->
  a ++ String c r = b ++ String d s -> a = b /\ c = d /\ r = s.
Proof.
  induction a as [|x a IH]; intros [|y b] c d r s A B C D H; cbn in H.
  - injection H. auto.
  - injection H as -> _. destruct B as [[B1 [B2 _]] _]. destruct C; congruence.
  - injection H as <- _. destruct A as [[A1 [A2 _]] _]. destruct D; congruence.
  - injection H as -> H. destruct (IH b c d r s) as (-> & -> & ->); auto; [apply A | apply B].
Qed.
Lemma text_all_app : forall P a b, text_all P a -> text_all P b -> text_all P (a ++ b).
Proof. induction a; cbn; intros; intuition. Qed.
Lemma pad_cancel : forall w a b, match a with "" => False | String c _ => c <> " "%char end -> match b with "" => False | String c _ => c <> " "%char end ->
  pad_left w a = pad_left w b -> a = b.
Proof.
  intros w a b A B. unfold pad_left. generalize (N.to_nat w - String.length a)%nat (N.to_nat w - String.length b)%nat.
  intros i. induction i as [|i IH]; intros [|j] H; cbn in H; auto.
  - destruct a; [contradiction|]. injection H as -> _. contradiction.
  - destruct b; [contradiction|]. injection H as <- _. contradiction.
  - injection H as H. eauto.
Qed.

(** ** the layout determines its parts *)
Definition sign_text (f : fmt_spec) (neg : bool) : string := if neg then "-" else if f_sign_plus f then "+" else "".
Definition im_sign (neg : bool) : ascii := if neg then "-"%char else "+"%char.
Lemma fmt_re_im_eq : forall std f pre rn im r i, fmt_re_im std f pre rn im r i =
  fmt_complex std f (sign_text f rn ++ ((if f_alternate f then pre else "") ++ r) ++ String (im_sign im) ((if f_alternate f then pre else "") ++ i ++ "i")).
Proof. intros. unfold fmt_re_im, sign_text. destruct im; rewrite append_assoc; reflexivity. Qed.
Lemma calm_head : forall s t, text_all calm s -> s <> "" -> match s ++ t with "" => False | String c _ => c <> " "%char end.
Proof. intros [|c s] t H N; [congruence|]. cbn. apply H. Qed.

Lemma layout_inj : forall std f pre rn1 im1 r1 i1 rn2 im2 r2 i2,
  text_all calm pre -> text_all calm r1 -> text_all calm r2 -> r1 <> "" -> r2 <> "" ->
  fmt_re_im std f pre rn1 im1 r1 i1 = fmt_re_im std f pre rn2 im2 r2 i2 ->
  rn1 = rn2 /\ im1 = im2 /\ r1 = r2 /\ i1 = i2.
Proof.
  intros std f pre rn1 im1 r1 i1 rn2 im2 r2 i2 P R1 R2 N1 N2 H. rewrite !fmt_re_im_eq in H.
  set (p := if f_alternate f then pre else "") in *. assert (Pp : text_all calm p) by (unfold p; destruct (f_alternate f); cbn; auto). clearbody p. clear P.
  assert (Q1 : text_all calm (p ++ r1)) by (apply text_all_app; auto). assert (Q2 : text_all calm (p ++ r2)) by (apply text_all_app; auto).
  assert (M1 : p ++ r1 <> "") by (destruct p, r1; cbn; congruence). assert (M2 : p ++ r2 <> "") by (destruct p, r2; cbn; congruence).
  assert (HE : sign_text f rn1 ++ (p ++ r1) ++ String (im_sign im1) (p ++ i1 ++ "i") = sign_text f rn2 ++ (p ++ r2) ++ String (im_sign im2) (p ++ i2 ++ "i")).
  { unfold fmt_complex in H. destruct std; auto. destruct (f_width f); auto. apply pad_cancel in H; auto.
    - unfold sign_text. destruct rn1; [cbn; congruence|]. destruct (f_sign_plus f); [cbn; congruence|]. apply (calm_head (p ++ r1)); auto.
    - unfold sign_text. destruct rn2; [cbn; congruence|]. destruct (f_sign_plus f); [cbn; congruence|]. apply (calm_head (p ++ r2)); auto. }
  clear H.
  assert (SI : forall b, is_sign (im_sign b)) by (intros []; unfold is_sign; auto).
  assert (FIN : (p ++ r1) ++ String (im_sign im1) (p ++ i1 ++ "i") = (p ++ r2) ++ String (im_sign im2) (p ++ i2 ++ "i") -> im1 = im2 /\ r1 = r2 /\ i1 = i2).
  { intros E. apply split_sign in E; auto. destruct E as (E1 & E2 & E3). apply append_cancel in E1. apply append_cancel in E3. apply append_cancel_r in E3; auto.
    destruct im1, im2; auto; discriminate. }
  assert (HD : forall q t, text_all calm q -> q <> "" -> forall s, is_sign s -> forall u, String s u <> q ++ t).
  { intros [|c q] t Hq Nq s S u E; [congruence|]. cbn in E. injection E as -> _. destruct Hq as [[A [B _]] _]. destruct S; congruence. }
  unfold sign_text in HE. destruct rn1, rn2; cbn in HE.
  - injection HE as HE. tauto.
  - exfalso. destruct (f_sign_plus f); cbn in HE; [discriminate|]. eapply HD; [| | |exact HE]; auto. right; auto.
  - exfalso. destruct (f_sign_plus f); cbn in HE; [discriminate|]. symmetry in HE. eapply HD; [| | |exact HE]; auto. right; auto.
  - destruct (f_sign_plus f); cbn in HE; [injection HE as HE|]; tauto.
Qed.

(** ** decimal integers *)
Lemma uint_digits : forall d, text_all calm (NilEmpty.string_of_uint d).
Proof. induction d; cbn; auto; split; auto; repeat split; congruence. Qed.
Lemma dec_pos : forall p z, 0 <= z -> text_all calm (int_show p z) /\ int_show p z <> "".
Proof.
  intros o z H. unfold int_show. destruct z as [|p|p]; [cbn; repeat split; congruence| |lia].
  cbn [Z.to_int NilZero.string_of_int]. destruct (Pos.to_uint p) eqn:E; cbn [NilZero.string_of_uint];
  try (split; [apply uint_digits | cbn; congruence]). cbn; repeat split; congruence.
Qed.
Lemma to_int_nonnil : forall z, Z.to_int z <> Pos Nil /\ Z.to_int z <> Neg Nil.
Proof.
  intros [|p|p]; cbn; split; try congruence; intros H; injection H as H; apply (DecimalPos.Unsigned.to_uint_nonnil p); auto.
Qed.
Lemma int_show_inj : forall p q a b, int_show p a = int_show q b -> a = b.
Proof.
  intros p q a b H. unfold int_show in H. apply to_int_inj.
  destruct (to_int_nonnil a) as [A1 A2], (to_int_nonnil b) as [B1 B2].
  pose proof (NilZero.isi (Z.to_int a) A1 A2) as A. pose proof (NilZero.isi (Z.to_int b) B1 B2) as B. congruence.
Qed.

(** ** integer and fixed components: values are integers, compared and negated as such *)
Definition zneg (z : Z) : bool := z <? 0.
Section Assemble.
Variables (O : MixedOps Z) (Z0 : MixedZero Z) (t : ity) (m : mode).
Hypothesis (LT : forall a b, o_lt O a b = (a <? b)) (SUB : forall a b, o_sub O a b = fin m t (a - b)) (ZERO : mixed_zero Z0 = Ok 0).
Variables (show : option N -> Z -> string) (std : bool).

Lemma write_ok : forall f pre z, (re z < 0 -> in_range t (- re z)) -> (im z < 0 -> in_range t (- im z)) ->
  write_complex O Z0 show std f pre z = Ok (fmt_re_im std f pre (zneg (re z)) (zneg (im z)) (show (f_precision f) (Z.abs (re z))) (show (f_precision f) (Z.abs (im z)))).
Proof using All.
  intros f pre [a b] A B. cbn [re im] in *. unfold write_complex. rewrite ZERO. cbn [bind re im]. rewrite !LT. fold (zneg a) (zneg b).
  assert (E : forall c, (c < 0 -> in_range t (- c)) -> (if zneg c then o_sub O 0 c else Ok c) = Ok (Z.abs c)).
  { intros c C. unfold zneg. destruct (Z.ltb_spec c 0).
    - rewrite SUB, Z.sub_0_l, fin_ok by auto. f_equal. lia.
    - f_equal. lia. }
  rewrite !E by auto. reflexivity.
Qed.
Lemma write_panic : forall f pre z, m = Debug -> (re z < 0 /\ ~ in_range t (- re z)) \/ (im z < 0 /\ ~ in_range t (- im z)) ->
  write_complex O Z0 show std f pre z = Panic POverflow.
Proof using All.
  intros f pre [a b] -> H. cbn [re im] in *. unfold write_complex. rewrite ZERO. cbn [bind re im]. rewrite !LT.
  assert (P : forall c, c < 0 /\ ~ in_range t (- c) -> (if (c <? 0) then o_sub O 0 c else Ok c) = Panic POverflow).
  { intros c [C N]. destruct (Z.ltb_spec c 0); [|lia]. rewrite SUB, Z.sub_0_l. apply fin_debug_over. auto. }
  destruct H as [H|H].
  - rewrite P by auto. reflexivity.
  - rewrite (P b) by auto. destruct (Z.ltb a 0); [|reflexivity]. rewrite SUB. unfold fin. destruct (in_rangeb _ _); reflexivity.
Qed.
Lemma write_release : forall f pre z, m = Release -> exists s, write_complex O Z0 show std f pre z = Ok s.
Proof using All.
  intros f pre [a b] ->. unfold write_complex. rewrite ZERO. cbn [bind re im].
  assert (P : forall c : Z, exists r, (if o_lt O c 0 then o_sub O 0 c else Ok c) = Ok r).
  { intros c. destruct (o_lt O c 0); [|eauto]. rewrite SUB. unfold fin. destruct (in_rangeb _ _); eauto. }
  destruct (P a) as [x ->], (P b) as [y ->]. cbn [bind]. eauto.
Qed.

Hypothesis CALM : forall p z, 0 <= z -> text_all calm (show p z) /\ show p z <> "".
Lemma write_inj : forall f pre z1 z2 s, text_all calm pre ->
  (re z1 < 0 -> in_range t (- re z1)) -> (im z1 < 0 -> in_range t (- im z1)) ->
  (re z2 < 0 -> in_range t (- re z2)) -> (im z2 < 0 -> in_range t (- im z2)) ->
  write_complex O Z0 show std f pre z1 = Ok s -> write_complex O Z0 show std f pre z2 = Ok s ->
  (forall a b, 0 <= a -> 0 <= b -> show (f_precision f) a = show (f_precision f) b -> a = b) -> z1 = z2.
Proof using All.
  intros f pre [a b] [c d] s P A B C D H1 H2 INJ. cbn [re im] in *. rewrite write_ok in H1, H2 by auto. cbn [re im] in *.
  injection H1 as H1. injection H2 as H2. rewrite <- H1 in H2. symmetry in H2.
  apply layout_inj in H2; auto; try (apply CALM; lia). destruct H2 as (E1 & E2 & E3 & E4).
  apply INJ in E3; try lia. apply INJ in E4; try lia. unfold zneg in *. f_equal; lia.
Qed.
End Assemble.

(** the instances *)
Lemma neg_fits : forall t a, 0 < iwidth t -> in_range t a -> (isigned t = true -> a <> imin t) -> a < 0 -> in_range t (- a).
Proof. intros t a W R N L. unfold in_range, imin, imax in *. destruct (isigned t); [specialize (N eq_refl)|]; lia. Qed.
Lemma neg_min : forall t, 0 < iwidth t -> isigned t = true -> imin t < 0 /\ ~ in_range t (- imin t).
Proof. intros t W S. unfold in_range, imin, imax in *. rewrite S. assert (0 < 2 ^ (iwidth t - 1)) by (apply Z.pow_pos_nonneg; lia). lia. Qed.

Lemma dec_sign : forall p z, z < 0 -> "-" ++ int_show p (Z.abs z) = int_show p z.
Proof. intros p [|q|q] H; try lia. reflexivity. Qed.

Lemma int_zero_ok : forall t, In t int_types -> mixed_zero (int_zero t) = Ok 0.
Proof. intros t H. cbn. f_equal. apply wrap_id; [|apply zero_in_range]; apply int_types_width in H; lia. Qed.
Lemma int_lt : forall m t a b, o_lt (int_ops m t) a b = (a <? b).
Proof. intros. unfold o_lt, Z.ltb. cbn. destruct (a ?= b); reflexivity. Qed.
Lemma fixed_lt : forall m f a b, o_lt (fixed_ops m f) a b = (a <? b).
Proof. intros. unfold o_lt, Z.ltb. cbn. unfold fx_cmp. destruct (a ?= b); reflexivity. Qed.
Lemma fixed_zero_ok : forall m f, supported f = true -> mixed_zero (fixed_zero m f) = Ok 0.
Proof. intros m f H. pose proof (supported_fwf f H). cbn. unfold fx_of_int. rewrite Z.mul_0_l. apply fx_fin_ok. apply (zero_in_range (fity f)). apply fwf_width; auto. Qed.

Lemma showable_neg : forall t z, 0 < iwidth t -> showable t z -> (re z < 0 -> in_range t (- re z)) /\ (im z < 0 -> in_range t (- im z)).
Proof. intros t z W [[A B] N]. split; intros L; apply neg_fits; auto; apply N. Qed.

Lemma c45_text : forall m t std z, In t int_types -> showable t z ->
  write_complex (int_ops m t) (int_zero t) int_show std plain_spec "" z =
  Ok (int_show None (re z) ++ (if im z <? 0 then "-" else "+") ++ int_show None (Z.abs (im z)) ++ "i").
Proof.
  intros m t std z H S. assert (W : 0 < iwidth t) by (apply int_types_width in H; lia). destruct (showable_neg t z W S) as [A B].
  rewrite write_ok with (t := t) (m := m); auto using int_lt, int_zero_ok.
  f_equal. rewrite fmt_re_im_eq. unfold fmt_complex, sign_text, im_sign, zneg. cbn [f_alternate f_sign_plus f_precision f_width plain_spec]. cbn [append].
  replace (int_show None (re z)) with ((if re z <? 0 then "-" else "") ++ int_show None (Z.abs (re z))).
  2:{ destruct (Z.ltb_spec (re z) 0); [apply dec_sign; auto | cbn; f_equal; lia]. }
  rewrite append_assoc. destruct std, (im z <? 0); reflexivity.
Qed.
Lemma c45_int : forall m t std f pre z1 z2 s, In t int_types -> text_all calm pre -> showable t z1 -> showable t z2 ->
  write_complex (int_ops m t) (int_zero t) int_show std f pre z1 = Ok s ->
  write_complex (int_ops m t) (int_zero t) int_show std f pre z2 = Ok s -> z1 = z2.
Proof.
  intros m t std f pre z1 z2 s H P S1 S2 W1 W2. assert (W : 0 < iwidth t) by (apply int_types_width in H; lia). destruct (showable_neg t z1 W S1), (showable_neg t z2 W S2).
  apply (write_inj (int_ops m t) (int_zero t) t m (int_lt m t) (fun _ _ => eq_refl) (int_zero_ok t H) int_show std dec_pos f pre z1 z2 s); eauto using int_show_inj.
Qed.
Lemma c45_any_show : forall m t show std f pre z1 z2 s, In t int_types -> text_all calm pre -> 
  (forall p z, 0 <= z -> text_all calm (show p z) /\ show p z <> "") ->
  (forall a b, 0 <= a -> 0 <= b -> show (f_precision f) a = show (f_precision f) b -> a = b) ->
  showable t z1 -> showable t z2 ->
  write_complex (int_ops m t) (int_zero t) show std f pre z1 = Ok s ->
  write_complex (int_ops m t) (int_zero t) show std f pre z2 = Ok s -> z1 = z2.
Proof.
  intros m t show std f pre z1 z2 s H P C I S1 S2 W1 W2. assert (W : 0 < iwidth t) by (apply int_types_width in H; lia). destruct (showable_neg t z1 W S1), (showable_neg t z2 W S2).
  apply (write_inj (int_ops m t) (int_zero t) t m (int_lt m t) (fun _ _ => eq_refl) (int_zero_ok t H) show std C f pre z1 z2 s); auto.
Qed.
Lemma c45_fixed : forall m fm show std f pre z1 z2 s, supported fm = true -> text_all calm pre -> 
  (forall p z, 0 <= z -> text_all calm (show p z) /\ show p z <> "") ->
  (forall a b, 0 <= a -> 0 <= b -> show (f_precision f) a = show (f_precision f) b -> a = b) ->
  showable (fity fm) z1 -> showable (fity fm) z2 ->
  write_complex (fixed_ops m fm) (fixed_zero m fm) show std f pre z1 = Ok s ->
  write_complex (fixed_ops m fm) (fixed_zero m fm) show std f pre z2 = Ok s -> z1 = z2.
Proof.
  intros m fm show std f pre z1 z2 s H P C I S1 S2 W1 W2. assert (W : 0 < iwidth (fity fm)) by (pose proof (fwf_width fm (supported_fwf fm H)); lia). destruct (showable_neg _ z1 W S1), (showable_neg _ z2 W S2).
  apply (write_inj (fixed_ops m fm) (fixed_zero m fm) (fity fm) m (fixed_lt m fm) (fun _ _ => eq_refl) (fixed_zero_ok m fm H) show std C f pre z1 z2 s); auto.
Qed.

Lemma showable_iff : forall t z, 0 < iwidth t -> isigned t = true -> cvalid t z -> ~ showable t z <-> (re z = imin t \/ im z = imin t).
Proof.
  intros t z W S V. split.
  - intros N. destruct (Z.eq_dec (re z) (imin t)); auto. destruct (Z.eq_dec (im z) (imin t)); auto. exfalso. apply N. split; auto.
  - intros H [_ N]. destruct (N S). tauto.
Qed.
Lemma c46_int : forall m t show std f pre z, In t int_types -> cvalid t z ->
  (exists p, write_complex (int_ops m t) (int_zero t) show std f pre z = Panic p) <->
  (m = Debug /\ isigned t = true /\ (re z = imin t \/ im z = imin t)).
Proof.
  intros m t show std f pre z H V. assert (W : 0 < iwidth t) by (apply int_types_width in H; lia). split.
  - intros [p E]. destruct m.
    2:{ destruct (write_release (int_ops Release t) (int_zero t) t Release) with (show := show) (std := std) (f := f) (pre := pre) (z := z); auto using int_zero_ok. congruence. }
    split; auto. destruct (isigned t) eqn:S.
    + split; auto. apply showable_iff; auto. intros SH. destruct (showable_neg t z W SH). rewrite write_ok with (t := t) (m := Debug) in E; auto using int_lt, int_zero_ok. discriminate.
    + exfalso. destruct (showable_neg t z W) as [A B]; [split; auto; congruence|]. rewrite write_ok with (t := t) (m := Debug) in E; auto using int_lt, int_zero_ok. discriminate.
  - intros (-> & S & M). exists POverflow. destruct (neg_min t W S) as [A B]. apply write_panic with (t := t) (m := Debug); auto using int_lt, int_zero_ok.
    destruct M as [-> | ->]; auto.
Qed.
Lemma c46_fixed : forall m fm show std f pre z, supported fm = true -> cvalid (fity fm) z ->
  (exists p, write_complex (fixed_ops m fm) (fixed_zero m fm) show std f pre z = Panic p) <->
  (m = Debug /\ fsigned fm = true /\ (re z = fmin fm \/ im z = fmin fm)).
Proof.
  intros m fm show std f pre z H V. assert (W : 0 < iwidth (fity fm)) by (pose proof (fwf_width fm (supported_fwf fm H)); lia). set (t := fity fm) in *. change (fmin fm) with (imin t). change (fsigned fm) with (isigned t). split.
  - intros [p E]. destruct m.
    2:{ destruct (write_release (fixed_ops Release fm) (fixed_zero Release fm) t Release) with (show := show) (std := std) (f := f) (pre := pre) (z := z); auto using fixed_zero_ok. congruence. }
    split; auto. destruct (isigned t) eqn:S.
    + split; auto. apply showable_iff; auto. intros SH. destruct (showable_neg t z W SH). rewrite write_ok with (t := t) (m := Debug) in E; auto using fixed_lt, fixed_zero_ok. discriminate.
    + exfalso. destruct (showable_neg t z W) as [A B]; [split; auto; congruence|]. rewrite write_ok with (t := t) (m := Debug) in E; auto using fixed_lt, fixed_zero_ok. discriminate.
  - intros (-> & S & M). exists POverflow. destruct (neg_min t W S) as [A B]. apply write_panic with (t := t) (m := Debug); auto using fixed_lt, fixed_zero_ok.
    destruct M as [-> | ->]; auto.
Qed.

(** release builds: the minimum keeps its own sign *)
Lemma c46_release_min : forall t std z, In t int_types -> isigned t = true -> re z = imin t -> 0 <= im z ->
  write_complex (int_ops Release t) (int_zero t) int_show std plain_spec "" z =
  Ok ("--" ++ int_show None (2 ^ (iwidth t - 1)) ++ "+" ++ int_show None (im z) ++ "i").
Proof.
  intros t std [a b] H S E B. cbn [re im] in *. subst a. assert (W : 0 < iwidth t) by (apply int_types_width in H; lia).
  unfold write_complex. rewrite int_zero_ok by auto. cbn [bind re im]. rewrite !int_lt.
  destruct (neg_min t W S) as [N R]. destruct (Z.ltb_spec (imin t) 0); [|lia]. destruct (Z.ltb_spec b 0); [lia|].
  cbn [o_sub int_ops]. rewrite Z.sub_0_l. unfold fin. destruct (in_rangeb t (- imin t)) eqn:IR; [apply in_rangeb_spec in IR; contradiction|].
  assert (WR : wrap t (- imin t) = imin t).
  { apply wrap_unique with (k := -1); [lia | unfold in_range, imin, imax in *; rewrite S in *; lia|].
    unfold imin. rewrite S. replace (2 ^ iwidth t) with (2 * 2 ^ (iwidth t - 1)); [lia|]. rewrite <- Z.pow_succ_r by lia. f_equal. lia. }
  rewrite WR. cbn [bind]. rewrite fmt_re_im_eq. unfold fmt_complex, sign_text, im_sign. cbn [f_alternate f_sign_plus f_precision f_width plain_spec append].
  rewrite <- (dec_sign None (imin t)) by auto. replace (Z.abs (imin t)) with (2 ^ (iwidth t - 1)) by (unfold imin in *; rewrite S in *; lia).
  cbn [append]. destruct std; rewrite ?append_assoc; reflexivity.
Qed.

(** ** float components *)
Section Float.
Context {prec emax : Z} {Hp : Prec_gt_0 prec} {He : Prec_lt_emax prec emax}.
Notation float := (binary_float prec emax).
Variables (show : option N -> float -> string) (std : bool).

Lemma float_abs_part : forall x : float, x <> B754_zero true ->
  o_lt float_ops x (float_of_Z prec emax 0) = fneg x /\
  (if fneg x then o_sub float_ops (float_of_Z prec emax 0) x else Ok x) = Ok (Babs x).
Proof.
  intros x N. rewrite float_of_Z_zero. destruct x as [[]|[]| |[] mm e Hb]; split; try reflexivity; try congruence.
Qed.
Lemma float_write : forall f pre (z : Cartesian float), re z <> B754_zero true -> im z <> B754_zero true ->
  write_complex float_ops float_zero show std f pre z =
  Ok (fmt_re_im std f pre (fneg (re z)) (fneg (im z)) (show (f_precision f) (Babs (re z))) (show (f_precision f) (Babs (im z)))).
Proof.
  intros f pre [a b] A B. cbn [re im] in *. unfold write_complex. cbn [mixed_zero float_zero bind re im].
  destruct (float_abs_part a A) as [A1 A2], (float_abs_part b B) as [B1 B2]. rewrite A1, B1, A2. cbn [bind]. rewrite B2. reflexivity.
Qed.
Lemma float_write_nz : forall f pre (a : float), a <> B754_zero true ->
  write_complex float_ops float_zero show std f pre (mkC a (B754_zero true)) =
  Ok (fmt_re_im std f pre (fneg a) false (show (f_precision f) (Babs a)) (show (f_precision f) (B754_zero true))).
Proof.
  intros f pre a A. unfold write_complex. cbn [mixed_zero float_zero bind re im].
  destruct (float_abs_part a A) as [A1 A2]. rewrite A1, A2. cbn [bind]. rewrite float_of_Z_zero. reflexivity.
Qed.
End Float.

(** ** Polar *)
Lemma split_first : forall P c a b r s, ~ P c -> text_all P a -> text_all P b -> a ++ String c r = b ++ String c s -> a = b /\ r = s.
Proof.
  intros P c a. induction a as [|x a IH]; intros [|y b] r s N A B H; cbn in H.
  - injection H. auto.
  - injection H as <- _. destruct B. contradiction.
  - injection H as -> _. destruct A. contradiction.
  - injection H as -> H. destruct A, B. destruct (IH b r s) as [-> ->]; auto.
Qed.
Lemma polar_inj : forall T (show : option N -> T -> string), (forall x, text_all below_128 (show None x)) -> (forall x y, show None x = show None y -> x = y) ->
  forall p q, polar_display show p = polar_display show q -> p = q.
Proof.
  intros T show A I [a b] [c d] H. unfold polar_display in H. cbn [Complex.mag Complex.ang] in H. cbn [append] in H.
  apply (split_first below_128) in H; auto.
  - destruct H as [H1 H2]. injection H2 as H2. apply I in H1. apply I in H2. congruence.
  - unfold below_128. vm_compute. lia.
Qed.
Lemma int_show_ascii : forall p z, text_all below_128 (int_show p z).
Proof.
  assert (U : forall d, text_all below_128 (NilEmpty.string_of_uint d)) by (induction d; cbn [NilEmpty.string_of_uint text_all]; auto; split; auto; vm_compute; lia).
  assert (V : forall d, text_all below_128 (NilZero.string_of_uint d)).
  { intros d. pose proof (U d) as H. destruct d; auto. split; [vm_compute; lia | exact I]. }
  intros p z. unfold int_show. destruct (Z.to_int z); cbn [NilZero.string_of_int]; auto. split; auto. vm_compute. lia.
Qed.
Lemma int_polar_inj : forall p q, polar_display int_show p = polar_display int_show q -> p = q.
Proof. intros. eapply polar_inj; eauto using int_show_ascii, int_show_inj. Qed.

Lemma c46_refuted :
  (forall t std show f pre b, In t int_types -> isigned t = true -> in_range t b -> exists p,
    write_complex (int_ops Debug t) (int_zero t) show std f pre (mkC (imin t) b) = Panic p) /\
  (forall fm std show f pre b, supported fm = true -> fsigned fm = true -> fvalid fm b -> exists p,
    write_complex (fixed_ops Debug fm) (fixed_zero Debug fm) show std f pre (mkC (fmin fm) b) = Panic p).
Proof.
  assert (M : forall t, 0 < iwidth t -> in_range t (imin t)).
  { intros t W. unfold in_range, imin, imax. assert (0 < 2 ^ (iwidth t - 1)) by (apply Z.pow_pos_nonneg; lia).
    assert (0 < 2 ^ (iwidth t)) by (apply Z.pow_pos_nonneg; lia). destruct (isigned t); lia. }
  split.
  - intros t std show f pre b H S B. apply c46_int; auto. split; auto. apply M. apply int_types_width in H. lia.
  - intros fm std show f pre b H S B. apply c46_fixed; auto. split; auto. apply (M (fity fm)). pose proof (fwf_width fm (supported_fwf fm H)). lia.
Qed.
Section Float2.
Context {prec emax : Z} {Hp : Prec_gt_0 prec} {He : Prec_lt_emax prec emax}.
Notation float := (binary_float prec emax).
Lemma c61_nz : forall (show : option N -> float -> string) std, show None (B754_zero true) = "-0" ->
  forall a : float, a <> B754_zero true -> fneg a = false ->
  write_complex float_ops float_zero show std plain_spec "" (mkC a (B754_zero true)) = Ok (show None (Babs a) ++ "+-0i").
Proof.
  intros show std E a A N. rewrite float_write_nz by auto. rewrite fmt_re_im_eq, N. f_equal. unfold fmt_complex, sign_text, im_sign.
  cbn [f_alternate f_sign_plus f_precision f_width plain_spec append]. rewrite E. destruct std; reflexivity.
Qed.
Lemma c61_text : forall (show : option N -> float -> string) std (z : Cartesian float), re z <> B754_zero true -> im z <> B754_zero true ->
  write_complex float_ops float_zero show std plain_spec "" z =
  Ok ((if fneg (re z) then "-" else "") ++ show None (Babs (re z)) ++ (if fneg (im z) then "-" else "+") ++ show None (Babs (im z)) ++ "i").
Proof.
  intros show std z A B. rewrite float_write by auto. rewrite fmt_re_im_eq. f_equal. unfold fmt_complex, sign_text, im_sign.
  cbn [f_alternate f_sign_plus f_precision f_width plain_spec append]. destruct std, (fneg (im z)); reflexivity.
Qed.
Lemma fneg_spec : forall x : float, is_finite x = true -> (fneg x = true <-> (B2R x < 0)%R).
Proof.
  intros [[]|[]| |[] mm e Hb] F; try discriminate; cbn [fneg B2R]; split; intros H; try discriminate; auto.
  - exfalso. apply (Rlt_irrefl 0 H).
  - exfalso. apply (Rlt_irrefl 0 H).
  - apply F2R_lt_0. reflexivity.
  - exfalso. assert (0 < F2R (Float radix2 (cond_Zopp false (Z.pos mm)) e))%R by (apply F2R_gt_0; reflexivity). eapply Rlt_asym; eauto.
Qed.
End Float2.
