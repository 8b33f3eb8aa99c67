(** * NIIRF on the primitive integers: every fractional constant is cast to zero. *)

From Coq Require Import ZArith Lia List Bool.
From Flocq Require Import IEEE754.BinarySingleNaN.
From Verif Require Import Base FloatBase Literals Traits Trig IntImpl Spec Lemmas ScalarProofs WrapProofs.
Open Scope Z_scope.

Definition NII (m : mode) (t : ity) (fuel : nat) (x : Z) (it : N) : res Z :=
  niirf (int_ops m t) (int_zero t) (int_abs m t) (int_powi m t) m fuel x it.

Lemma int_width : forall t, In t int_types -> 8 <= iwidth t <= 128.
Proof.
  intros t T. cbn in T. repeat (destruct T as [<-|T]; [cbn; lia|]). contradiction. Qed.

Lemma int_small : forall t, In t int_types -> forall z, 0 <= z <= 127 -> in_range t z.
Proof.
  intros t T.
  intros z Hz. cbn in T. repeat (destruct T as [<-|T]; [unfold in_range, imin, imax; cbn; lia|]). contradiction.
Qed.

Lemma int_bound : forall t, In t int_types -> forall z, in_range t z -> z < 4 ^ 64.
Proof.
  intros t T.
  intros z Hz. cbn in T. repeat (destruct T as [<-|T]; [unfold in_range, imin, imax in Hz; cbn in *; lia|]). contradiction.
Qed.

Lemma int_lits : forall t, In t int_types -> int_of_float t lit_quarter = 0 /\ int_of_float t lit_one = 1 /\ int_of_float t lit_y0 = 0.
Proof.
  intros t T. cbn in T. repeat (destruct T as [<-|T]; [repeat split; vm_compute; reflexivity|]). contradiction. Qed.

Lemma int_beta : forall m t, In t int_types -> forall x, beta (int_ops m t) x = Ok 0.
Proof.
  intros m t T.
  intros x. unfold beta. cbn [o_of_f64 int_ops bind]. 
  cbn in T. repeat (destruct T as [<-|T]; [
    repeat match goal with |- context [int_of_float ?t ?l] => 
       let v := eval vm_compute in (int_of_float t l) in change (int_of_float t l) with v end;
    repeat match goal with |- context [if o_lt ?O ?a ?b then _ else _] => destruct (o_lt O a b) end; reflexivity |]). contradiction.
Qed.

Section Int.
Variables (m : mode) (t : ity).
Hypothesis T : In t int_types.
Let O := int_ops m t.

Lemma int_lt : forall a b, o_lt O a b = (a <? b).
Proof. intros. unfold o_lt, o_cmp, O, int_ops, Z.ltb. destruct (a ?= b); reflexivity. Qed.
Lemma int_le : forall a b, o_le O a b = (a <=? b).
Proof. intros. unfold o_le, o_cmp, O, int_ops, Z.leb. destruct (a ?= b); reflexivity. Qed.
Lemma int_eq : forall a b, o_eq O a b = (a =? b).
Proof. intros. unfold o_eq, o_cmp, O, int_ops. rewrite Z.eqb_compare. destruct (a ?= b); reflexivity. Qed.

Lemma of_small : forall z, 0 <= z <= 127 -> o_of_i32 O z = Ok z.
Proof using T. intros. cbn [o_of_i32 O int_ops]. unfold O. cbn. pose proof (int_width t T). rewrite wrap_id; auto; [lia|]. apply (int_small t T); auto. Qed.

Lemma i32_fin : forall z, -1000 <= z <= 1000 -> fin m i32 z = Ok z.
Proof. intros. apply fin_ok. unfold in_range, imin, imax. cbn. lia. Qed.

Lemma int_denorm : forall n fuel, -100 <= n <= 100 -> (100 < fuel)%nat ->
  niirf_denormalize O m fuel (n, 0) = Ok (0, 0).
Proof using T.
  intros n fuel Hn Hf. unfold niirf_denormalize.
  match goal with |- while _ ?c ?b _ = _ => 
    destruct (while_total c b (fun s => -100 <= fst s <= 100 /\ snd s = 0) (fun s => Z.to_nat (Z.abs (fst s)))) 
      with (n := fuel) (s := (n, 0)) as [[n' y'] [E [[I1 I2] C]]] end.
  - intros [k y] [I1 I2]. cbn [fst snd] in *. subst y. rewrite i32_fin by lia. cbn [bind].
    destruct (Z.eqb_spec (Z.abs k) 0) as [K|K]; [left; reflexivity|right; split; [reflexivity|]].
    rewrite (of_small 2) by lia. cbn [bind]. destruct (Z.ltb_spec 0 k).
    + exists (k - 1, 0). unfold O. cbn [o_mul int_ops]. rewrite fin_ok by (apply (int_small t T); lia). cbn [bind].
      rewrite i32_fin by lia. cbn [bind fst snd]. repeat split; auto; lia.
    + destruct (Z.ltb_spec k 0); [|lia]. exists (k + 1, 0). unfold O. cbn [o_div int_ops]. unfold int_div. cbn [Z.eqb].
      change (Z.quot 0 2) with 0. assert (R : in_rangeb t 0 = true) by (apply in_rangeb_spec, (int_small t T); lia).
      rewrite R. cbn [bind]. rewrite i32_fin by lia. cbn [bind fst snd]. repeat split; auto; lia.
  - cbn. lia.
  - cbn [fst]. lia.
  - rewrite E. cbn [fst snd] in *. rewrite i32_fin in C by lia. cbn [bind] in C. inversion C as [C'].
    apply negb_false_iff in C'. apply Z.eqb_eq in C'. assert (n' = 0) by lia. subst. reflexivity.
Qed.

Lemma int_iterate : forall it, niirf_iterate O (int_powi m t) it 0 = Ok 0.
Proof using T.
  intros it. unfold niirf_iterate. rewrite (of_small 2), (of_small 3) by lia. cbn [bind]. unfold O. cbn [o_mul o_div o_add o_of_f64 int_ops].
  destruct (int_lits t T) as [_ [_ ->]]. pose proof (int_width t T) as W.
  assert (F0 : fin m t 0 = Ok 0) by (apply fin_ok, (int_small t T); lia).
  assert (R : in_rangeb t 0 = true) by (apply in_rangeb_spec, (int_small t T); lia).
  change (2 * 0) with 0. rewrite F0. cbn [bind]. unfold int_div. cbn [Z.eqb]. change (Z.quot 0 3) with 0. rewrite R. cbn [bind].
  change (0 + 0) with 0. rewrite F0. cbn [bind]. apply for_fixpoint.
  pose proof (int_beta m t T 0) as B. unfold O in B. rewrite B. cbn [bind]. unfold int_powi, mixed_powi, powi. 
  change (Z.to_N (wrap usize 2)) with 2%N. cbn [N.eqb Pos.eqb]. change (2 - 1)%N with (N.succ 0). rewrite for_succ. 
  cbn [for_n N.iter bind]. cbn [o_mul int_ops o_sub]. change (0 * 0) with 0. rewrite F0. cbn [bind]. change (0 - 0) with 0. 
  rewrite F0. cbn [bind]. change (0 * 0) with 0. rewrite F0. cbn [bind]. exact F0.
Qed.

Lemma int_norm : forall X fuel, 0 < X -> in_range t X -> (65 < fuel)%nat ->
  exists n, 0 <= n <= 64 /\ niirf_normalize O m fuel (0, X) = Ok (n, 0).
Proof using T.
  intros X fuel X0 V Hf. unfold niirf_normalize. pose proof (int_bound t T X V) as XB.
  destruct (int_lits t T) as [LQ [L1 _]].
  destruct fuel as [|fuel]; [lia|]. rewrite while_S. unfold O at 1. cbn [o_of_f64 int_ops]. rewrite LQ. cbn [bind fst snd].
  rewrite int_lt. destruct (Z.ltb_spec X 0); [lia|]. cbn [bind].
  match goal with |- exists _, _ /\ while _ ?c ?b _ = _ => 
    destruct (while_total c b (fun s => 0 <= fst s <= 64 /\ 0 <= snd s /\ in_range t (snd s) /\ snd s * 4 ^ fst s <= X) 
       (fun s => Z.to_nat (64 - fst s))) 
      with (n := S fuel) (s := (0, X)) as [[n' y'] [E [[I1 [I2 [I3 I4]]] C]]] end.
  - intros [n x] [I1 [I2 [I3 I4]]]. cbn [fst snd] in *.
    assert (CE : bind (o_of_f64 O lit_one) (fun one => Ok (o_le O one x)) = Ok (1 <=? x)).
    { cbn [o_of_f64 O int_ops]. unfold O at 1. cbn [o_of_f64 int_ops]. rewrite L1. cbn [bind]. rewrite int_le. reflexivity. }
    rewrite !CE. destruct (Z.leb_spec 1 x) as [G|G]; [right|left; reflexivity]. split; [reflexivity|].
    assert (P4 : 0 < 4 ^ n) by (apply Z.pow_pos_nonneg; lia).
    assert (N64 : n < 64). { apply (Z.pow_lt_mono_r_iff 4); [lia|lia|]. nia. }
    exists (n + 1, x / 4). rewrite i32_fin by lia. cbn [bind]. rewrite of_small by lia. cbn [bind].
    unfold O. cbn [o_div int_ops]. unfold int_div. cbn [Z.eqb]. rewrite Z.quot_div_nonneg by lia.
    assert (D : 0 <= x / 4 <= x) by (split; [apply Z.div_pos; lia | apply Z.div_le_upper_bound; lia]).
    assert (D4 : x / 4 * 4 <= x) by (pose proof (Z.mul_div_le x 4); lia).
    assert (Rx : in_range t (x / 4)). { pose proof (int_small t T 0). unfold in_range in *. lia. }
    assert (Rb : in_rangeb t (x / 4) = true) by (apply in_rangeb_spec; auto). rewrite Rb. cbn [bind fst snd].
    split; auto. split; [|lia]. split; [lia|]. split; [lia|]. split; auto.
    rewrite Z.pow_add_r by lia. change (4 ^ 1) with 4. nia.
  - cbn [fst snd]. change (4 ^ 0) with 1. repeat split; try apply V; lia.
  - cbn [fst]. lia.
  - cbn [fst snd] in *. unfold O in C at 1. cbn [o_of_f64 int_ops] in C. rewrite L1 in C. cbn [bind] in C. rewrite int_le in C.
    inversion C as [C']. apply Z.leb_gt in C'. assert (y' = 0) by lia. subst y'. exists n'. split; [lia|]. exact E.
Qed.

Lemma niirf_int_pos : forall x it, 0 <= x -> in_range t x -> forall fuel, (100 < fuel)%nat -> 
  bind (niirf_normalize O m fuel (0, x)) (fun s => bind (niirf_iterate O (int_powi m t) it (snd s)) (fun y =>
    bind (niirf_denormalize O m fuel (fst s, y)) (fun s => Ok (snd s)))) = Ok 0.
Proof using T.
  intros x it X0 V fuel Hf. destruct (Z.eq_dec x 0) as [->|Nz].
  - assert (N0 : niirf_normalize O m fuel (0, 0) = Ok (0, 0)).
    { unfold niirf_normalize. destruct (int_lits t T) as [LQ [L1 _]]. destruct fuel as [|fuel]; [lia|]. rewrite while_S.
      unfold O at 1. cbn [o_of_f64 int_ops]. rewrite LQ. cbn [bind fst snd]. rewrite int_lt. cbn [Z.ltb Z.compare bind].
      rewrite while_S. unfold O at 1. cbn [o_of_f64 int_ops]. rewrite L1. cbn [bind fst snd]. rewrite int_le. reflexivity. }
    rewrite N0. cbn [bind fst snd]. rewrite int_iterate. cbn [bind]. rewrite int_denorm by lia. reflexivity.
  - destruct (int_norm x fuel ltac:(lia) V ltac:(lia)) as [n [Hn E]]. rewrite E. cbn [bind fst snd]. 
    rewrite int_iterate. cbn [bind]. rewrite int_denorm by lia. reflexivity.
Qed.

Lemma niirf_int : forall x it, in_range t x -> isigned t = false \/ x <> imin t ->
  returns (fun fuel => NII m t fuel x it) 0.
Proof using T.
  intros x it V Nm. exists 101%nat. intros fuel Hf. pose proof (int_width t T) as W. unfold NII, niirf. cbn [mixed_zero int_zero bind].
  assert (W0 : wrap t 0 = 0) by (apply wrap_id; [lia|apply (int_small t T); lia]). rewrite W0. fold O. rewrite int_eq.
  destruct (Z.eqb_spec x 0) as [->|Nz]; [reflexivity|].
  assert (A : mixed_abs (int_abs m t) x = Ok (Z.abs x) /\ in_range t (Z.abs x)).
  { cbn [mixed_abs int_abs]. destruct (isigned t) eqn:Sg.
    - destruct (Z.leb_spec 0 x).
      + rewrite Z.abs_eq by lia. auto.
      + assert (R : in_range t (- x)). { destruct Nm as [Nm|Nm]; [congruence|]. unfold in_range, imin, imax in *. rewrite Sg in *. lia. }
        rewrite Z.abs_neq by lia. split; auto. cbn [o_neg int_signed]. apply fin_ok. auto.
    - assert (0 <= x) by (unfold in_range, imin in V; rewrite Sg in V; lia). rewrite Z.abs_eq by lia. auto. }
  destruct A as [-> V']. cbn [bind]. apply niirf_int_pos; auto; lia.
Qed.
End Int.

Lemma niirf_int_min_debug : forall t it, In t int_types -> isigned t = true -> 
  panics (fun fuel => NII Debug t fuel (imin t) it) POverflow.
Proof.
  intros t it T Sg. exists 0%nat. intros fuel _. cbn in T.
  repeat (destruct T as [<-|T]; [try discriminate Sg; reflexivity|]). contradiction.
Qed.

Lemma niirf_int_min_release : forall t it, In t int_types -> isigned t = true -> 
  returns (fun fuel => NII Release t fuel (imin t) it) 0.
Proof.
  intros t it T Sg. exists 101%nat. intros fuel Hf. pose proof (int_width t T) as W. unfold NII, niirf. cbn [mixed_zero int_zero bind].
  assert (W0 : wrap t 0 = 0) by (apply wrap_id; [lia|apply int_small; auto; lia]). rewrite W0. rewrite int_eq.
  assert (M : imin t < 0). { unfold imin. rewrite Sg. assert (0 < 2 ^ (iwidth t - 1)) by (apply Z.pow_pos_nonneg; lia). lia. }
  destruct (Z.eqb_spec (imin t) 0); [lia|].
  assert (A : mixed_abs (int_abs Release t) (imin t) = Ok (imin t)).
  { cbn in T. repeat (destruct T as [<-|T]; [try discriminate Sg; reflexivity|]). contradiction. }
  rewrite A. cbn [bind]. 
  assert (N : niirf_normalize (int_ops Release t) Release fuel (0, imin t) = Ok (-1, 0)).
  { unfold niirf_normalize. destruct (int_lits t T) as [LQ [L1 _]]. destruct fuel as [|fuel]; [lia|]. rewrite while_S.
    cbn [o_of_f64 int_ops]. rewrite LQ. cbn [bind fst snd]. rewrite int_lt. destruct (Z.ltb_spec (imin t) 0); [|lia]. cbn [bind].
    assert (B : fin Release t (imin t * wrap t 4) = Ok 0).
    { clear - T Sg. cbn in T. repeat (destruct T as [<-|T]; [try discriminate Sg; reflexivity|]). contradiction. }
    cbn [o_mul o_of_i32 int_ops bind]. rewrite B. change (fin Release i32 (0 - 1)) with (Ok (-1)). cbn [bind].
    destruct fuel as [|fuel]; [lia|]. rewrite while_S. cbn [fst snd bind]. rewrite int_lt. cbn [Z.ltb Z.compare bind].
    rewrite while_S. rewrite L1. cbn [bind fst snd]. rewrite int_le. reflexivity. }
  rewrite N. cbn [bind fst snd]. rewrite int_iterate by auto. cbn [bind]. rewrite int_denorm by (auto; lia). reflexivity.
Qed.

Lemma niirf_int_min : forall t it, In t int_types -> isigned t = true ->
  panics (fun fuel => NII Debug t fuel (imin t) it) POverflow /\
  returns (fun fuel => NII Release t fuel (imin t) it) 0.
Proof. intros. split; [apply niirf_int_min_debug | apply niirf_int_min_release]; auto. Qed.
