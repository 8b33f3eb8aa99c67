(** * C14 at zero on fixed and float types, C17 for integral bases in release builds, C30 and C31 on every type. *)

From Coq Require Import ZArith NArith Reals Lia Lra List Bool.
From Flocq Require Import Core.Core IEEE754.BinarySingleNaN.
From Verif Require Import Base FloatBase Traits Trig IntImpl FixedPrim FixedImpl FloatImpl Complex Spec Lemmas ScalarProofs.
Import ListNotations.
Open Scope Z_scope.

Lemma fixed_predicates_zero : forall m f x, supported f = true -> fvalid f x ->
  (mixed_is_positive (fixed_real m f) x = mixed_is_negative (fixed_real m f) x <-> fsigned f = true /\ x = 0).
Proof.
  intros m f x Hf Hx. cbn [mixed_is_positive mixed_is_negative fixed_real]. destruct (fsigned f).
  - destruct (Z.ltb_spec 0 x), (Z.ltb_spec x 0); split; intros; try discriminate; try lia; auto; split; auto; lia.
  - split; [discriminate | intros [? _]; discriminate].
Qed.
Lemma float_predicates_zero : forall p e {Hp : Prec_gt_0 p} {He : Prec_lt_emax p e} (x : binary_float p e), is_nan x = false ->
  (mixed_is_positive float_real x = true <-> x = B754_zero false \/ x = B754_infinity false \/ is_finite x = true /\ (0 < B2R x)%R) /\
  mixed_is_negative float_real x = negb (mixed_is_positive float_real x).
Proof.
  intros p e Hp He x N. cbn [mixed_is_positive mixed_is_negative float_real]. split; [|rewrite negb_involutive; reflexivity].
  destruct x as [[|]|[|]| |[|] mm ee B]; try discriminate; cbn [Bsign negb].
  all: split; [intros ?; try discriminate | intros [H|[H|[H1 H2]]]; try discriminate; auto].
  - cbn in H2; lra.
  - auto.
  - auto.
  - exfalso. cbn in H2. pose proof (F2R_lt_0 radix2 (Float radix2 (Z.neg mm) ee) ltac:(reflexivity)). lra.
  - right; right. split; [reflexivity|]. cbn. apply (F2R_gt_0 radix2 (Float radix2 (Z.pos mm) ee)). reflexivity.
Qed.

Lemma powi_integral : forall f k n, supported f = true -> fvalid f (k * fone f) ->
  powi (fixed_ops Release f) (k * fone f) n = Ok (wrap (fity f) (k ^ Z.of_N n * fone f)).
Proof.
  intros f k n Hf V. pose proof (supported_fwf f Hf) as W. pose proof (fone_pos f (proj1 W)) as P.
  assert (Wd : 1 <= iwidth (fity f)) by (unfold fwf in W; cbn; lia).
  assert (I : in_range (fity f) (k * fone f)) by exact V.
  unfold powi. destruct (N.eqb_spec n 0) as [->|N0].
  - cbn [o_of_i32 fixed_ops]. unfold fx_of_int, fx_fin. rewrite fin_release by auto. reflexivity.
  - unfold for_n. rewrite N2Nat.inj_iter. replace (Z.of_N n) with (Z.of_nat (N.to_nat (n - 1)) + 1) by lia.
    induction (N.to_nat (n - 1)) as [|j IH].
    + cbn [nat_rect Nat.iter]. rewrite Z.pow_1_r, wrap_id; auto.
    + unfold Nat.iter in *; cbn [nat_rect]. rewrite IH. cbn [bind o_mul fixed_ops]. unfold fx_mul, fx_fin. rewrite fin_release by auto. f_equal.
      rewrite Z.mul_assoc, Z.div_mul by lia. rewrite wrap_mul_l by auto. f_equal. rewrite Nat2Z.inj_succ, !Z.pow_add_r by lia.
      rewrite Z.pow_succ_r by lia. ring.
Qed.
Lemma negative_integral : forall f k n, supported f = true -> fvalid f (k * fone f) -> - 2 ^ 31 <= n < 0 ->
  mixed_powi (fixed_powi Release f) (k * fone f) n = Ok (wrap (fity f) (k ^ (2 ^ 64 + n) * fone f)) /\
  (Z.even k = true -> mixed_powi (fixed_powi Release f) (k * fone f) n = Ok 0).
Proof.
  intros f k n Hf V Hn. pose proof (supported_fwf f Hf) as W. 
  assert (Wd : 1 <= iwidth (fity f) <= 64) by (unfold supported in Hf; destruct f as [sg w fr]; cbn in *; repeat (apply andb_true_iff in Hf; destruct Hf as [Hf ?]); repeat (apply orb_true_iff in Hf; destruct Hf as [Hf|Hf]); try apply Z.eqb_eq in Hf; lia).
  assert (E : mixed_powi (fixed_powi Release f) (k * fone f) n = Ok (wrap (fity f) (k ^ (2 ^ 64 + n) * fone f))).
  { cbn [mixed_powi fixed_powi]. rewrite to_N_usize_neg by lia. rewrite powi_integral by auto. do 3 f_equal. rewrite Z2N.id by lia. reflexivity. }
  split; [exact E|]. intros Ev. rewrite E. f_equal. apply Z.even_spec in Ev. destruct Ev as [j ->].
  replace (2 ^ 64 + n) with (iwidth (fity f) + (2 ^ 64 + n - iwidth (fity f))) by ring. rewrite Z.pow_add_r by lia. rewrite Z.pow_mul_l.
  apply (wrap_unique (fity f)) with (k := - (j ^ iwidth (fity f) * (2 * j) ^ (2 ^ 64 + n - iwidth (fity f)) * fone f)); [lia|apply zero_in_range; lia|]. ring.
Qed.

(** the assignments, on every component type *)
Section Any.
Context {T : Type} (O : MixedOps T).
Lemma assign_iff : forall z w r,
  (cartesian_add_assign O z w = Ok r <-> o_add O (re z) (re w) = Ok (re r) /\ o_add O (re r) (im w) = Ok (im r)) /\
  (cartesian_sub_assign O z w = Ok r <-> o_sub O (re z) (re w) = Ok (re r) /\ o_sub O (re r) (im w) = Ok (im r)).
Proof.
  intros z w [a b]. unfold cartesian_add_assign, cartesian_sub_assign. cbn [re im]. split; split.
  - destruct (o_add O (re z) (re w)) as [x| |]; cbn; try discriminate. destruct (o_add O x (im w)) eqn:E; cbn; try discriminate. intros [= -> ->]. auto.
  - intros [-> E]. cbn. rewrite E. reflexivity.
  - destruct (o_sub O (re z) (re w)) as [x| |]; cbn; try discriminate. destruct (o_sub O x (im w)) eqn:E; cbn; try discriminate. intros [= -> ->]. auto.
  - intros [-> E]. cbn. rewrite E. reflexivity.
Qed.
Lemma run_snoc : forall A B (step : A -> B -> res A) z ws w, run step z (ws ++ [w]) = bind (run step z ws) (fun y => step y w).
Proof. intros. unfold run. rewrite fold_left_app. reflexivity. Qed.
Lemma run_re : forall ws z s, run (cartesian_add_assign O) z ws = Ok s -> run (o_add O) (re z) (map re ws) = Ok (re s).
Proof.
  intros ws z. induction ws as [|w ws IH] using rev_ind; intros s.
  - cbn. intros [= ->]. reflexivity.
  - rewrite map_app. cbn [map]. rewrite !run_snoc. destruct (run (cartesian_add_assign O) z ws) as [y| |]; cbn [bind]; try discriminate. intros E. rewrite (IH y eq_refl). cbn [bind]. apply assign_iff in E. apply E.
Qed.
Lemma history_any : forall ws w z r, run (cartesian_add_assign O) z (ws ++ [w]) = Ok r ->
  run (o_add O) (re z) (map re (ws ++ [w])) = Ok (re r) /\ o_add O (re r) (im w) = Ok (im r).
Proof.
  intros ws w z r E. split; [exact (run_re _ _ _ E)|]. rewrite run_snoc in E. destruct (run (cartesian_add_assign O) z ws) as [y| |]; cbn [bind] in E; try discriminate. apply assign_iff in E. apply E.
Qed.
End Any.
Lemma assign_float : forall p e {Hp : Prec_gt_0 p} {He : Prec_lt_emax p e} (z w : Cartesian (binary_float p e)),
  let a := Bplus mode_NE (re z) (re w) in let s := Bminus mode_NE (re z) (re w) in
  cartesian_add_assign float_ops z w = Ok (mkC a (Bplus mode_NE a (im w))) /\ cartesian_sub_assign float_ops z w = Ok (mkC s (Bminus mode_NE s (im w))) /\
  cartesian_add float_ops z w = Ok (mkC a (Bplus mode_NE (im z) (im w))) /\ cartesian_sub float_ops z w = Ok (mkC s (Bminus mode_NE (im z) (im w))).
Proof. intros. repeat split; reflexivity. Qed.
