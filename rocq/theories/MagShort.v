(** * Fixed-point magnitudes can be smaller than the parts. *)

From Coq Require Import ZArith Reals Lia Lra Psatz Bool List.
From Flocq Require Import Core.Core IEEE754.BinarySingleNaN.
From Verif Require Import Base FloatBase Literals Traits Trig IntImpl FixedPrim FixedImpl Complex Spec
  Lemmas ScalarProofs ScalarProofs2 WrapProofs NiirfZ NiirfFixed NiirfFixed2 NiirfFixed3 NiirfFixed4 NiirfMore TrigProofs MagProofs.
Open Scope Z_scope.

Definition short (f : fty) : bool :=
  let h := 9 * 2 ^ (ffrac f - 4) in let r := ziter 1 (fone f) (beta_bits f h) h (start f h) in
  (0 <? r) && (r <? 3 * 2 ^ (ffrac f - 2)) && (fone f <? Z.quot (3 * 2 ^ (ffrac f - 2) * fone f) r) && (Z.quot (3 * 2 ^ (ffrac f - 2) * fone f) r <? 2 * fone f).
Lemma short_all : forallb (fun k => short (mkFty true 64 (k + 10))) (upto 52) = true.
Proof. vm_compute. reflexivity. Qed.
Lemma short_ok : forall f, 10 <= ffrac f <= 61 -> short f = true.
Proof.
  intros [sg w F] H. cbn [ffrac] in H. pose proof short_all as A. rewrite forallb_forall in A.
  specialize (A (F - 10) (upto_in 52 (F - 10) ltac:(change (Z.of_nat 52) with 52; lia))). cbv beta in A.
  replace (F - 10 + 10) with F in A by lia. exact A.
Qed.
Lemma mag_short : forall m f, supported f = true -> fsigned f = true -> 10 <= ffrac f ->
  let x := 3 * 2 ^ (ffrac f - 2) in exists r q,
  returns (fun fuel => fixed_mag m f fuel (mkC x 0)) r /\ 0 < r < x /\ o_div (fixed_ops m f) x r = Ok q /\ fone f < q.
Proof.
  intros m f S Sg F x. pose proof (supported_fwf f S) as W. pose proof (supported_inv f S) as [Wd Fr].
  pose proof (short_ok f ltac:(lia)) as D. unfold short in D. fold x in D. set (h := 9 * 2 ^ (ffrac f - 4)) in *.
  set (k := 2 ^ (ffrac f - 4)) in *. assert (K0 : 64 <= k). { unfold k. change 64 with (2 ^ 6). apply Z.pow_le_mono_r; lia. }
  assert (Qk : fone f = 16 * k). { unfold fone, k. change 16 with (2 ^ 4). rewrite <- Z.pow_add_r by lia. f_equal. lia. }
  assert (Xk : x = 12 * k). { unfold x, k. replace (ffrac f - 2) with (2 + (ffrac f - 4)) by lia. rewrite Z.pow_add_r by lia. change (2 ^ 2) with 4. ring. }
  set (r := ziter 1 (fone f) (beta_bits f h) h (start f h)) in *. apply andb_prop in D. destruct D as [D D4]. apply andb_prop in D. destruct D as [D D3]. apply andb_prop in D. destruct D as [D1 D2].
  apply Z.ltb_lt in D1, D2, D3, D4. set (q := Z.quot (x * fone f) r) in *.
  exists r, q. split; [|split; [lia|split; [|exact D3]]].
  - exists 1%nat. intros [|fuel] Hf; [lia|]. rewrite fixed_mag_eq. cbn [re im]. unfold fx_mul. rewrite Z.div_0_l by lia.
    assert (HX : x * x / fone f = h). { rewrite Xk, Qk. unfold h. symmetry. apply Z.div_unique with 0; lia. } rewrite HX.
    rewrite fx_fin_ok by (apply fv_small; auto; unfold h; lia). cbn [bind]. rewrite fx_fin_ok by (apply (zero_in_range (fity f)); apply fwf_width; auto). cbn [bind].
    unfold fx_add. rewrite Z.add_0_r. rewrite fx_fin_ok by (apply fv_small; auto; unfold h; lia). cbn [bind]. apply (niirf_norm m f W ltac:(lia)); auto; unfold h; lia.
  - cbn [o_div fixed_ops]. unfold fx_div. destruct (Z.eqb_spec r 0); [lia|]. fold q. apply fx_fin_ok. apply fvalid_iff. rewrite Sg.
    assert (4 * fone f <= 2 ^ (fwidth f - 1)). { unfold fone. change 4 with (2 ^ 2). rewrite <- Z.pow_add_r by lia. apply Z.pow_le_mono_r; lia. } lia.
Qed.
(** The bound that does hold. *)
Lemma mag_parts_fixed : forall m f z, supported f = true -> fsigned f = true -> 3 <= ffrac f <= fwidth f - 4 ->
  (fval f (re z) * fval f (re z) + fval f (im z) * fval f (im z) <= fval f (fmax f))%R ->
  exists r, returns (fun fuel => fixed_mag m f fuel z) r /\
  let e := (3 * ulp f + sqrt (2 * ulp f))%R in
  (Rmax (Rabs (fval f (re z))) (Rabs (fval f (im z))) * (999 / 1000 - 5 * ulp f) - e <= fval f r <= (Rabs (fval f (re z)) + Rabs (fval f (im z))) * (1001 / 1000 + 5 * ulp f) + e)%R.
Proof.
  intros m f z S Sg F N. destruct (fixed_mag_acc m f z S Sg ltac:(lia) N) as (r & R & A). exists r. split; [exact R|]. cbv zeta.
  set (a := fval f (re z)) in *. set (b := fval f (im z)) in *. set (t := sqrt (a * a + b * b)) in *. assert (U : (0 < ulp f)%R) by apply bpow_gt_0.
  assert (U4 : (ulp f <= / 8)%R). { change (/ 8)%R with (bpow radix2 (-3)). apply bpow_le. lia. }
  assert (AA : (a * a = Rabs a * Rabs a)%R) by (unfold Rabs; destruct (Rcase_abs _); ring). assert (BB : (b * b = Rabs b * Rabs b)%R) by (unfold Rabs; destruct (Rcase_abs _); ring).
  pose proof (Rabs_pos a) as PA. pose proof (Rabs_pos b) as PB.
  assert (L : (Rmax (Rabs a) (Rabs b) <= t)%R).
  { assert (M0 : (0 <= Rmax (Rabs a) (Rabs b))%R) by (eapply Rle_trans; [apply PA|apply Rmax_l]). rewrite <- (sqrt_square _ M0). unfold t. apply sqrt_le_1; [nra|nra|]. rewrite AA, BB.
    unfold Rmax. destruct (Rle_dec (Rabs a) (Rabs b)); nra. }
  assert (T : (0 <= t <= Rabs a + Rabs b)%R). { split; [apply sqrt_pos|]. rewrite <- (sqrt_square (Rabs a + Rabs b)) by lra. unfold t. apply sqrt_le_1; nra. }
  apply Rabs_le_inv in A. split.
  - assert (Rmax (Rabs a) (Rabs b) * (999 / 1000 - 5 * ulp f) <= t * (999 / 1000 - 5 * ulp f))%R by (apply Rmult_le_compat_r; lra). lra.
  - assert (t * (1001 / 1000 + 5 * ulp f) <= (Rabs a + Rabs b) * (1001 / 1000 + 5 * ulp f))%R by (apply Rmult_le_compat_r; lra). lra.
Qed.
