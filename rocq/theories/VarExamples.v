(** * Concrete cases for the variance. *)

From Coq Require Import ZArith Reals List Lia Lra.
From Flocq Require Import Core.Core IEEE754.BinarySingleNaN.
From Verif Require Import Base FloatBase Traits FixedPrim FixedImpl FloatImpl Spec SpecBlend SpecVar VarProofs.
Import ListNotations.
Open Scope Z_scope.

Lemma one_pass_fixed : exists f l r, supported f = true /\ variance1 (fixed_ops Debug f) 0 l = Ok r /\ r < 0.
Proof. exists (mkFty true 16 8), [22; 23; 24], (-1). split; [reflexivity|]. split; [vm_compute; reflexivity | lia]. Qed.
Lemma neg_lt : forall p e (x : binary_float p e), match B2SF x with SpecFloat.S754_finite true _ _ => True | _ => False end -> (B2R x < 0)%R.
Proof. intros p e [s|s| |s m ee b]; cbn; try tauto. destruct s; [|tauto]. intros _. apply F2R_lt_0. cbn. lia. Qed.
Lemma one_pass_f32 : exists (x r : f32), is_finite x = true /\ variance1 float_ops (B754_zero false) [x; x; x] = Ok r /\ (B2R r < 0)%R.
Proof.
  set (x := float_of_scaled 24 128 13212058 (-17)). assert (H : match map_res B2SF (variance1 float_ops (B754_zero false) [x; x; x]) with Ok (SpecFloat.S754_finite true _ _) => True | _ => False end) by (vm_compute; exact I).
  destruct (variance1 float_ops (B754_zero false) [x; x; x]) as [r| |] eqn:E; cbn [map_res] in H; try contradiction. exists x, r. split; [vm_compute; reflexivity|]. split; [exact E|]. apply neg_lt. exact H.
Qed.
Lemma one_pass_f64 : exists (x r : f64), is_finite x = true /\ variance1 float_ops (B754_zero false) [x; x; x] = Ok r /\ (B2R r < 0)%R.
Proof.
  set (x := float_of_scaled 53 1024 7100206287526298 (-46)). assert (H : match map_res B2SF (variance1 float_ops (B754_zero false) [x; x; x]) with Ok (SpecFloat.S754_finite true _ _) => True | _ => False end) by (vm_compute; exact I).
  destruct (variance1 float_ops (B754_zero false) [x; x; x]) as [r| |] eqn:E; cbn [map_res] in H; try contradiction. exists x, r. split; [vm_compute; reflexivity|]. split; [exact E|]. apply neg_lt. exact H.
Qed.
Lemma ex_fixed : let f := mkFty true 32 16 in let l := [65536; 131072; 196608; 262144] in
  supported f = true /\ (forall x, In x l -> 65536 <= x <= 262144) /\ variance (fixed_ops Debug f) 0 l = Ok 81920 /\
  fvalid f (4 * 65536) /\ fvalid f (4 * 262144) /\ fvalid f (65536 - 262144) /\ fvalid f (262144 - 65536) /\ fvalid f (4 * fone f) /\ fvalid f (4 * ((262144 - 65536) * (262144 - 65536) / fone f)).
Proof.
  cbv zeta. split; [reflexivity|]. split; [intros x I; cbn in I; lia|]. split; [vm_compute; reflexivity|].
  repeat split; vm_compute; intro; discriminate.
Qed.
Lemma ex_f32 : let l := map (float_of_Z 24 128) [1; 2; 3; 4] in
  map_res B2SF (variance float_ops (B754_zero false) l) = Ok (SpecFloat.S754_finite false 10485760 (-23)) /\
  (forall x, In x l -> is_finite x = true /\ (Rabs (B2R x) <= 4)%R) /\ (32 * 4 * 4 ^ 2 <= bpow radix2 (128 - 2))%R.
Proof.
  cbv zeta. split; [vm_compute; reflexivity|]. split.
  - assert (K : forall z, 0 <= z <= 4 -> is_finite (float_of_Z 24 128 z) = true /\ (Rabs (B2R (float_of_Z 24 128 z)) <= 4)%R).
    { intros z Z. destruct (FloatLemmas.float_of_Z_exact (prec := 24) (emax := 128) z) as (V & F & _); [lia|]. split; [exact F|]. rewrite V, Rabs_pos_eq by (apply IZR_le; lia). apply IZR_le. lia. }
    intros x I. cbn [map In] in I. destruct I as [<-|[<-|[<-|[<-|[]]]]]; apply K; lia.
  - apply Rle_trans with (bpow radix2 11); [change (bpow radix2 11) with 2048%R; lra | apply bpow_le; lia].
Qed.
