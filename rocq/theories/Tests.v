(** * Tests: the values asserted in the repository's documentation, computed by the model.

    These are tests of the model (bounded evidence), not properties. *)

From Coq Require Import ZArith String.
From Flocq Require Import IEEE754.BinarySingleNaN.
From Verif Require Import Base FloatBase Literals Traits Trig IntImpl FixedPrim FixedImpl
  FloatImpl Complex Display.
Open Scope Z_scope.

Definition rep {p e} (x : binary_float p e) : option (bool * Z * Z) :=
  match x with
  | B754_finite s m ex _ => Some (s, Zpos m, ex)
  | B754_zero s => Some (s, 0, 0)
  | _ => None
  end.
Definition I32U28 := mkFty true 32 28.
Definition I32U22 := mkFty true 32 22.
Definition d64 (m e : Z) : f64 := float_of_scaled 53 1024 m e.
Definition d32 (m e : Z) : f32 := float_of_scaled 24 128 m e.
Definition via_f32 (f : fty) (r : res Z) := map_res (fun a => rep (fx_to_f32 f a)) r.
Definition fuel := 300%nat.

(* sqrt.rs:36-46 *)
Definition niirf_doc (x : f64) :=
  via_f32 I32U28 (a <- fx_of_float Debug I32U28 x ;;
                  mixed_sqrt (fixed_sqrt Debug I32U28 fuel) a).
Example doc_niirf_0_23 : niirf_doc (d64 8286623314361713 (-55)) = Ok (Some (false, 16092926, -25)).
Proof. vm_compute. reflexivity. Qed.
Example doc_niirf_1_6 : niirf_doc (d64 7205759403792794 (-52)) = Ok (Some (false, 10607132, -23)).
Proof. vm_compute. reflexivity. Qed.
Example doc_niirf_0 : niirf_doc (d64 0 0) = Ok (Some (false, 0, 0)).
Proof. vm_compute. reflexivity. Qed.

(* atan.rs:59-66 *)
Definition atan2_doc (y x : f64) :=
  via_f32 I32U28 (a <- fx_of_float Debug I32U28 y ;; b <- fx_of_float Debug I32U28 x ;;
                  fixed_atan2_poly Debug I32U28 a b).
Example doc_atan2 : atan2_doc (d64 5404319552844595 (-53)) (d64 7205759403792794 (-54))
  = Ok (Some (false, 16411535, -24)).
Proof. vm_compute. reflexivity. Qed.
Example doc_atan2_0 : atan2_doc (d64 0 0) (d64 7205759403792794 (-54)) = Ok (Some (false, 0, 0)).
Proof. vm_compute. reflexivity. Qed.

(* atan.rs:180-182 *)
Example doc_atan :
  via_f32 I32U28 (a <- fx_of_float Debug I32U28 (d64 5404319552844595 (-53)) ;;
                  b <- fx_of_float Debug I32U28 (d64 7205759403792794 (-54)) ;;
                  q <- fx_div Debug I32U28 a b ;;
                  atan (fixed_ops Debug I32U28) (fixed_signed Debug I32U28) (fixed_powi Debug I32U28)
                    (fixed_real Debug I32U28) (fixed_zero Debug I32U28) (fixed_pi Debug I32U28)
                    (fixed_abs Debug I32U28) (fixed_one Debug I32U28) q)
  = Ok (Some (false, 16411535, -24)).
Proof. vm_compute. reflexivity. Qed.

(* trigonometry.rs:159-161 *)
Example doc_wrap :
  via_f32 I32U28 (a <- fx_of_int Debug I32U28 6 ;;
                  mixed_wrap_phase (fixed_wrap_phase Debug I32U28 fuel) a)
  = Ok (Some (true, 9502122, -25)).
Proof. vm_compute. reflexivity. Qed.

(* trigonometry.rs:17-23, 196-198 *)
Example doc_sign :
  via_f32 I32U22 (mixed_sign (fixed_real Debug I32U22) (-838861)) = Ok (Some (true, 8388608, -23)).
Proof. vm_compute. reflexivity. Qed.
Example doc_powi :
  via_f32 I32U22 (a <- fx_of_int Debug I32U22 (-2) ;; powi (fixed_ops Debug I32U22) a 2)
  = Ok (Some (false, 8388608, -21)).
Proof. vm_compute. reflexivity. Qed.

(* trigonometry.rs:55-65, 111-117, f32 *)
Definition sin32 : f32 -> res f32 := sin float_ops float_signed float_pi float_powi.
Definition cos32 : f32 -> res f32 := cos float_ops float_signed float_pi float_powi fuel.
Definition c3_1415 : f32 := d32 13176406 (-22).
Definition half (x : f32) : f32 := Bdiv mode_NE x (d32 2 0).
Example doc_sin_0 : map_res rep (sin32 (d32 0 0)) = Ok (Some (false, 0, 0)).
Proof. vm_compute. reflexivity. Qed.
Example doc_sin_1 : map_res rep (sin32 (half c3_1415)) = Ok (Some (false, 8388637, -23)).
Proof. vm_compute. reflexivity. Qed.
Example doc_sin_2 : map_res rep (sin32 c3_1415) = Ok (Some (false, 12746752, -37)).
Proof. vm_compute. reflexivity. Qed.
Example doc_cos_0 : map_res rep (cos32 (d32 0 0)) = Ok (Some (false, 8388637, -23)).
Proof. vm_compute. reflexivity. Qed.
Example doc_cos_1 : map_res rep (cos32 (half c3_1415)) = Ok (Some (false, 12779520, -38)).
Proof. vm_compute. reflexivity. Qed.

(* float_impl.rs:166,170 at f32: also the binary32 nearest to the decimal text *)
Example pi_f32 : map_res rep (mixed_pi (@float_pi 24 128 _ _)) = Ok (Some (false, 13176795, -22)).
Proof. vm_compute. reflexivity. Qed.
Example tau_f32 : map_res rep (mixed_tau (@float_pi 24 128 _ _)) = Ok (Some (false, 13176795, -21)).
Proof. vm_compute. reflexivity. Qed.

(* the complex examples at f32, as text; a component that is an integer prints as that integer *)
Definition c32 (a b : Z) : Cartesian f32 := mkC (d32 a 0) (d32 b 0).
Notation O32 := (@float_ops 24 128 _ _).
Notation S32 := (@float_signed 24 128).
Definition whole (_ : option N) (x : f32) : string := int_show None (Btrunc x).
Definition text (r : res (Cartesian f32)) : res string := z <- r ;; write_complex O32 float_zero whole true plain_spec "" z.
Notation of64 := (@float_conv_float 24 128 _ _ 53 1024 _ _).
(* lib.rs:34-36, 53-57, 67-71 *)
Example doc_show : text (Ok (c32 1 2)) = Ok "1+2i"%string.
Proof. vm_compute. reflexivity. Qed.
Example doc_square : text (cartesian_mul O32 (c32 1 2) (c32 1 2)) = Ok "-3+4i"%string.
Proof. vm_compute. reflexivity. Qed.
Example doc_mul_f64 : text (cartesian_mul_scalar O32 of64 (c32 1 2) (d64 2 0)) = Ok "2+4i"%string.
Proof. vm_compute. reflexivity. Qed.
(* num_complex_impl.rs:109-112 *)
Example doc_show_neg : text (Ok (c32 (-2) 4)) = Ok "-2+4i"%string /\ text (Ok (c32 2 (-4))) = Ok "2-4i"%string.
Proof. split; vm_compute; reflexivity. Qed.
(* cartesian_impl.rs:270-273, 288-291, 352-355, 370-373 *)
Example doc_add_scalar : text (cartesian_add_scalar O32 of64 (c32 1 2) (d64 2 0)) = Ok "3+2i"%string /\
  text (cartesian_add_assign_scalar O32 of64 (c32 1 2) (d64 2 0)) = Ok "3+2i"%string /\
  text (cartesian_sub_scalar O32 of64 (c32 1 2) (d64 2 0)) = Ok "-1+2i"%string /\
  text (cartesian_sub_assign_scalar O32 of64 (c32 1 2) (d64 2 0)) = Ok "-1+2i"%string.
Proof. repeat split; vm_compute; reflexivity. Qed.
(* cartesian_impl.rs:430-433, 451-454 *)
Example doc_div_scalar :
  text (cartesian_div_scalar float_ops O32 of64 float_zero float_real (c32 (-2) 4) (d64 2 0)) = Ok "-1+2i"%string /\
  text (cartesian_div_assign_scalar float_ops O32 of64 float_zero float_real (c32 (-2) 4) (d64 2 0)) = Ok "-1+2i"%string.
Proof. split; vm_compute; reflexivity. Qed.
(* cartesian_impl.rs:477-480, tests/cartesian_traits.rs:5-10 *)
Example doc_conj : text (cartesian_conj S32 (c32 (-2) (-4))) = Ok "-2+4i"%string.
Proof. vm_compute. reflexivity. Qed.
(* float_impl.rs:34-39, 52-56 *)
Example doc_real : map_res rep (mixed_from_num (real_conv_cartesian (@float_conv_float 53 1024 _ _ 24 128 _ _) float_zero) (c32 1 0)) = Ok (Some (false, 4503599627370496, -52)).
Proof. vm_compute. reflexivity. Qed.
(* ops.rs:148-154: [powi] of 1 + i to the power 2.  The text asserts -0.0000038 + 1.996035 i.  The CORDIC routines are not modelled;
   with a sine one step below 1 and a cosine eight steps below 0 the model's square root and products give exactly these bits. *)
Example doc_complex_powi :
  (ops_powi (fixed_ops Debug I32U22) (fixed_sqrt Debug I32U22 fuel) (fixed_powi Debug I32U22)
     {| mixed_atan := fun x => Ok x; mixed_atan2 := fun _ _ => Ok 3294199; mixed_atan2_poly := fun _ _ => Ok 0 |}
     {| mixed_sin := fun x => Ok x; mixed_sincos := fun _ => Ok (fone I32U22 - 1, -8); mixed_asin := fun x => Ok x |}
     (fx_of_int Debug I32U22) (mkC (fone I32U22) (fone I32U22)) 2
   = (r <- fx_of_float Debug I32U22 (d32 (-16712577) (-42)) ;; i <- fx_of_float Debug I32U22 (d32 16743955 (-23)) ;; Ok (mkC r i))) /\
  map_res rep (ops_abs float_ops (float_sqrt Debug (Bsqrt mode_NE) fuel) float_powi (c32 1 0)) = Ok (Some (false, 8388608, -23)).
Proof. split; vm_compute; reflexivity. Qed.
