(** * Properties C29-C38, C44, C47-C49: complex arithmetic. *)

From Coq Require Import ZArith Reals Lia List Bool.
From Flocq Require Import Core.Core IEEE754.BinarySingleNaN.
From Verif Require Import Base FloatBase Traits Trig IntImpl FixedPrim FixedImpl FloatImpl Complex Spec
  Lemmas ScalarProofs FloatLemmas FloatProofs ScalarProofs2 ComplexProofs ComplexProofs2 ComplexProofs3.
Import ListNotations.
Open Scope Z_scope.

(** C29.  [word_arith m t O]: [O] is the arithmetic of an integer type [t], or of a fixed
    format on the integer type [t], in profile [m]. *)
Theorem C29_add_sub : forall m t O, word_arith m t O -> 8 <= iwidth t ->
  forall z w, cvalid t z -> cvalid t w ->
  (m = Release ->
     cartesian_add O z w = Ok (mkC (wrap t (re z + re w)) (wrap t (im z + im w))) /\
     cartesian_sub O z w = Ok (mkC (wrap t (re z - re w)) (wrap t (im z - im w)))) /\
  (m = Debug ->
     (in_range t (re z + re w) /\ in_range t (im z + im w) ->
        cartesian_add O z w = Ok (mkC (re z + re w) (im z + im w))) /\
     (~ (in_range t (re z + re w) /\ in_range t (im z + im w)) ->
        cartesian_add O z w = Panic POverflow) /\
     (in_range t (re z - re w) /\ in_range t (im z - im w) ->
        cartesian_sub O z w = Ok (mkC (re z - re w) (im z - im w))) /\
     (~ (in_range t (re z - re w) /\ in_range t (im z - im w)) ->
        cartesian_sub O z w = Panic POverflow)) /\
  cartesian_add O z w = cartesian_add O w z /\
  (forall s, cartesian_add O z w = Ok s -> cartesian_sub O s w = Ok z) /\
  ops_add O z w = cartesian_add O z w /\ ops_sub O z w = cartesian_sub O z w.
Proof. exact add_sub_all. Qed.
Print Assumptions C29_add_sub.
Example C29_ex : cvalid i8 (mkC 100 (-3)) /\ cvalid i8 (mkC 27 5) /\
  cartesian_add (int_ops Debug i8) (mkC 100 (-3)) (mkC 27 5) = Ok (mkC 127 2) /\
  cartesian_add (int_ops Debug i8) (mkC 100 (-3)) (mkC 28 5) = Panic POverflow.
Proof. repeat split; vm_compute; congruence. Qed.

(** C30 is false: [+=] and [-=] add to (subtract from) the new real part. *)
Theorem C30_compound_assign_refuted : forall m,
  cartesian_add (int_ops m i32) (mkC 1 2) (mkC 3 4) = Ok (mkC 4 6) /\
  cartesian_add_assign (int_ops m i32) (mkC 1 2) (mkC 3 4) = Ok (mkC 4 8) /\
  cartesian_sub (int_ops m i32) (mkC 1 2) (mkC 3 4) = Ok (mkC (-2) (-2)) /\
  cartesian_sub_assign (int_ops m i32) (mkC 1 2) (mkC 3 4) = Ok (mkC (-2) (-6)) /\
  cartesian_add_assign (float_ops : MixedOps f64) (mkC (float_of_Z 53 1024 1) (float_of_Z 53 1024 2))
     (mkC (float_of_Z 53 1024 3) (float_of_Z 53 1024 4))
   <> cartesian_add float_ops (mkC (float_of_Z 53 1024 1) (float_of_Z 53 1024 2))
     (mkC (float_of_Z 53 1024 3) (float_of_Z 53 1024 4)).
Proof. exact compound_refuted. Qed.
Print Assumptions C30_compound_assign_refuted.

(** Exactly when [+=] agrees with [+]: the old imaginary part equals the new real part
    (modulo the word size).  The real parts always agree.  Missing: everything else, where
    the property is false. *)
Theorem C30_compound_assign_iff_partial : forall m t O, word_arith m t O -> 8 <= iwidth t ->
  forall z w, cvalid t z -> cvalid t w ->
  (forall r r', cartesian_add_assign O z w = Ok r -> cartesian_add O z w = Ok r' ->
     re r = re r' /\ (r = r' <-> congr t (im z) (re z + re w))) /\
  (forall r r', cartesian_sub_assign O z w = Ok r -> cartesian_sub O z w = Ok r' ->
     re r = re r' /\ (r = r' <-> congr t (im z) (re z - re w))).
Proof. exact compound_iff. Qed.
Print Assumptions C30_compound_assign_iff_partial.
Example C30_ex : cvalid i32 (mkC 1 4) /\
  cartesian_add_assign (int_ops Debug i32) (mkC 1 4) (mkC 3 4) = cartesian_add (int_ops Debug i32) (mkC 1 4) (mkC 3 4) /\
  congr i32 4 (1 + 3).
Proof. repeat split; try (vm_compute; congruence). exists 0. reflexivity. Qed.

(** C31 is false, with the same root cause. *)
Theorem C31_accumulate_refuted : forall m,
  run (cartesian_add_assign (int_ops m i32)) (mkC 0 0) [mkC 1 1; mkC 1 1; mkC 1 1] = Ok (mkC 3 4) /\
  run (cartesian_add (int_ops m i32)) (mkC 0 0) [mkC 1 1; mkC 1 1; mkC 1 1] = Ok (mkC 3 3).
Proof. exact accumulate_refuted. Qed.
Print Assumptions C31_accumulate_refuted.
(** What any history of [+=] computes: the real part is the sum (as required); the imaginary
    part is that sum plus the last imaginary part.  With [z = z + w] instead, both are sums. *)
Theorem C31_history_partial : forall m t O, word_arith m t O -> 8 <= iwidth t ->
  forall ws z, cvalid t z ->
  (forall r, run (cartesian_add_assign O) z ws = Ok r ->
     re r = wrap t (re z + sumZ (map re ws)) /\
     im r = match ws with
            | [] => im z
            | _ => wrap t (re z + sumZ (map re ws) + im (last ws z))
            end) /\
  (forall r, run (cartesian_add O) z ws = Ok r ->
     r = mkC (wrap t (re z + sumZ (map re ws))) (wrap t (im z + sumZ (map im ws)))) /\
  (m = Release -> exists r, run (cartesian_add_assign O) z ws = Ok r).
Proof. exact history_all. Qed.
Print Assumptions C31_history_partial.
Example C31_ex : run (cartesian_add_assign (int_ops Debug i16)) (mkC 5 (-7)) [mkC 2 3; mkC (-1) 40] = Ok (mkC 6 46) /\ cvalid i16 (mkC 5 (-7)).
Proof. split; [reflexivity|]. cbv. repeat split; discriminate. Qed.

(** C32: integer scalars added to integer or fixed complex numbers; histories of [+=]. *)
Theorem C32_scalar_int : forall m t t1, In t int_types -> In t1 int_types ->
  forall z ss r, cvalid t z ->
  run (cartesian_add_assign_scalar (int_ops m t) (int_conv_int t t1)) z ss = Ok r ->
  re r = wrap t (re z + sumZ ss) /\ im r = im z.
Proof. exact scalar_int_all. Qed.
Print Assumptions C32_scalar_int.
Theorem C32_scalar_fixed : forall m f t1, supported f = true ->
  forall z ss r, cvalid (fity f) z ->
  run (cartesian_add_assign_scalar (fixed_ops m f) (fixed_conv_int m f t1)) z ss = Ok r ->
  re r = wrap (fity f) (re z + sumZ ss * 2 ^ ffrac f) /\ im r = im z.
Proof. exact scalar_fixed_all. Qed.
Print Assumptions C32_scalar_fixed.
(** any component and scalar type: the scalar is converted, only the real part changes for
    [+]/[-], both parts are scaled for [*], and the assigning forms agree. *)
Theorem C32_scalar_generic : forall T1 T2 (O : MixedOps T2) (C : MixedNumConversion T1 T2) z s,
  (forall r, cartesian_add_scalar O C z s = Ok r -> exists c, mixed_from_num C s = Ok c /\
     o_add O (re z) c = Ok (re r) /\ im r = im z) /\
  (forall r, cartesian_sub_scalar O C z s = Ok r -> exists c, mixed_from_num C s = Ok c /\
     o_sub O (re z) c = Ok (re r) /\ im r = im z) /\
  (forall r, cartesian_mul_scalar O C z s = Ok r -> exists c, mixed_from_num C s = Ok c /\
     o_mul O (re z) c = Ok (re r) /\ o_mul O (im z) c = Ok (im r)) /\
  cartesian_add_assign_scalar O C z s = cartesian_add_scalar O C z s /\
  cartesian_sub_assign_scalar O C z s = cartesian_sub_scalar O C z s.
Proof. exact scalar_generic_all. Qed.
Print Assumptions C32_scalar_generic.
Example C32_ex : run (cartesian_add_assign_scalar (fixed_ops Debug (mkFty true 32 22)) (fixed_conv_int Debug (mkFty true 32 22) i32))
  (mkC 5 7) [1; 2; -4] = Ok (mkC (5 - 2 ^ 22) 7).
Proof. vm_compute. reflexivity. Qed.

(** C33: products. *)
Theorem C33_mul_int : forall t, In t int_types -> forall z w, cvalid t z -> cvalid t w ->
  cartesian_mul (int_ops Release t) z w =
    Ok (mkC (wrap t (re z * re w - im z * im w)) (wrap t (re z * im w + im z * re w))) /\
  (forall r, cartesian_mul (int_ops Debug t) z w = Ok r ->
     r = mkC (re z * re w - im z * im w) (re z * im w + im z * re w)).
Proof. exact mul_int_all. Qed.
Print Assumptions C33_mul_int.
Theorem C33_mul_ring : forall t, In t int_types -> forall x y z,
  let mul := cartesian_mul (int_ops Release t) in
  let add := cartesian_add (int_ops Release t) in
  mul x y = mul y x /\
  (xy <- mul x y ;; mul xy z) = (yz <- mul y z ;; mul x yz) /\
  (s <- add y z ;; mul x s) = (a <- mul x y ;; b <- mul x z ;; add a b).
Proof. exact mul_ring_all. Qed.
Print Assumptions C33_mul_ring.
(** fixed point: when the debug build returns, the real part is within 1 ulp and the
    imaginary part within 2 ulp (from below) of the exact product; release returns the same. *)
Theorem C33_mul_fixed : forall f, supported f = true -> forall z w r, cvalid (fity f) z -> cvalid (fity f) w ->
  cartesian_mul (fixed_ops Debug f) z w = Ok r ->
  (Rabs (fval f (re r) - (fval f (re z) * fval f (re w) - fval f (im z) * fval f (im w))) < ulp f)%R /\
  (-2 * ulp f < fval f (im r) - (fval f (re z) * fval f (im w) + fval f (im z) * fval f (re w)) <= 0)%R /\
  cartesian_mul (fixed_ops Release f) z w = Ok r.
Proof. exact mul_fixed_all. Qed.
Print Assumptions C33_mul_fixed.
Theorem C33_mul_comm :
  (forall m t O, word_arith m t O -> forall z w, cartesian_mul O z w = cartesian_mul O w z) /\
  (forall z w : Cartesian f32, cartesian_mul float_ops z w = cartesian_mul float_ops w z) /\
  (forall z w : Cartesian f64, cartesian_mul float_ops z w = cartesian_mul float_ops w z).
Proof. exact (conj cmul_word_comm (conj (@float_mul_comm 24 128 _ _) (@float_mul_comm 53 1024 _ _))). Qed.
Print Assumptions C33_mul_comm.
Example C33_ex : cvalid i16 (mkC 3 (-4)) /\ cartesian_mul (int_ops Debug i16) (mkC 3 (-4)) (mkC 5 6) = Ok (mkC 39 (-2)).
Proof. repeat split; vm_compute; congruence. Qed.
Example C33_fixed_ex : cartesian_mul (fixed_ops Debug (mkFty true 32 22)) (mkC 3000000 (-4000000)) (mkC 5000000 6000000)
  = Ok (mkC 9298324 (-476838)).
Proof. vm_compute. reflexivity. Qed.

(** C34: conjugation. *)
Theorem C34_conj_word : forall m t, 8 <= iwidth t -> isigned t = true ->
  forall z, cvalid t z ->
  (im z <> imin t -> cartesian_conj (int_signed m t) z = Ok (mkC (re z) (- im z))) /\
  (im z = imin t -> cartesian_conj (int_signed m t) z =
     match m with Debug => Panic POverflow | Release => Ok z end) /\
  (forall c, cartesian_conj (int_signed m t) z = Ok c -> cartesian_conj (int_signed m t) c = Ok z).
Proof. exact conj_word_all. Qed.
Print Assumptions C34_conj_word.
Theorem C34_conj_fixed : forall m f, supported f = true -> fsigned f = true -> forall z, cvalid (fity f) z ->
  (forall c, cartesian_conj (fixed_signed m f) z = Ok c -> im z <> imin (fity f) ->
     fval f (re c) = fval f (re z) /\ fval f (im c) = (- fval f (im z))%R) /\
  (im z <> imin (fity f) -> exists c, cartesian_conj (fixed_signed m f) z = Ok c) /\
  (im z = imin (fity f) -> cartesian_conj (fixed_signed m f) z =
     match m with Debug => Panic POverflow | Release => Ok z end) /\
  (forall c, cartesian_conj (fixed_signed m f) z = Ok c -> cartesian_conj (fixed_signed m f) c = Ok z).
Proof. exact conj_fixed_all. Qed.
Print Assumptions C34_conj_fixed.
Theorem C34_conj_homomorphism : forall t, In t int_types -> forall z w,
  let add := cartesian_add (int_ops Release t) in
  let mul := cartesian_mul (int_ops Release t) in
  let conj := cartesian_conj (int_signed Release t) in
  (s <- add z w ;; conj s) = (a <- conj z ;; b <- conj w ;; add a b) /\
  (s <- mul z w ;; conj s) = (a <- conj z ;; b <- conj w ;; mul a b).
Proof. exact conj_hom_all. Qed.
Print Assumptions C34_conj_homomorphism.
(** floats: equal bit for bit, except that an imaginary part that is zero may differ in sign *)
Theorem C34_conj_float : 
  (forall z w : Cartesian f64,
   (c <- cartesian_conj float_signed z ;; cartesian_conj float_signed c) = Ok z /\
   (exists p q, (s <- cartesian_mul float_ops z w ;; cartesian_conj float_signed s) = Ok p /\
     (a <- cartesian_conj float_signed z ;; b <- cartesian_conj float_signed w ;; cartesian_mul float_ops a b) = Ok q /\
     re p = re q /\ same_float (im q) (im p)) /\
   (exists p q, (s <- cartesian_add float_ops z w ;; cartesian_conj float_signed s) = Ok p /\
     (a <- cartesian_conj float_signed z ;; b <- cartesian_conj float_signed w ;; cartesian_add float_ops a b) = Ok q /\
     re p = re q /\ same_float (im q) (im p))) /\
  (forall z w : Cartesian f32,
   (c <- cartesian_conj float_signed z ;; cartesian_conj float_signed c) = Ok z /\
   (exists p q, (s <- cartesian_mul float_ops z w ;; cartesian_conj float_signed s) = Ok p /\
     (a <- cartesian_conj float_signed z ;; b <- cartesian_conj float_signed w ;; cartesian_mul float_ops a b) = Ok q /\
     re p = re q /\ same_float (im q) (im p)) /\
   (exists p q, (s <- cartesian_add float_ops z w ;; cartesian_conj float_signed s) = Ok p /\
     (a <- cartesian_conj float_signed z ;; b <- cartesian_conj float_signed w ;; cartesian_add float_ops a b) = Ok q /\
     re p = re q /\ same_float (im q) (im p))).
Proof. exact (conj (@conj_float_all 53 1024 _ _) (@conj_float_all 24 128 _ _)). Qed.
Print Assumptions C34_conj_float.
Example C34_ex : cvalid i8 (mkC 3 (-128)) /\ cartesian_conj (int_signed Debug i8) (mkC 3 (-128)) = Panic POverflow /\
  cartesian_conj (int_signed Debug i8) (mkC 3 (-127)) = Ok (mkC 3 127).
Proof. repeat split; vm_compute; congruence. Qed.

(** C35 is false: the divisor's real part is used twice. *)
Theorem C35_div_refuted : forall m,
  (* 2 / i = -2i, but the code divides by zero *)
  cartesian_div (int_ops m i32) (int_powi m i32) (mkC 2 0) (mkC 0 1) = Panic PDivZero /\
  (* (4+4i)/2 = 2+2i, but the code returns 2 *)
  cartesian_div (int_ops m i32) (int_powi m i32) (mkC 4 4) (mkC 2 0) = Ok (mkC 2 0) /\
  cartesian_div (fixed_ops m (mkFty true 32 22)) (fixed_powi m (mkFty true 32 22))
     (mkC (4 * 2 ^ 22) (4 * 2 ^ 22)) (mkC (2 * 2 ^ 22) 0) = Ok (mkC (2 * 2 ^ 22) 0).
Proof. exact div_refuted. Qed.
Print Assumptions C35_div_refuted.
(** What division computes (debug, integers): the quotient by (c + c i), whatever the divisor's
    imaginary part.  So it is the (truncated) complex quotient exactly when c = d; a purely
    imaginary divisor always divides by zero. *)
Theorem C35_div_partial : forall t, In t int_types -> forall z w, cvalid t z -> cvalid t w ->
  let c := re w in
  (forall r, cartesian_div (int_ops Debug t) (int_powi Debug t) z w = Ok r ->
     re r = Z.quot (re z * c + im z * c) (c * c + c * c) /\
     im r = Z.quot (im z * c - re z * c) (c * c + c * c)) /\
  (im w = re w -> forall r, cartesian_div (int_ops Debug t) (int_powi Debug t) z w = Ok r ->
     re r = Z.quot (re z * re w + im z * im w) (re w * re w + im w * im w) /\
     im r = Z.quot (im z * re w - re z * im w) (re w * re w + im w * im w)) /\
  (forall m, re w = 0 -> cartesian_div (int_ops m t) (int_powi m t) z w = Panic PDivZero) /\
  (forall m d, cartesian_div (int_ops m t) (int_powi m t) z (mkC (re w) d) =
               cartesian_div (int_ops m t) (int_powi m t) z w).
Proof. exact div_int_all. Qed.
Print Assumptions C35_div_partial.
(** the same blindness on every type, and for [/=] and div_cartesian *)
Theorem C35_div_ignores_im : forall T (O : MixedOps T) W z w d,
  cartesian_div O W z (mkC (re w) d) = cartesian_div O W z w /\
  cartesian_div_assign O W z (mkC (re w) d) = cartesian_div O W z w /\
  ops_div_cartesian O W z (mkC (re w) d) = cartesian_div O W z w.
Proof. exact div_ignores_im_all. Qed.
Print Assumptions C35_div_ignores_im.
Theorem C35_div_imaginary_fixed : forall m f z w, supported f = true -> re w = 0 ->
  cartesian_div (fixed_ops m f) (fixed_powi m f) z w = Panic PDivZero.
Proof. exact div_imaginary_fixed. Qed.
Print Assumptions C35_div_imaginary_fixed.
Example C35_ex : cartesian_div (int_ops Debug i32) (int_powi Debug i32) (mkC 20 4) (mkC 2 2) = Ok (mkC 6 (-4)).
Proof. vm_compute. reflexivity. Qed.

(** C36: [z / 0] saturates on every type, [z /= 0] does not. *)
Theorem C36_div_zero : 
  (forall m t t1, In t int_types -> In t1 int_types -> forall z,
     cartesian_div_scalar (int_ops m t1) (int_ops m t) (int_conv_int t t1) (int_zero t1) (int_real m t) z 0
       = Ok (mkC (imax t) (imax t))) /\
  (forall m f t1, supported f = true -> In t1 int_types -> forall z,
     cartesian_div_scalar (int_ops m t1) (fixed_ops m f) (fixed_conv_int m f t1) (int_zero t1) (fixed_real m f) z 0
       = Ok (mkC (fmax f) (fmax f))) /\
  (forall m f, supported f = true -> forall z s,
     cartesian_div_scalar float_ops (fixed_ops m f) (fixed_conv_f64 m f) float_zero (fixed_real m f) z (B754_zero s)
       = Ok (mkC (fmax f) (fmax f))) /\
  (forall (z : Cartesian f64) s,
     cartesian_div_scalar float_ops float_ops (float_conv_float 53 1024) float_zero float_real z (B754_zero s : f64)
       = Ok (mkC Bmax_float Bmax_float)) /\
  (forall m f, supported f = true -> forall z,
     ops_div_scalar_cartesian (fixed_ops m f) (fixed_real m f) z 0 = Ok (mkC (fmax f) (fmax f))) /\
  (forall m f, supported f = true -> forall p,
     polar_div_real (fixed_ops m f) (fixed_real m f) (fixed_zero m f) p 0 = Ok (mkP (fmax f) (ang p))).
Proof. exact div_zero_all. Qed.
Print Assumptions C36_div_zero.
(** C36, [/=]: false on every type. *)
Theorem C36_div_assign_zero_refuted :
  (forall m t t1, In t int_types -> In t1 int_types -> forall z,
     cartesian_div_assign_scalar (int_ops m t1) (int_ops m t) (int_conv_int t t1) (int_zero t1) (int_real m t) z 0
       = Panic PDivZero) /\
  (forall m f t1, supported f = true -> In t1 int_types -> forall z,
     cartesian_div_assign_scalar (int_ops m t1) (fixed_ops m f) (fixed_conv_int m f t1) (int_zero t1) (fixed_real m f) z 0
       = Panic PDivZero) /\
  (forall m f, supported f = true -> forall z s,
     cartesian_div_assign_scalar float_ops (fixed_ops m f) (fixed_conv_f64 m f) float_zero (fixed_real m f) z (B754_zero s)
       = Panic PDivZero) /\
  (forall (z : Cartesian f64) s,
     cartesian_div_assign_scalar float_ops float_ops (float_conv_float 53 1024) float_zero float_real z (B754_zero s : f64)
       = Ok (mkC (B754_infinity s) (B754_infinity s))).
Proof. exact div_assign_zero_all. Qed.
Print Assumptions C36_div_assign_zero_refuted.
(** 3 - 4i on FixedI16<U8>, divided by the i32 0 both ways *)
Example C36_ex : let f := mkFty true 16 8 in
  cartesian_div_scalar (int_ops Debug i32) (fixed_ops Debug f) (fixed_conv_int Debug f i32) (int_zero i32) (fixed_real Debug f) (mkC 768 (-1024)) 0 = Ok (mkC 32767 32767) /\
  cartesian_div_assign_scalar (int_ops Debug i32) (fixed_ops Debug f) (fixed_conv_int Debug f i32) (int_zero i32) (fixed_real Debug f) (mkC 768 (-1024)) 0 = Panic PDivZero.
Proof. split; reflexivity. Qed.

(** C37 is false: a non-zero scalar may convert to zero. *)
Theorem C37_div_scalar_refuted : 
  let f := mkFty true 32 22 in
  (forall m, exists s : f64, (0 < B2R s)%R /\
     cartesian_div_scalar float_ops (fixed_ops m f) (fixed_conv_f64 m f) float_zero (fixed_real m f) (mkC 1 1) s = Panic PDivZero) /\
  cartesian_div_scalar (int_ops Release i32) (fixed_ops Release f) (fixed_conv_int Release f i32) (int_zero i32) (fixed_real Release f) (mkC 1 1) 1024
     = Panic PDivZero.
Proof. exact div_scalar_refuted. Qed.
Print Assumptions C37_div_scalar_refuted.
(** Division by zero happens exactly when a scalar that is not zero converts to zero; integer
    scalars never do in debug builds, nor into integers at least as wide.  Missing: the
    scalars that convert to zero, where the property is false. *)
Theorem C37_div_scalar_partial :
  (forall m t O, word_arith m t O ->
   forall T1 (O1 : MixedOps T1) C Z1 R z s zero,
   mixed_zero Z1 = Ok zero -> mixed_from_num C s <> Panic PDivZero ->
   (cartesian_div_scalar O1 O C Z1 R z s = Panic PDivZero <->
    o_eq O1 s zero = false /\ mixed_from_num C s = Ok 0)) /\
  (forall m t t1, In t int_types -> In t1 int_types -> iwidth t1 <= iwidth t -> forall z s, in_range t1 s ->
     cartesian_div_scalar (int_ops m t1) (int_ops m t) (int_conv_int t t1) (int_zero t1) (int_real m t) z s
       <> Panic PDivZero) /\
  (forall f t1, supported f = true -> In t1 int_types -> forall z s, in_range t1 s ->
     cartesian_div_scalar (int_ops Debug t1) (fixed_ops Debug f) (fixed_conv_int Debug f t1) (int_zero t1) (fixed_real Debug f) z s
       <> Panic PDivZero).
Proof. exact div_scalar_partial_all. Qed.
Print Assumptions C37_div_scalar_partial.
Example C37_ex : cartesian_div_scalar (int_ops Debug i32) (fixed_ops Debug (mkFty true 32 22)) (fixed_conv_int Debug (mkFty true 32 22) i32)
   (int_zero i32) (fixed_real Debug (mkFty true 32 22)) (mkC 9 (-9)) 2 = Ok (mkC 4 (-4)).
Proof. vm_compute. reflexivity. Qed.

(** C38: polar products. *)
Theorem C38_polar_mul_word : forall m t O, word_arith m t O -> 
  (exists f, O = fixed_ops m f /\ supported f = true) \/ (O = int_ops m t /\ In t int_types) ->
  forall p q,
  (mag p = 0 \/ mag q = 0 -> polar_mul O p q = Ok (mkP 0 0)) /\
  (mag p <> 0 -> mag q <> 0 -> forall r, polar_mul O p q = Ok r <->
     o_mul O (mag p) (mag q) = Ok (mag r) /\ o_add O (ang p) (ang q) = Ok (ang r)) /\
  polar_mul O p q = polar_mul O q p.
Proof. exact polar_mul_word_all. Qed.
Print Assumptions C38_polar_mul_word.
Theorem C38_polar_one : 
  (forall m t p o, In t int_types -> in_range t (mag p) -> in_range t (ang p) -> mag p <> 0 ->
    polar_one (int_zero t) (int_one t) = Ok o ->
    polar_mul (int_ops m t) p o = Ok p /\ polar_mul (int_ops m t) o p = Ok p) /\
  (forall m f p o, supported f = true -> fvalid f (mag p) -> fvalid f (ang p) -> mag p <> 0 ->
    polar_one (fixed_zero m f) (fixed_one m f) = Ok o ->
    polar_mul (fixed_ops m f) p o = Ok p /\ polar_mul (fixed_ops m f) o p = Ok p).
Proof. exact polar_one_all. Qed.
Print Assumptions C38_polar_one.
Theorem C38_polar_mul_f64 : forall p q : Polar f64,
  (Bcompare (mag p) (B754_zero false) = Some Eq \/ Bcompare (mag q) (B754_zero false) = Some Eq ->
     polar_mul float_ops p q = Ok (mkP (B754_zero false) (B754_zero false))) /\
  (Bcompare (mag p) (B754_zero false) <> Some Eq -> Bcompare (mag q) (B754_zero false) <> Some Eq ->
     polar_mul float_ops p q = Ok (mkP (Bmult mode_NE (mag p) (mag q)) (Bplus mode_NE (ang p) (ang q)))) /\
  polar_mul float_ops p q = polar_mul float_ops q p /\
  (forall s, polar_mul_real float_ops p s = Ok (mkP (Bmult mode_NE (mag p) s) (ang p))).
Proof. exact (@polar_mul_float_all 53 1024 _ _). Qed.
Print Assumptions C38_polar_mul_f64.
Example C38_ex : polar_mul (int_ops Debug i32) (mkP 3 4) (mkP 5 (-6)) = Ok (mkP 15 (-2)).
Proof. reflexivity. Qed.

(** C44: conversions of complex numbers, any types. *)
Theorem C44_complex_conv : forall T1 T2 (C : MixedNumConversion T1 T2) (Z1 : MixedZero T1) (Z2 : MixedZero T2),
  (forall c r, mixed_from_num (cartesian_conv_cartesian C) c = Ok r <->
     mixed_from_num C (re c) = Ok (re r) /\ mixed_from_num C (im c) = Ok (im r)) /\
  (forall c, mixed_from_num (real_conv_cartesian C Z1) c = mixed_from_num C (re c)) /\
  ((forall a b, mixed_from_num C a = Ok b -> mixed_to_num C b = Ok a) ->
     (forall c r, mixed_from_num (cartesian_conv_cartesian C) c = Ok r ->
        mixed_to_num (cartesian_conv_cartesian C) r = Ok c) /\
     (forall x p, mixed_from_num (polar_conv_real C Z2) x = Ok p ->
        mixed_to_num (polar_conv_real C Z2) p = Ok x)) /\
  ((forall b a, mixed_to_num C b = Ok a -> mixed_from_num C a = Ok b) ->
     forall x c, mixed_to_num (real_conv_cartesian C Z1) x = Ok c ->
       mixed_zero Z1 = Ok (im c) /\ mixed_from_num (real_conv_cartesian C Z1) c = Ok x).
Proof. exact complex_conv_all. Qed.
Print Assumptions C44_complex_conv.
Example C44_ex : mixed_from_num (cartesian_conv_cartesian (fixed_conv_int Debug (mkFty true 32 22) i8)) (mkC 5 (-7))
  = Ok (mkC (5 * 2 ^ 22) (-7 * 2 ^ 22)).
Proof. vm_compute. reflexivity. Qed.

(** C47: decibels, for any log10/exp10. *)
Theorem C47_db_f64 : forall (L : Mixedlog10 f64) (E : MixedExp10 f64) x,
  (forall p r, mixed_pow2db (float_dbpow L E) x = Ok p -> mixed_mag2db (float_dbmag L E) x = Ok r ->
     r = Bmult mode_NE (float_of_Z 53 1024 2) p) /\
  (is_finite (Bmult mode_NE (float_of_Z 53 1024 2) x) = true ->
     mixed_db2mag (float_dbmag L E) (Bmult mode_NE (float_of_Z 53 1024 2) x) = mixed_db2pow (float_dbpow L E) x).
Proof. intros L E x. exact (conj (@mag2db_pow2db 53 1024 _ _ eq_refl ltac:(discriminate) L E x) (@db2mag_db2pow 53 1024 _ _ eq_refl ltac:(discriminate) L E x)). Qed.
Print Assumptions C47_db_f64.
Theorem C47_db_f32 : forall (L : Mixedlog10 f32) (E : MixedExp10 f32) x,
  (forall p r, mixed_pow2db (float_dbpow L E) x = Ok p -> mixed_mag2db (float_dbmag L E) x = Ok r ->
     r = Bmult mode_NE (float_of_Z 24 128 2) p) /\
  (is_finite (Bmult mode_NE (float_of_Z 24 128 2) x) = true ->
     mixed_db2mag (float_dbmag L E) (Bmult mode_NE (float_of_Z 24 128 2) x) = mixed_db2pow (float_dbpow L E) x).
Proof. intros L E x. exact (conj (@mag2db_pow2db 24 128 _ _ eq_refl ltac:(discriminate) L E x) (@db2mag_db2pow 24 128 _ _ eq_refl ltac:(discriminate) L E x)). Qed.
Print Assumptions C47_db_f32.
Example C47_ex : is_finite (Bmult mode_NE (float_of_Z 24 128 2) (float_of_Z 24 128 30)) = true.
Proof. vm_compute. reflexivity. Qed.

(** C48: ordering. *)
Theorem C48_cartesian_order : forall m t O, word_arith m t O ->
  (forall a b, cartesian_cmp O a b = Some Lt <-> re a < re b \/ (re a = re b /\ im a < im b)) /\
  (forall a b, cartesian_cmp O a b = Some Eq <-> a = b) /\
  (forall a b, cartesian_eq O a b = true <-> a = b) /\
  (forall a b, cartesian_cmp O a b = Some Gt <-> cartesian_cmp O b a = Some Lt) /\
  (forall a b c, cartesian_cmp O a b = Some Lt -> cartesian_cmp O b c = Some Lt -> cartesian_cmp O a c = Some Lt) /\
  (forall a b, cartesian_cmp O a b <> None).
Proof. exact cartesian_order. Qed.
Print Assumptions C48_cartesian_order.
Theorem C48_polar_order : forall m t O, word_arith m t O ->
  (forall a b, polar_cmp O a b = Some Lt <-> mag a < mag b \/ (mag a = mag b /\ ang a < ang b)) /\
  (forall a b, polar_cmp O a b = Some Eq <-> a = b) /\
  (forall a b, polar_cmp O a b = Some Gt <-> polar_cmp O b a = Some Lt) /\
  (forall a b, polar_cmp O a b <> None).
Proof. exact polar_order. Qed.
Print Assumptions C48_polar_order.
Theorem C48_default_zero : 
  (forall m f, supported f = true -> cartesian_zero (fixed_zero m f) = Ok (cartesian_default 0) /\
     polar_zero (fixed_zero m f) = Ok (polar_default 0)) /\
  (forall t, In t int_types -> cartesian_zero (int_zero t) = Ok (cartesian_default 0) /\
     polar_zero (int_zero t) = Ok (polar_default 0)) /\
  cartesian_zero (float_zero (prec:=53) (emax:=1024)) = Ok (cartesian_default (B754_zero false)) /\
  cartesian_zero (float_zero (prec:=24) (emax:=128)) = Ok (cartesian_default (B754_zero false)).
Proof. exact default_zero_all. Qed.
Print Assumptions C48_default_zero.
Example C48_ex : cartesian_cmp (int_ops Debug i32) (mkC 1 5) (mkC 1 7) = Some Lt /\
  cartesian_cmp (int_ops Debug i32) (mkC 2 5) (mkC 1 7) = Some Gt.
Proof. split; reflexivity. Qed.

(** C49: complex exponential. *)
Theorem C49_exp_value : forall T (O : MixedOps T) Sn E z s c e r i,
  mixed_sincos Sn (im z) = Ok (s, c) -> mixed_exp E (re z) = Ok e ->
  o_mul O c e = Ok r -> o_mul O s e = Ok i -> cartesian_exp O Sn E z = Ok (mkC r i).
Proof. exact exp_value. Qed.
Print Assumptions C49_exp_value.
Theorem C49_exp_conj : 
  (forall (Sn : MixedSin f64) (E : MixedExp f64),
    (forall y s c, mixed_sincos Sn y = Ok (s, c) -> mixed_sincos Sn (Bopp y) = Ok (Bopp s, c)) ->
    forall z r, cartesian_exp float_ops Sn E z = Ok r ->
    (c <- cartesian_conj float_signed z ;; cartesian_exp float_ops Sn E c) = cartesian_conj float_signed r) /\
  (forall (Sn : MixedSin f32) (E : MixedExp f32),
    (forall y s c, mixed_sincos Sn y = Ok (s, c) -> mixed_sincos Sn (Bopp y) = Ok (Bopp s, c)) ->
    forall z r, cartesian_exp float_ops Sn E z = Ok r ->
    (c <- cartesian_conj float_signed z ;; cartesian_exp float_ops Sn E c) = cartesian_conj float_signed r).
Proof. exact (conj (@float_exp_conj 53 1024 _ _) (@float_exp_conj 24 128 _ _)). Qed.
Print Assumptions C49_exp_conj.
(** a sincos routine meeting the hypothesis *)
Example C49_ex : forall y s c, mixed_sincos (Build_MixedSin f64 (fun x => Ok x) (fun x => Ok (x, Bone)) (fun x => Ok x)) y = Ok (s, c) ->
  mixed_sincos (Build_MixedSin f64 (fun x => Ok x) (fun x => Ok (x, Bone)) (fun x => Ok x)) (Bopp y) = Ok (Bopp s, c).
Proof. intros y s c H. inversion H. reflexivity. Qed.
