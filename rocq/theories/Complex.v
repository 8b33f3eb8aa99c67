(** * Complex: src/complex.rs, src/complex/ops.rs, src/complex/cartesian_impl.rs,
    src/complex/polar_impl.rs.

    [&mut self] methods return the new value.  Right-hand sides taken by value, by [&] or
    by [&mut], and [num::Complex<T>] (same two fields) share one definition: the macros
    expand to the same body. *)

From Coq Require Import ZArith.
From Verif Require Import Base FloatBase Traits Trig.
Open Scope Z_scope.

(** complex.rs:12-20 *)
Record Cartesian (T : Type) := mkC { re : T; im : T }.
Arguments mkC {T} re im. Arguments re {T} _. Arguments im {T} _.
(** complex.rs:22-30 *)
Record Polar (T : Type) := mkP { mag : T; ang : T }.
Arguments mkP {T} mag ang. Arguments mag {T} _. Arguments ang {T} _.

(** complex.rs:12,22 [derive(PartialOrd)]: lexicographic *)
Definition cartesian_cmp {T} (O : MixedOps T) (a b : Cartesian T) : option comparison :=
  match o_cmp O (re a) (re b) with
  | Some Eq => o_cmp O (im a) (im b)
  | c => c
  end.
Definition polar_cmp {T} (O : MixedOps T) (a b : Polar T) : option comparison :=
  match o_cmp O (mag a) (mag b) with
  | Some Eq => o_cmp O (ang a) (ang b)
  | c => c
  end.
(** complex.rs:12,22 [derive(PartialEq)]: componentwise *)
Definition cartesian_eq {T} (O : MixedOps T) (a b : Cartesian T) : bool :=
  andb (o_eq O (re a) (re b)) (o_eq O (im a) (im b)).
Definition polar_eq {T} (O : MixedOps T) (a b : Polar T) : bool :=
  andb (o_eq O (mag a) (mag b)) (o_eq O (ang a) (ang b)).
(** complex.rs:12,22 [derive(Default)]; every numeric type's [Default] is its zero *)
Definition cartesian_default {T} (d : T) : Cartesian T := mkC d d.
Definition polar_default {T} (d : T) : Polar T := mkP d d.

Section Ops.
Context {T : Type}.
Variable O : MixedOps T.

(** ** src/complex/ops.rs *)

(** ops.rs:73-81 *)
Definition ops_add (a b : Cartesian T) : res (Cartesian T) :=
  r <- o_add O (re a) (re b) ;; i <- o_add O (im a) (im b) ;; Ok (mkC r i).

(** ops.rs:86-94 *)
Definition ops_sub (a b : Cartesian T) : res (Cartesian T) :=
  r <- o_sub O (re a) (re b) ;; i <- o_sub O (im a) (im b) ;; Ok (mkC r i).

(** ops.rs:98-117; [||] does not evaluate its right operand when the left holds *)
Definition ops_mul_polar (a b : Polar T) : res (Polar T) :=
  z <- o_of_i32 O 0 ;;
  isz <- (if o_eq O (mag a) z then Ok true
          else (z' <- o_of_i32 O 0 ;; Ok (o_eq O (mag b) z'))) ;;
  if (isz : bool) then
    zm <- o_of_i32 O 0 ;; za <- o_of_i32 O 0 ;; Ok (mkP zm za)
  else
    mg <- o_mul O (mag a) (mag b) ;; an <- o_add O (ang a) (ang b) ;; Ok (mkP mg an).

(** ops.rs:121-132 *)
Definition ops_mul_cartesian (ab bc : Cartesian T) : res (Cartesian T) :=
  let a := re ab in let b := im ab in let c := re bc in let d := im bc in
  ac <- o_mul O a c ;; bd <- o_mul O b d ;; r <- o_sub O ac bd ;;
  ad <- o_mul O a d ;; bc <- o_mul O b c ;; i <- o_add O ad bc ;;
  Ok (mkC r i).

(** ops.rs:177-193 *)
Definition ops_div_scalar_cartesian (R : MixedReal T) (a : Cartesian T) (b : T)
  : res (Cartesian T) :=
  z <- o_of_i32 O 0 ;;
  if o_eq O b z then Ok (mkC (mixed_max_value R) (mixed_max_value R))
  else r <- o_div O (re a) b ;; i <- o_div O (im a) b ;; Ok (mkC r i).

(** ops.rs:198-211.  Line 206 reads [let d = denominator.re]. *)
Definition ops_div_cartesian (W : MixedPowi T) (numerator denominator : Cartesian T)
  : res (Cartesian T) :=
  let a := re numerator in let b := im numerator in
  let c := re denominator in let d := re denominator in
  ac <- o_mul O a c ;; bd <- o_mul O b d ;; n <- o_add O ac bd ;;
  c2 <- mixed_powi W c 2 ;; d2 <- mixed_powi W d 2 ;; s <- o_add O c2 d2 ;;
  r <- o_div O n s ;;
  bc <- o_mul O b c ;; ad <- o_mul O a d ;; n' <- o_sub O bc ad ;;
  c2 <- mixed_powi W c 2 ;; d2 <- mixed_powi W d 2 ;; s <- o_add O c2 d2 ;;
  i <- o_div O n' s ;;
  Ok (mkC r i).

(** ops.rs:35-40 *)
Definition ops_abs (Q : MixedSqrt T) (W : MixedPowi T) (a : Cartesian T) : res T :=
  r2 <- mixed_powi W (re a) 2 ;; i2 <- mixed_powi W (im a) 2 ;;
  r_sqr <- o_add O r2 i2 ;; mixed_sqrt Q r_sqr.

(** ops.rs:9-17 *)
Definition ops_to_polar (Q : MixedSqrt T) (W : MixedPowi T) (A : MixedAtan T)
  (x : Cartesian T) : res (Polar T) :=
  mg <- ops_abs Q W x ;; an <- mixed_atan2 A (im x) (re x) ;; Ok (mkP mg an).

(** ops.rs:58-69 *)
Definition ops_to_cartesian (Wr : MixedWrapPhase T) (Sn : MixedSin T) (a : Polar T)
  : res (Cartesian T) :=
  theta <- mixed_wrap_phase Wr (ang a) ;;
  sc <- mixed_sincos Sn theta ;;
  r <- o_mul O (mag a) (snd sc) ;; i <- o_mul O (mag a) (fst sc) ;; Ok (mkC r i).

(** ops.rs:157-172.  [of_usize] is [fixed::from_num::<usize>]; [power as i32] wraps. *)
Definition ops_powi (Q : MixedSqrt T) (W : MixedPowi T) (A : MixedAtan T) (Sn : MixedSin T)
  (of_usize : Z -> res T) (base : Cartesian T) (power : N) : res (Cartesian T) :=
  r2 <- mixed_powi W (re base) 2 ;; i2 <- mixed_powi W (im base) 2 ;;
  temp <- o_add O r2 i2 ;;
  sq <- mixed_sqrt Q temp ;;
  mg <- mixed_powi W sq (wrap i32 (Z.of_N power)) ;;
  at2 <- mixed_atan2 A (im base) (re base) ;;
  pw <- of_usize (Z.of_N power) ;;
  phi <- o_mul O at2 pw ;;
  sc <- mixed_sincos Sn phi ;;
  real <- o_mul O mg (snd sc) ;; imag <- o_mul O mg (fst sc) ;;
  Ok (mkC real imag).

(** ** src/complex/cartesian_impl.rs *)

(** cartesian_impl.rs:28-34 *)
Definition cartesian_new_from_polar (Wr : MixedWrapPhase T) (Sn : MixedSin T) (mg an : T)
  : res (Cartesian T) := ops_to_cartesian Wr Sn (mkP mg an).

(** cartesian_impl.rs:36-54 *)
Definition cartesian_to_cartesian (z : Cartesian T) : Cartesian T := z.
Definition cartesian_to_polar := ops_to_polar.

(** cartesian_impl.rs:56-80 *)
Definition cartesian_zero (Z0 : MixedZero T) : res (Cartesian T) :=
  r <- mixed_zero Z0 ;; i <- mixed_zero Z0 ;; Ok (mkC r i).
Definition cartesian_one (Z0 : MixedZero T) (One : MixedOne T) : res (Cartesian T) :=
  r <- mixed_one One ;; i <- mixed_zero Z0 ;; Ok (mkC r i).
Definition cartesian_mixed_to_complex (Z0 : MixedZero T) (number : T) : res (Cartesian T) :=
  i <- mixed_zero Z0 ;; Ok (mkC number i).

(** cartesian_impl.rs:98-101, 116-119, 124-127 *)
Definition cartesian_mag (Q : MixedSqrt T) (W : MixedPowi T) (z : Cartesian T) : res T :=
  r2 <- mixed_powi W (re z) 2 ;; i2 <- mixed_powi W (im z) 2 ;;
  s <- o_add O r2 i2 ;; mixed_sqrt Q s.
Definition cartesian_abs (Q : MixedSqrt T) (W : MixedPowi T) (z : Cartesian T) : res T :=
  cartesian_mag Q W z.
Definition cartesian_mixed_abs (Q : MixedSqrt T) (W : MixedPowi T) (Z0 : MixedZero T)
  (z : Cartesian T) : res (Cartesian T) :=
  r <- cartesian_mag Q W z ;; i <- mixed_zero Z0 ;; Ok (mkC r i).

(** cartesian_impl.rs:147-150, 167-170 *)
Definition cartesian_arg (A : MixedAtan T) (z : Cartesian T) : res T :=
  mixed_atan2 A (im z) (re z).
Definition cartesian_ang (A : MixedAtan T) (z : Cartesian T) : res T := cartesian_arg A z.

(** cartesian_impl.rs:173-194 *)
Definition cartesian_mul (z w : Cartesian T) : res (Cartesian T) := ops_mul_cartesian z w.

(** cartesian_impl.rs:235-259 *)
Definition cartesian_mul_polar (Wr : MixedWrapPhase T) (Sn : MixedSin T)
  (z : Cartesian T) (rhs : Polar T) : res (Cartesian T) :=
  w <- ops_to_cartesian Wr Sn rhs ;; ops_mul_cartesian z w.
Definition cartesian_mul_assign_polar (Wr : MixedWrapPhase T) (Sn : MixedSin T)
  (z : Cartesian T) (rhs : Polar T) : res (Cartesian T) :=
  w <- ops_to_cartesian Wr Sn rhs ;;
  temp <- cartesian_mul z w ;; Ok (mkC (re temp) (im temp)).

(** cartesian_impl.rs:301-307, 317-323 *)
Definition cartesian_add (z w : Cartesian T) : res (Cartesian T) :=
  r <- o_add O (re z) (re w) ;; i <- o_add O (im z) (im w) ;; Ok (mkC r i).
Definition cartesian_sub (z w : Cartesian T) : res (Cartesian T) :=
  r <- o_sub O (re z) (re w) ;; i <- o_sub O (im z) (im w) ;; Ok (mkC r i).

(** cartesian_impl.rs:309-315: [self.re = self.re+rhs.re; self.im = self.re+rhs.im] *)
Definition cartesian_add_assign (z w : Cartesian T) : res (Cartesian T) :=
  re' <- o_add O (re z) (re w) ;;
  im' <- o_add O re' (im w) ;;
  Ok (mkC re' im').
(** cartesian_impl.rs:325-331: [self.re = self.re-rhs.re; self.im = self.re-rhs.im] *)
Definition cartesian_sub_assign (z w : Cartesian T) : res (Cartesian T) :=
  re' <- o_sub O (re z) (re w) ;;
  im' <- o_sub O re' (im w) ;;
  Ok (mkC re' im').

(** cartesian_impl.rs:383-395: line 391 reads [let d = rhs.re] *)
Definition cartesian_div (W : MixedPowi T) (z rhs : Cartesian T) : res (Cartesian T) :=
  let a := re z in let b := im z in let c := re rhs in let d := re rhs in
  ac <- o_mul O a c ;; bd <- o_mul O b d ;; n <- o_add O ac bd ;;
  c2 <- mixed_powi W c 2 ;; d2 <- mixed_powi W d 2 ;; s <- o_add O c2 d2 ;;
  r <- o_div O n s ;;
  bc <- o_mul O b c ;; ad <- o_mul O a d ;; n' <- o_sub O bc ad ;;
  c2 <- mixed_powi W c 2 ;; d2 <- mixed_powi W d 2 ;; s <- o_add O c2 d2 ;;
  i <- o_div O n' s ;;
  Ok (mkC r i).
(** cartesian_impl.rs:397-409: the same body, assigning both fields *)
Definition cartesian_div_assign (W : MixedPowi T) (z rhs : Cartesian T) : res (Cartesian T) :=
  let a := re z in let b := im z in let c := re rhs in let d := re rhs in
  ac <- o_mul O a c ;; bd <- o_mul O b d ;; n <- o_add O ac bd ;;
  c2 <- mixed_powi W c 2 ;; d2 <- mixed_powi W d 2 ;; s <- o_add O c2 d2 ;;
  r <- o_div O n s ;;
  bc <- o_mul O b c ;; ad <- o_mul O a d ;; n' <- o_sub O bc ad ;;
  c2 <- mixed_powi W c 2 ;; d2 <- mixed_powi W d 2 ;; s <- o_add O c2 d2 ;;
  i <- o_div O n' s ;;
  Ok (mkC r i).

(** cartesian_impl.rs:467-485; target [Cartesian] / [Polar] *)
Definition cartesian_conj (S : MixedNumSigned T) (z : Cartesian T) : res (Cartesian T) :=
  i <- o_neg S (im z) ;; Ok (mkC (re z) i).
Definition cartesian_conj_polar (S : MixedNumSigned T) (Q : MixedSqrt T) (W : MixedPowi T)
  (A : MixedAtan T) (z : Cartesian T) : res (Polar T) :=
  i <- o_neg S (im z) ;; ops_to_polar Q W A (mkC (re z) i).

(** cartesian_impl.rs:511-518 *)
Definition cartesian_exp (Sn : MixedSin T) (E : MixedExp T) (z : Cartesian T)
  : res (Cartesian T) :=
  sc <- mixed_sincos Sn (im z) ;;
  scale <- mixed_exp E (re z) ;;
  r <- o_mul O (snd sc) scale ;;
  i <- o_mul O (fst sc) scale ;;
  Ok (mkC r i).

(** ** src/complex/polar_impl.rs *)

(** polar_impl.rs:19-34 *)
Definition polar_new_from_cartesian (Q : MixedSqrt T) (W : MixedPowi T) (A : MixedAtan T)
  (r i : T) : res (Polar T) := ops_to_polar Q W A (mkC r i).
Definition polar_new_from_polar (mg an : T) : Polar T := mkP mg an.

(** polar_impl.rs:48-66 *)
Definition polar_to_cartesian := ops_to_cartesian.
Definition polar_to_polar (p : Polar T) : Polar T := p.

(** polar_impl.rs:68-92 *)
Definition polar_zero (Z0 : MixedZero T) : res (Polar T) :=
  a <- mixed_zero Z0 ;; b <- mixed_zero Z0 ;; Ok (mkP a b).
Definition polar_one (Z0 : MixedZero T) (One : MixedOne T) : res (Polar T) :=
  a <- mixed_one One ;; b <- mixed_zero Z0 ;; Ok (mkP a b).
Definition polar_mixed_to_complex (Z0 : MixedZero T) (number : T) : res (Polar T) :=
  b <- mixed_zero Z0 ;; Ok (mkP number b).

(** polar_impl.rs:94-134 *)
Definition polar_mag (p : Polar T) : T := mag p.
Definition polar_abs (p : Polar T) : T := mag p.
Definition polar_mixed_abs (Z0 : MixedZero T) (p : Polar T) : res (Polar T) :=
  b <- mixed_zero Z0 ;; Ok (mkP (mag p) b).
Definition polar_arg (p : Polar T) : T := ang p.
Definition polar_ang (p : Polar T) : T := ang p.

(** polar_impl.rs:136-159.  [Mul<Cartesian<T>>] is bounded by [T: ToPolar<T>], which no type
    of the crate satisfies for a real [T]; it is modelled all the same. *)
Definition polar_mul (p q : Polar T) : res (Polar T) := ops_mul_polar p q.
Definition polar_mul_cartesian (Q : MixedSqrt T) (W : MixedPowi T) (A : MixedAtan T)
  (p : Polar T) (rhs : Cartesian T) : res (Polar T) :=
  q <- ops_to_polar Q W A rhs ;; ops_mul_polar p q.
Definition polar_mul_real (p : Polar T) (rhs : T) : res (Polar T) :=
  mg <- o_mul O (mag p) rhs ;; Ok (mkP mg (ang p)).

(** polar_impl.rs:161-170 *)
Definition polar_div_real (R : MixedReal T) (Z0 : MixedZero T) (p : Polar T) (rhs : T)
  : res (Polar T) :=
  z <- mixed_zero Z0 ;;
  if o_eq O rhs z then Ok (mkP (mixed_max_value R) (ang p))
  else mg <- o_div O (mag p) rhs ;; Ok (mkP mg (ang p)).

(** polar_impl.rs:172-178; target [Polar] / [Cartesian] *)
Definition polar_conj (S : MixedNumSigned T) (p : Polar T) : res (Polar T) :=
  a <- o_neg S (ang p) ;; Ok (mkP (mag p) a).
Definition polar_conj_cartesian (S : MixedNumSigned T) (Wr : MixedWrapPhase T) (Sn : MixedSin T)
  (p : Polar T) : res (Cartesian T) :=
  a <- o_neg S (ang p) ;; ops_to_cartesian Wr Sn (mkP (mag p) a).
End Ops.

(** ** Operators between [Cartesian<T2>] and a real scalar of another type [T1] *)
Section Mixed.
Context {T1 T2 : Type}.
Variable O1 : MixedOps T1.
Variable O : MixedOps T2.
Variable C : MixedNumConversion T1 T2.    (* T2: MixedNumConversion<T1> *)

(** cartesian_impl.rs:216-218 *)
Definition cartesian_mul_scalar (z : Cartesian T2) (rhs : T1) : res (Cartesian T2) :=
  s <- mixed_from_num C rhs ;; r <- o_mul O (re z) s ;;
  s' <- mixed_from_num C rhs ;; i <- o_mul O (im z) s' ;; Ok (mkC r i).

(** cartesian_impl.rs:276-278, 294-296 *)
Definition cartesian_add_scalar (z : Cartesian T2) (rhs : T1) : res (Cartesian T2) :=
  s <- mixed_from_num C rhs ;; r <- o_add O (re z) s ;; Ok (mkC r (im z)).
Definition cartesian_add_assign_scalar (z : Cartesian T2) (rhs : T1) : res (Cartesian T2) :=
  s <- mixed_from_num C rhs ;; r <- o_add O (re z) s ;; Ok (mkC r (im z)).

(** cartesian_impl.rs:358-360, 376-378 *)
Definition cartesian_sub_scalar (z : Cartesian T2) (rhs : T1) : res (Cartesian T2) :=
  s <- mixed_from_num C rhs ;; r <- o_sub O (re z) s ;; Ok (mkC r (im z)).
Definition cartesian_sub_assign_scalar (z : Cartesian T2) (rhs : T1) : res (Cartesian T2) :=
  s <- mixed_from_num C rhs ;; r <- o_sub O (re z) s ;; Ok (mkC r (im z)).

Variable Z1 : MixedZero T1.
Variable R : MixedReal T2.

(** cartesian_impl.rs:436-441 *)
Definition cartesian_div_scalar (z : Cartesian T2) (rhs : T1) : res (Cartesian T2) :=
  zero <- mixed_zero Z1 ;;
  if o_eq O1 rhs zero then Ok (mkC (mixed_max_value R) (mixed_max_value R))
  else
    s <- mixed_from_num C rhs ;; r <- o_div O (re z) s ;;
    s' <- mixed_from_num C rhs ;; i <- o_div O (im z) s' ;; Ok (mkC r i).

(** cartesian_impl.rs:457-464: no [return] after the zero case *)
Definition cartesian_div_assign_scalar (z : Cartesian T2) (rhs : T1) : res (Cartesian T2) :=
  zero <- mixed_zero Z1 ;;
  let z := if o_eq O1 rhs zero then mkC (mixed_max_value R) (mixed_max_value R) else z in
  s <- mixed_from_num C rhs ;; r <- o_div O (re z) s ;;
  s' <- mixed_from_num C rhs ;; i <- o_div O (im z) s' ;; Ok (mkC r i).

(** cartesian_impl.rs:221-233 *)
Definition cartesian_conv_cartesian : MixedNumConversion (Cartesian T1) (Cartesian T2) := {|
  mixed_from_num := fun c =>
    r <- mixed_from_num C (re c) ;; i <- mixed_from_num C (im c) ;; Ok (mkC r i);
  mixed_to_num := fun z =>
    r <- mixed_to_num C (re z) ;; i <- mixed_to_num C (im z) ;; Ok (mkC r i)
|}.

(** float_impl.rs:25-62, fixed_impl.rs:18-30: [impl MixedNumConversion<Cartesian<T1>> for T2],
    for a float or fixed [T2] *)
Definition real_conv_cartesian : MixedNumConversion (Cartesian T1) T2 := {|
  mixed_from_num := fun c => mixed_from_num C (re c);
  mixed_to_num := fun x => r <- mixed_to_num C x ;; i <- mixed_zero Z1 ;; Ok (mkC r i)
|}.

(** polar_impl.rs:36-46: [impl MixedNumConversion<T1> for Polar<T2>] *)
Definition polar_conv_real (Z2 : MixedZero T2) : MixedNumConversion T1 (Polar T2) := {|
  mixed_from_num := fun n => a <- mixed_from_num C n ;; b <- mixed_zero Z2 ;; Ok (mkP a b);
  mixed_to_num := fun p => mixed_to_num C (mag p)
|}.
End Mixed.
