(** * Trig: src/trigonometry.rs, src/trigonometry/atan.rs, src/trigonometry/sqrt.rs.

    The generic functions, statement by statement.  Operands are evaluated left to
    right, so that the first panic is the one Rust would raise. *)

From Coq Require Import ZArith List.
From Flocq Require Import IEEE754.BinarySingleNaN.
From Verif Require Import Base FloatBase Literals Traits.
Import ListNotations.
Open Scope Z_scope.

Section Generic.
Context {T : Type}.
Variable O : MixedOps T.

(** trigonometry.rs:25-36 *)
Definition sign (x : T) : res T :=
  z <- o_of_i32 O 0 ;;
  if o_lt O x z then o_of_i32 O (-1) else o_of_i32 O 1.

(** trigonometry.rs:200-213.  [power : usize]. *)
Definition powi (base : T) (power : N) : res T :=
  if N.eqb power 0 then o_of_i32 O 1
  else for_n (power - 1) (fun temp => o_mul O temp base) base.

Section Signed.
Variable S : MixedNumSigned T.

Section Pi.
Variable P : MixedPi T.

(** trigonometry.rs:163-180 *)
Definition wrap_phase (fuel : nat) (phi : T) : res T :=
  mixed_pi <- mixed_pi P ;;
  two <- o_of_i32 O 2 ;;
  tau <- o_mul O two mixed_pi ;;
  temp <- while fuel
            (fun t => npi <- o_neg S mixed_pi ;; Ok (o_lt O t npi))
            (fun t => o_add O t tau) phi ;;
  while fuel
    (fun t => Ok (o_le O mixed_pi t))
    (fun t => o_sub O t tau) temp.

Variable W : MixedPowi T.

(** trigonometry.rs:69-94 *)
Definition sin (x : T) : res T :=
  pi <- mixed_pi P ;;
  two <- o_of_i32 O 2 ;;
  mixed_pi_half <- o_div O pi two ;;
  (* lines 77-86 *)
  nph <- o_neg S mixed_pi_half ;;
  x_ <- (if o_lt O x nph then
           delta <- o_add O x mixed_pi_half ;;
           n <- o_neg S mixed_pi_half ;;
           o_sub O n delta
         else if o_lt O mixed_pi_half x then
           delta <- o_sub O x mixed_pi_half ;;
           o_sub O mixed_pi_half delta
         else Ok x) ;;
  (* line 89 *)
  p3 <- mixed_powi W x_ 3 ;;
  c6 <- o_of_i32 O 6 ;;
  t3 <- o_div O p3 c6 ;;
  s3 <- o_sub O x_ t3 ;;
  (* line 90 *)
  p5 <- mixed_powi W x_ 5 ;;
  c120 <- o_of_i32 O 120 ;;
  t5 <- o_div O p5 c120 ;;
  s5 <- o_add O s3 t5 ;;
  (* line 91 *)
  p7 <- mixed_powi W x_ 7 ;;
  c5040 <- o_of_i32 O 5040 ;;
  t7 <- o_div O p7 c5040 ;;
  s7 <- o_sub O s5 t7 ;;
  (* line 92 *)
  p9 <- mixed_powi W x_ 9 ;;
  c362880 <- o_of_i32 O 362880 ;;
  t9 <- o_div O p9 c362880 ;;
  o_add O s7 t9.

(** trigonometry.rs:136-145 *)
Definition cos (fuel : nat) (x : T) : res T :=
  pi <- mixed_pi P ;;
  two <- o_of_i32 O 2 ;;
  mixed_pi_half <- o_div O pi two ;;
  x_shifted <- o_add O x mixed_pi_half ;;
  x_shifted <- wrap_phase fuel x_shifted ;;
  sin x_shifted.
End Pi.

Section Atan.
Variable W : MixedPowi T.

(** atan.rs:15-20 *)
Definition atan_poly_1 (y x : T) : res T :=
  xy <- o_mul O x y ;;
  x2 <- mixed_powi W x 2 ;;
  c <- o_of_f64 O lit_atan ;;
  y2 <- mixed_powi W y 2 ;;
  cy2 <- o_mul O c y2 ;;
  d <- o_add O x2 cy2 ;;
  o_div O xy d.

(** atan.rs:34-39 *)
Definition atan_poly_2 (y x : T) : res T :=
  xy <- o_mul O x y ;;
  y2 <- mixed_powi W y 2 ;;
  c <- o_of_f64 O lit_atan ;;
  x2 <- mixed_powi W x 2 ;;
  cx2 <- o_mul O c x2 ;;
  d <- o_add O y2 cx2 ;;
  o_div O xy d.

Variable R : MixedReal T.
Variable Z0 : MixedZero T.
Variable P : MixedPi T.
Variable A : MixedAbs T.

(** atan.rs:75-163 *)
Definition atan2 (y x : T) : res T :=
  y_abs <- mixed_abs A y ;;
  x_abs <- mixed_abs A x ;;
  pi <- mixed_pi P ;;
  pi_ <- mixed_pi P ;;
  two <- o_of_i32 O 2 ;;
  pi_half <- o_div O pi_ two ;;
  zero <- mixed_zero Z0 ;;
  if o_eq O y zero then
    if mixed_is_negative R x then mixed_pi P else mixed_zero Z0
  else if mixed_is_positive R y then
    if o_eq O x zero then
      p <- mixed_pi P ;; two <- o_of_i32 O 2 ;; o_div O p two
    else if mixed_is_positive R x then
      d <- o_sub O y_abs x_abs ;;
      z <- o_of_f64 O lit_zero ;;
      if o_lt O d z then atan_poly_1 y x
      else (p <- atan_poly_2 y x ;; o_sub O pi_half p)
    else
      d <- o_sub O y_abs x_abs ;;
      if o_le O zero d then (p <- atan_poly_2 y x ;; o_sub O pi_half p)
      else (p <- atan_poly_1 y x ;; o_add O pi p)
  else
    if o_eq O x zero then
      p <- mixed_pi P ;; np <- o_neg S p ;; two <- o_of_i32 O 2 ;; o_div O np two
    else if mixed_is_positive R x then
      d <- o_sub O y_abs x_abs ;;
      if o_lt O d zero then atan_poly_1 y x
      else (nph <- o_neg S pi_half ;; p <- atan_poly_2 y x ;; o_sub O nph p)
    else
      d <- o_sub O y_abs x_abs ;;
      if o_le O zero d then (nph <- o_neg S pi_half ;; p <- atan_poly_2 y x ;; o_sub O nph p)
      else (np <- o_neg S pi ;; p <- atan_poly_1 y x ;; o_add O np p).

Variable One : MixedOne T.

(** atan.rs:194-198 *)
Definition atan (x : T) : res T :=
  one <- mixed_one One ;; atan2 x one.
End Atan.
End Signed.

(** sqrt.rs:84-137.  The array of all twelve factors is built first, then the
    comparisons are made one after the other. *)
Definition beta (x : T) : res T :=
  b0 <- o_of_f64 O lit_beta0 ;;   b1 <- o_of_f64 O lit_beta1 ;;
  b2 <- o_of_f64 O lit_beta2 ;;   b3 <- o_of_f64 O lit_beta3 ;;
  b4 <- o_of_f64 O lit_beta4 ;;   b5 <- o_of_f64 O lit_beta5 ;;
  b6 <- o_of_f64 O lit_beta6 ;;   b7 <- o_of_f64 O lit_beta7 ;;
  b8 <- o_of_f64 O lit_beta8 ;;   b9 <- o_of_f64 O lit_beta9 ;;
  b10 <- o_of_f64 O lit_beta10 ;; b11 <- o_of_f64 O lit_beta11 ;;
  c <- o_of_f64 O lit_5_16 ;;  if o_lt O x c then Ok b0 else
  c <- o_of_f64 O lit_6_16 ;;  if o_lt O x c then Ok b1 else
  c <- o_of_f64 O lit_7_16 ;;  if o_lt O x c then Ok b2 else
  c <- o_of_f64 O lit_8_16 ;;  if o_lt O x c then Ok b3 else
  c <- o_of_f64 O lit_9_16 ;;  if o_lt O x c then Ok b4 else
  c <- o_of_f64 O lit_10_16 ;; if o_lt O x c then Ok b5 else
  c <- o_of_f64 O lit_11_16 ;; if o_lt O x c then Ok b6 else
  c <- o_of_f64 O lit_12_16 ;; if o_lt O x c then Ok b7 else
  c <- o_of_f64 O lit_13_16 ;; if o_lt O x c then Ok b8 else
  c <- o_of_f64 O lit_14_16 ;; if o_lt O x c then Ok b9 else
  c <- o_of_f64 O lit_15_16 ;; if o_lt O x c then Ok b10 else
  Ok b11.

Section Niirf.
Variable Z0 : MixedZero T.
Variable A : MixedAbs T.
Variable W : MixedPowi T.
Variable m : mode.   (* profile for the i32 counter [norm] *)

(** sqrt.rs:72-81; state: ([norm], [x_]) *)
Definition niirf_normalize (fuel : nat) (s : Z * T) : res (Z * T) :=
  s1 <- while fuel
          (fun s => q <- o_of_f64 O lit_quarter ;; Ok (o_lt O (snd s) q))
          (fun s => n <- fin m i32 (fst s - 1) ;;
                    four <- o_of_i32 O 4 ;;
                    x <- o_mul O (snd s) four ;; Ok (n, x)) s ;;
  while fuel
    (fun s => one <- o_of_f64 O lit_one ;; Ok (o_le O one (snd s)))
    (fun s => n <- fin m i32 (fst s + 1) ;;
              four <- o_of_i32 O 4 ;;
              x <- o_div O (snd s) four ;; Ok (n, x)) s1.

(** sqrt.rs:140-144 *)
Definition niirf_iterate (iterations : N) (x_ : T) : res T :=
  two <- o_of_i32 O 2 ;;
  tx <- o_mul O two x_ ;;
  three <- o_of_i32 O 3 ;;
  q <- o_div O tx three ;;
  c <- o_of_f64 O lit_y0 ;;
  y0 <- o_add O q c ;;
  for_n (iterations - 1)
    (fun y => b <- beta x_ ;;
              y2 <- mixed_powi W y 2 ;;
              d <- o_sub O x_ y2 ;;
              p <- o_mul O b d ;;
              o_add O p y) y0.

(** sqrt.rs:146-159; state: ([norm], [y]). *)
Definition niirf_denormalize (fuel : nat) (s : Z * T) : res (Z * T) :=
  while fuel
    (fun s => a <- fin m i32 (Z.abs (fst s)) ;; Ok (negb (a =? 0)))
    (fun s => if 0 <? fst s then
                two <- o_of_i32 O 2 ;;
                y <- o_mul O (snd s) two ;;
                n <- fin m i32 (fst s - 1) ;; Ok (n, y)
              else if fst s <? 0 then
                two <- o_of_i32 O 2 ;;
                y <- o_div O (snd s) two ;;
                n <- fin m i32 (fst s + 1) ;; Ok (n, y)
              else Ok s) s.

(** sqrt.rs:60-161 *)
Definition niirf (fuel : nat) (x : T) (iterations : N) : res T :=
  zero <- mixed_zero Z0 ;;
  if o_eq O x zero then mixed_zero Z0 else
  x_ <- mixed_abs A x ;;
  s <- niirf_normalize fuel (0, x_) ;;
  y <- niirf_iterate iterations (snd s) ;;
  s <- niirf_denormalize fuel (fst s, y) ;;
  Ok (snd s).
End Niirf.
End Generic.
