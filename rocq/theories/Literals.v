(** * Literals: the f64 literals of the repository.

    Rust parses a float literal to the nearest binary64 value.  Each literal is
    given by its significand and exponent; [lits_nearest] checks (in integers)
    that every one is within half a unit in the last place of the decimal text
    in the source, i.e. that it is the correctly rounded value. *)

From Coq Require Import ZArith List.
From Flocq Require Import Core.Core IEEE754.BinarySingleNaN.
From Verif Require Import Base FloatBase.
Import ListNotations.
Open Scope Z_scope.

(** [0.25] -- src/trigonometry/sqrt.rs:72 *)
Definition lit_quarter : f64 := @B754_finite 53 1024 false 4503599627370496 (-54) eq_refl.
(** [1.0] -- src/trigonometry/sqrt.rs:77 *)
Definition lit_one : f64 := @B754_finite 53 1024 false 4503599627370496 (-52) eq_refl.
(** [0.961914] -- src/trigonometry/sqrt.rs:88 *)
Definition lit_beta0 : f64 := @B754_finite 53 1024 false 8664151063924927 (-53) eq_refl.
(** [0.840332] -- src/trigonometry/sqrt.rs:89 *)
Definition lit_beta1 : f64 := @B754_finite 53 1024 false 7569037764135007 (-53) eq_refl.
(** [0.782715] -- src/trigonometry/sqrt.rs:90 *)
Definition lit_beta2 : f64 := @B754_finite 53 1024 false 7050069964674596 (-53) eq_refl.
(** [0.734869] -- src/trigonometry/sqrt.rs:91 *)
Definition lit_beta3 : f64 := @B754_finite 53 1024 false 6619111509132258 (-53) eq_refl.
(** [0.691406] -- src/trigonometry/sqrt.rs:92 *)
Definition lit_beta4 : f64 := @B754_finite 53 1024 false 6227631607923450 (-53) eq_refl.
(** [0.654297] -- src/trigonometry/sqrt.rs:93 *)
Definition lit_beta5 : f64 := @B754_finite 53 1024 false 5893383450779267 (-53) eq_refl.
(** [0.622070] -- src/trigonometry/sqrt.rs:94 *)
Definition lit_beta6 : f64 := @B754_finite 53 1024 false 5603108440396729 (-53) eq_refl.
(** [0.595215] -- src/trigonometry/sqrt.rs:95 *)
Definition lit_beta7 : f64 := @B754_finite 53 1024 false 5361220104410660 (-53) eq_refl.
(** [0.573731] -- src/trigonometry/sqrt.rs:96 *)
Definition lit_beta8 : f64 := @B754_finite 53 1024 false 5167709435621804 (-53) eq_refl.
(** [0.556152] -- src/trigonometry/sqrt.rs:97 *)
Definition lit_beta9 : f64 := @B754_finite 53 1024 false 5009371879922712 (-53) eq_refl.
(** [0.516113] -- src/trigonometry/sqrt.rs:98 *)
Definition lit_beta10 : f64 := @B754_finite 53 1024 false 4648732628962138 (-53) eq_refl.
(** [0.502930] -- src/trigonometry/sqrt.rs:99 *)
Definition lit_beta11 : f64 := @B754_finite 53 1024 false 4529990721186887 (-53) eq_refl.
(** [5.0/16.0] -- src/trigonometry/sqrt.rs:101 *)
Definition lit_5_16 : f64 := @B754_finite 53 1024 false 5629499534213120 (-54) eq_refl.
(** [6.0/16.0] -- src/trigonometry/sqrt.rs:104 *)
Definition lit_6_16 : f64 := @B754_finite 53 1024 false 6755399441055744 (-54) eq_refl.
(** [7.0/16.0] -- src/trigonometry/sqrt.rs:107 *)
Definition lit_7_16 : f64 := @B754_finite 53 1024 false 7881299347898368 (-54) eq_refl.
(** [8.0/16.0] -- src/trigonometry/sqrt.rs:110 *)
Definition lit_8_16 : f64 := @B754_finite 53 1024 false 4503599627370496 (-53) eq_refl.
(** [9.0/16.0] -- src/trigonometry/sqrt.rs:113 *)
Definition lit_9_16 : f64 := @B754_finite 53 1024 false 5066549580791808 (-53) eq_refl.
(** [10.0/16.0] -- src/trigonometry/sqrt.rs:116 *)
Definition lit_10_16 : f64 := @B754_finite 53 1024 false 5629499534213120 (-53) eq_refl.
(** [11.0/16.0] -- src/trigonometry/sqrt.rs:119 *)
Definition lit_11_16 : f64 := @B754_finite 53 1024 false 6192449487634432 (-53) eq_refl.
(** [12.0/16.0] -- src/trigonometry/sqrt.rs:122 *)
Definition lit_12_16 : f64 := @B754_finite 53 1024 false 6755399441055744 (-53) eq_refl.
(** [13.0/16.0] -- src/trigonometry/sqrt.rs:125 *)
Definition lit_13_16 : f64 := @B754_finite 53 1024 false 7318349394477056 (-53) eq_refl.
(** [14.0/16.0] -- src/trigonometry/sqrt.rs:128 *)
Definition lit_14_16 : f64 := @B754_finite 53 1024 false 7881299347898368 (-53) eq_refl.
(** [15.0/16.0] -- src/trigonometry/sqrt.rs:131 *)
Definition lit_15_16 : f64 := @B754_finite 53 1024 false 8444249301319680 (-53) eq_refl.
(** [0.354167] -- src/trigonometry/sqrt.rs:140 *)
Definition lit_y0 : f64 := @B754_finite 53 1024 false 6380105476907706 (-54) eq_refl.
(** [0.28125] -- src/trigonometry/atan.rs:18,37 *)
Definition lit_atan : f64 := @B754_finite 53 1024 false 5066549580791808 (-54) eq_refl.
(** [3.1415926535897932384626433832795028841971693993751058209749445923078164062] -- src/fixed_impl.rs:105, src/float_impl.rs:166 *)
Definition lit_pi : f64 := @B754_finite 53 1024 false 7074237752028440 (-51) eq_refl.
(** [6.2831853071795864769252867665590057683943387987502116419498891846156328124] -- src/fixed_impl.rs:109, src/float_impl.rs:170 *)
Definition lit_tau : f64 := @B754_finite 53 1024 false 7074237752028440 (-50) eq_refl.
(** [0.0] -- src/trigonometry/atan.rs:106 *)
Definition lit_zero : f64 := B754_zero false.

(** [|x - num/den| <= ulp/2] in integers, for [x = m * 2^e], [e < 0] *)
Definition nearest_ok (x : f64) (num den : Z) : bool :=
  match x with
  | B754_finite false m e _ =>
      (2 * Z.abs (Zpos m * den - num * 2 ^ (- e)) <=? den)
      && (2 ^ 52 <=? Zpos m) && (Zpos m <? 2 ^ 53) && (e <? 0)
  | _ => false
  end.

Lemma lits_nearest :
  forallb (fun '(x, num, den) => nearest_ok x num den)
  [ (lit_quarter, 25, 100)
  ; (lit_one, 10, 10)
  ; (lit_beta0, 961914, 1000000)
  ; (lit_beta1, 840332, 1000000)
  ; (lit_beta2, 782715, 1000000)
  ; (lit_beta3, 734869, 1000000)
  ; (lit_beta4, 691406, 1000000)
  ; (lit_beta5, 654297, 1000000)
  ; (lit_beta6, 622070, 1000000)
  ; (lit_beta7, 595215, 1000000)
  ; (lit_beta8, 573731, 1000000)
  ; (lit_beta9, 556152, 1000000)
  ; (lit_beta10, 516113, 1000000)
  ; (lit_beta11, 502930, 1000000)
  ; (lit_5_16, 5, 16)
  ; (lit_6_16, 6, 16)
  ; (lit_7_16, 7, 16)
  ; (lit_8_16, 8, 16)
  ; (lit_9_16, 9, 16)
  ; (lit_10_16, 10, 16)
  ; (lit_11_16, 11, 16)
  ; (lit_12_16, 12, 16)
  ; (lit_13_16, 13, 16)
  ; (lit_14_16, 14, 16)
  ; (lit_15_16, 15, 16)
  ; (lit_y0, 354167, 1000000)
  ; (lit_atan, 28125, 100000)
  ; (lit_pi, 31415926535897932384626433832795028841971693993751058209749445923078164062, 10000000000000000000000000000000000000000000000000000000000000000000000000)
  ; (lit_tau, 62831853071795864769252867665590057683943387987502116419498891846156328124, 10000000000000000000000000000000000000000000000000000000000000000000000000) ] = true.
Proof. vm_compute. reflexivity. Qed.
