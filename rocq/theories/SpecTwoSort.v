(** * Spec: formulas that mix real and complex operations, and their exact value. *)

From Coq Require Import ZArith Reals List.
From Verif Require Import Base Traits FixedPrim Complex Spec SpecFilter SpecRotor SpecFourier SpecPhase SpecFormula SpecUFormula.
Import ListNotations.
Open Scope Z_scope.

(** Real formulas, which may take the real part, imaginary part or magnitude of a complex one; complex formulas, built from real ones
    by [Cartesian::new]. *)
Inductive rform :=
| RInput (i : nat) | RWhole (k : Z) | RRe (c : zform) | RIm (c : zform) | RMag (c : zform)
| RPlus (a b : rform) | RMinus (a b : rform) | RTimes (a b : rform) | ROver (a b : rform) | RNegated (a : rform) | RAbsolute (a : rform) | RRoot (a : rform)
with zform := ZNew (a b : rform) | ZAdd (c d : zform) | ZSub (c d : zform) | ZMul (c d : zform) | ZConj (c : zform).

(** The generic program. *)
Section Program.
Context {T : Type} (O : MixedOps T) (N : MixedNumSigned T) (A : MixedAbs T) (Q : MixedSqrt T) (W : MixedPowi T) (env : nat -> T).
Fixpoint reval (e : rform) : res T :=
  match e with
  | RInput i => Ok (env i)
  | RWhole k => o_of_i32 O k
  | RRe c => z <- zeval c ;; Ok (re z)
  | RIm c => z <- zeval c ;; Ok (im z)
  | RMag c => z <- zeval c ;; cartesian_mag O Q W z
  | RPlus a b => x <- reval a ;; y <- reval b ;; o_add O x y
  | RMinus a b => x <- reval a ;; y <- reval b ;; o_sub O x y
  | RTimes a b => x <- reval a ;; y <- reval b ;; o_mul O x y
  | ROver a b => x <- reval a ;; y <- reval b ;; o_div O x y
  | RNegated a => x <- reval a ;; o_neg N x
  | RAbsolute a => x <- reval a ;; mixed_abs A x
  | RRoot a => x <- reval a ;; mixed_sqrt Q x
  end
with zeval (e : zform) : res (Cartesian T) :=
  match e with
  | ZNew a b => x <- reval a ;; y <- reval b ;; Ok (mkC x y)
  | ZAdd c d => z <- zeval c ;; w <- zeval d ;; cartesian_add O z w
  | ZSub c d => z <- zeval c ;; w <- zeval d ;; cartesian_sub O z w
  | ZMul c d => z <- zeval c ;; w <- zeval d ;; cartesian_mul O z w
  | ZConj c => z <- zeval c ;; cartesian_conj N z
  end.
End Program.

(** The real, or complex, number the formula denotes. *)
Section Exact.
Variable x : nat -> R.
Fixpoint rexact (e : rform) : R :=
  match e with
  | RInput i => x i
  | RWhole k => IZR k
  | RRe c => fst (zexact c)
  | RIm c => snd (zexact c)
  | RMag c => cabs (zexact c)
  | RPlus a b => rexact a + rexact b
  | RMinus a b => rexact a - rexact b
  | RTimes a b => rexact a * rexact b
  | ROver a b => rexact a / rexact b
  | RNegated a => - rexact a
  | RAbsolute a => Rabs (rexact a)
  | RRoot a => sqrt (rexact a)
  end%R
with zexact (e : zform) : R * R :=
  match e with
  | ZNew a b => (rexact a, rexact b)
  | ZAdd c d => cadd (zexact c) (zexact d)
  | ZSub c d => csub (zexact c) (zexact d)
  | ZMul c d => cmul (zexact c) (zexact d)
  | ZConj c => cconj (zexact c)
  end.
End Exact.

(** The school formulas for the two parts of a sum, difference, product and conjugate, and for the magnitude. *)
Fixpoint rpart (e : rform) : formula :=
  match e with
  | RInput i => Input i
  | RWhole k => Whole k
  | RRe c => fst (zparts c)
  | RIm c => snd (zparts c)
  | RMag c => let (a, b) := zparts c in Root (Plus (Times a a) (Times b b))
  | RPlus a b => Plus (rpart a) (rpart b)
  | RMinus a b => Minus (rpart a) (rpart b)
  | RTimes a b => Times (rpart a) (rpart b)
  | ROver a b => Over (rpart a) (rpart b)
  | RNegated a => Negated (rpart a)
  | RAbsolute a => Absolute (rpart a)
  | RRoot a => Root (rpart a)
  end
with zparts (e : zform) : formula * formula :=
  match e with
  | ZNew a b => (rpart a, rpart b)
  | ZAdd c d => let (a, b) := zparts c in let (a', b') := zparts d in (Plus a a', Plus b b')
  | ZSub c d => let (a, b) := zparts c in let (a', b') := zparts d in (Minus a a', Minus b b')
  | ZMul c d => let (a, b) := zparts c in let (a', b') := zparts d in (Minus (Times a a') (Times b b'), Plus (Times a b') (Times b a'))
  | ZConj c => let (a, b) := zparts c in (a, Negated b)
  end.
(** The real formulas behind every subexpression. *)
Fixpoint rneeds (e : rform) : list formula :=
  rpart e :: match e with
  | RInput _ | RWhole _ => []
  | RRe c | RIm c | RMag c => zneeds c
  | RPlus a b | RMinus a b | RTimes a b | ROver a b => rneeds a ++ rneeds b
  | RNegated a | RAbsolute a | RRoot a => rneeds a
  end
with zneeds (e : zform) : list formula :=
  fst (zparts e) :: snd (zparts e) :: match e with
  | ZNew a b => rneeds a ++ rneeds b
  | ZAdd c d | ZSub c d | ZMul c d => zneeds c ++ zneeds d
  | ZConj c => zneeds c
  end.

(** Neither an overflow, nor a zero divisor, nor a negative radicand can occur on the fixed type [f]. *)
Definition fits (f : fty) (x d : nat -> R) (g : formula) : Prop :=
  if fsigned f then safe x (round_fixed (ulp f)) d (fval f (fmax f)) g /\ (rootless g = false -> 2 <= ffrac f <= fwidth f - 4)
  else usafe x (round_fixed (ulp f)) d (fval f (fmax f)) g.
