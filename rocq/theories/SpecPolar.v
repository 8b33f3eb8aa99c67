(** * Spec, continued: what is asked of the external sine/cosine and exponential routines. *)

From Coq Require Import ZArith Reals.
From Flocq Require Import Core.Core.
From Verif Require Import Base Traits FixedPrim Spec SpecAngle.

(** on every angle of magnitude at most [b], the routine returns (sine, cosine) within [d] *)
Definition accurate_sincos (f : fty) (b d : R) (Sn : MixedSin Z) : Prop :=
  forall a, fvalid f a -> (Rabs (fval f a) <= b)%R -> exists s c,
    mixed_sincos Sn a = Ok (s, c) /\
    (Rabs (fval f s - sin (fval f a)) <= d)%R /\ (Rabs (fval f c - cos (fval f a)) <= d)%R.

(** at the point (y, x), unless it is (0, 0), the routine returns an angle within [e] of the true one *)
Definition accurate_atan2_at (f : fty) (e : R) (A : MixedAtan Z) (y x : Z) : Prop :=
  forall th, is_angle (fval f y) (fval f x) th -> exists a,
    mixed_atan2 A y x = Ok a /\ fvalid f a /\ (Rabs (fval f a - th) <= e)%R.
(** the same at every point.  The theorems ask for it only at the points they use: the routine may overflow elsewhere. *)
Definition accurate_atan2 (f : fty) (e : R) (A : MixedAtan Z) : Prop :=
  forall y x, fvalid f y -> fvalid f x -> accurate_atan2_at f e A y x.

(** the complex power (x + i y)^n, by repeated multiplication *)
Fixpoint cpow (x y : R) (n : nat) : R * R :=
  match n with
  | O => (1, 0)
  | S k => let (u, v) := cpow x y k in (x * u - y * v, x * v + y * u)
  end%R.

(** ideal routines, used only to show that the accuracy assumptions can be met: the exact value
    rounded down to the format *)
Definition fround (f : fty) (v : R) : Z := Zfloor (v / ulp f).
Definition ideal_sin (f : fty) : MixedSin Z := {|
  mixed_sin := fun a => Ok (fround f (sin (fval f a)));
  mixed_sincos := fun a => Ok (fround f (sin (fval f a)), fround f (cos (fval f a)));
  mixed_asin := fun a => Ok (fround f (asin (fval f a)))
|}.
Definition ideal_atan (f : fty) (angle : R -> R -> R) : MixedAtan Z := {|
  mixed_atan := fun a => Ok (fround f (atan (fval f a)));
  mixed_atan2 := fun y x => Ok (fround f (angle (fval f y) (fval f x)));
  mixed_atan2_poly := fun y x => Ok (fround f (angle (fval f y) (fval f x)))
|}.
