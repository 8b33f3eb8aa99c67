(** * Spec, continued: angles. *)

From Coq Require Import Reals.

(** [th] is the angle of the point ([x], [y]): its argument in (-pi, pi] *)
Definition is_angle (y x th : R) : Prop :=
  (- PI < th <= PI)%R /\ exists rho, (0 < rho /\ x = rho * cos th /\ y = rho * sin th)%R.

(** [r] lies in the closed quadrant of the point (x, y), [y <> 0], [p] standing for pi. *)
Definition in_quadrant (y x r p : R) : Prop :=
  ((0 < y -> 0 <= x -> 0 <= r <= p / 2) /\ (0 < y -> x <= 0 -> p / 2 <= r <= p) /\
   (y < 0 -> 0 <= x -> - (p / 2) <= r <= 0) /\ (y < 0 -> x <= 0 -> - p <= r <= - (p / 2)))%R.
