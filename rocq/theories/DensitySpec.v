(** The volume of balls. *)
Require Import Reals.
Local Open Scope R_scope.

(** The volume of the ball with radius r in d dimensions: 1, 2 r, and with every
    two dimensions more the factor 2 pi r^2 / d. *)
Fixpoint ball_volume (d : nat) (r : R) : R :=
  match d with
  | O => 1
  | S O => 2 * r
  | S (S d' as d1) => 2 * PI * r ^ 2 / INR d * ball_volume d' r
  end.
