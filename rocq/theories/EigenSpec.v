(** Notions used in the statements about the eigenvalue methods.  Nothing here
    models code. *)
Require Import Reals.

(** y is x to the power p: for positive x any p is meant, for other x integer
    powers only, and non-negative ones for x = 0 *)
Definition is_power (x p y : R) : Prop :=
  (0 < x /\ y = Rpower x p)%R \/
  (exists z : Z, p = IZR z /\ (x <> 0%R \/ (0 <= z)%Z) /\ y = powerRZ x z).

(** The density of the normal distribution with mean mu and standard deviation
    sigma at x *)
Definition normal_density (mu sigma x : R) : R :=
  (exp (- ((x - mu) * (x - mu) / (2 * (sigma * sigma)))) / (sigma * sqrt (2 * PI)))%R.
