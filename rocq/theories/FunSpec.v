(** The error function, for the statements about erf_inv.  Nothing here models
    code. *)
Require Import Reals.
From Coquelicot Require Import Coquelicot.
Local Open Scope R_scope.

(** erf x = 2/sqrt(pi) * integral from 0 to x of exp(-t^2) dt *)
Definition erf (x : R) : R := 2 / sqrt PI * RInt (fun t => exp (- (t * t))) 0 x.
