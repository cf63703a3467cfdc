(** * Specification of the run of the Hutchinson method *)
From mathcomp Require Import all_ssreflect all_algebra.
From Verif Require Import ConvSpec.

Set Implicit Arguments.
Unset Strict Implicit.
Unset Printing Implicit Defensive.

Import GRing.Theory Num.Theory.
Local Open Scope ring_scope.

Section Spec.
Variable R : rcfType.

(** Population standard deviation (divisor: the number of values). *)
Definition pop_std (xs : seq R) : R :=
  Num.sqrt ((\sum_(x <- xs) (x - mean xs) ^+ 2) / (size xs)%:R).

(** The stopping criterion on the estimates so far: at least two of them, and
    the half width of the interval with quantile [z] is below the larger of
    the two tolerances. *)
Definition small_enough (z atol rtol : R) (xs : seq R) : bool :=
  (1 < size xs)%N &&
  (z * pop_std xs / Num.sqrt (size xs)%:R < Num.max atol (rtol * mean xs)).

(** The estimates not further from their mean than [z] deviations. *)
Definition kept (z : R) (xs : seq R) : seq R :=
  [seq x <- xs | `|x - mean xs| <= z * pop_std xs].

(** The first [k] estimates. *)
Definition first_estimates (f : nat -> R) (k : nat) : seq R :=
  [seq f i | i <- iota 0 k].

(** [k] estimates suffice to stop: the minimum is reached and the criterion
    holds. *)
Definition may_stop (z atol rtol : R) (least : nat) (f : nat -> R) (k : nat) : bool :=
  (least <= k)%N && small_enough z atol rtol (first_estimates f k).

End Spec.
