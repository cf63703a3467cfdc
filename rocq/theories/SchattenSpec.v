(** The Schatten norm of a matrix with positive eigenvalues, as documented in
    imate/schatten/schatten.py: a power mean of the eigenvalues.  Nothing here
    models code. *)
Require Import Reals.
From mathcomp Require Import all_ssreflect all_algebra.
From Verif Require Import RealField.
Set Implicit Arguments.
Unset Strict Implicit.
Unset Printing Implicit Defensive.
Import GRing.Theory.
Local Open Scope ring_scope.

(** s is the list of the eigenvalues, with multiplicity: the geometric mean for
    p = 0, otherwise the 1/p-th power of the mean of the p-th powers *)
Definition power_mean (s : seq R) (p : R) : R :=
  if p == 0 then Rpower (\prod_(x <- s) x)%R (1 / (size s)%:R)%R
  else Rpower ((\sum_(x <- s) Rpower x p) / (size s)%:R)%R (1 / p)%R.
