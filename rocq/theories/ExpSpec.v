(** The bound for a sample of the trace of the exponential. *)
Require Import Reals.
From mathcomp Require Import all_ssreflect all_algebra.
From Verif Require Import RealField.
Set Implicit Arguments.
Unset Strict Implicit.
Unset Printing Implicit Defensive.
Import GRing.Theory Num.Theory.
Local Open Scope ring_scope.

(** With the n x n matrix's range in [lo, hi], after m steps, or when an earlier
    step left a remainder whose norm is below rest; the first factor is the
    largest value of exp(c y) on [lo, hi]. *)
Definition exp_bound n (lo hi c rest : R) m : R :=
  n%:R * (exp (Num.max (c * lo) (c * hi)) *
    Num.max (2%:R * ((`|c| * ((hi - lo) / 2%:R)) ^+ (2 * m) / (2 * m)`!%:R)) (`|c| * rest)).
