(** The bound for a sample of the log-determinant. *)
From mathcomp Require Import all_ssreflect all_algebra.
Set Implicit Arguments.
Unset Strict Implicit.
Unset Printing Implicit Defensive.
Import GRing.Theory Num.Theory.
Local Open Scope ring_scope.

(** With the n x n matrix's range in [lo, hi], after m steps, or when an earlier
    step left a remainder whose norm is below rest *)
Definition log_bound (R : rcfType) n (lo hi rest : R) m : R :=
  n%:R * Num.max ((hi + lo) / (lo * (2 * m - 1)%:R) * ((hi - lo) / (hi + lo)) ^+ (2 * m)) (rest / lo).
