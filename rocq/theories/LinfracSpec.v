(** The bound for a sample of the trace of a linear fraction. *)
From mathcomp Require Import all_ssreflect all_algebra.
Set Implicit Arguments.
Unset Strict Implicit.
Unset Printing Implicit Defensive.
Import GRing.Theory Num.Theory.
Local Open Scope ring_scope.

Section Spec.
Variable R : rcfType.

(** The distance delta of the pole -d/c of (a y + b) / (c y + d) from [lo, hi],
    which it is not in *)
Definition pole_distance (c d lo hi delta : R) : Prop :=
  0 < delta /\ (delta = lo - - d / c \/ delta = - d / c - hi).

(** With the n x n matrix's range in [lo, hi], after m steps, or when an earlier
    step left a remainder whose norm is below rest. *)
Definition linfrac_bound n (a b c d lo hi delta rest : R) m : R :=
  n%:R * (`|b * c - a * d| / c ^+ 2 *
    Num.max (2%:R / delta * ((hi - lo) / (hi - lo + 2%:R * delta)) ^+ (2 * m)) (rest / delta ^+ 2)).
End Spec.
