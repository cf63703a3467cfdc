(** * Specification of the sample statistics (textbook definitions) *)
From mathcomp Require Import all_ssreflect all_algebra.

Set Implicit Arguments.
Unset Strict Implicit.
Unset Printing Implicit Defensive.

Import GRing.Theory Num.Theory.
Local Open Scope ring_scope.

Section Spec.
Variable R : rcfType.

(** Mean of a sample. *)
Definition mean (xs : seq R) : R := (\sum_(x <- xs) x) / (size xs)%:R.

(** Unbiased standard deviation, for two samples or more. *)
Definition std_dev (xs : seq R) : R :=
  Num.sqrt ((\sum_(x <- xs) (x - mean xs) ^+ 2) / (size xs).-1%:R).

(** Half width of the confidence interval with quantile [z]. *)
Definition half_width (z : R) (xs : seq R) : R :=
  z * std_dev xs / Num.sqrt (size xs)%:R.

(** The samples inside the outlier interval with quantile [z]. *)
Definition inliers (z : R) (xs : seq R) : seq R :=
  [seq x <- xs | `|x - mean xs| <= z * std_dev xs].

End Spec.
