(** What it means that a function is close to a polynomial, and the range of a
    symmetric matrix. *)
From mathcomp Require Import all_ssreflect all_algebra.
From Verif Require Import LanczosSpec SlqSpec VarianceSpec.
Set Implicit Arguments.
Unset Strict Implicit.
Unset Printing Implicit Defensive.
Import GRing.Theory Num.Theory.
Local Open Scope ring_scope.

Section Spec.
Variable R : rcfType.

(** All values y^T M y / y^T y lie in [lo, hi]: for a symmetric M, all its
    eigenvalues do. *)
Definition range_in n (M : 'M[R]_n) (lo hi : R) : Prop :=
  forall y : 'cV[R]_n, lo * ip y y <= ip y (M *m y) <= hi * ip y y.

(** g and p differ by at most delta on [lo, hi]. *)
Definition approximates (g : R -> R) (p : {poly R}) (lo hi delta : R) : Prop :=
  forall y, lo <= y <= hi -> `|g y - p.[y]| <= delta.

(** What the remainder is below when the iteration stops before lanczos_degree:
    lanczos_tol times the root of n, and in gram mode times the norm of A. *)
Definition rest n (tol : R) (gram : bool) (hi : R) : R :=
  (if gram then Num.sqrt hi else 1) * (tol * Num.sqrt n%:R).

(** The bound for one sample of the trace of the inverse: with the n x n matrix's
    range in [lo, hi], after m steps, or when an earlier step left a remainder
    whose norm is below rest. *)
Definition inverse_bound n (lo hi rest : R) m : R :=
  n%:R * Num.max (2%:R / lo * ((hi - lo) / (hi + lo)) ^+ (2 * m)) (rest / lo ^+ 2).

(** Samples taken at vectors of signs are, but for b, as good as quadratic forms:
    their mean over all vectors is within b of tr(F), and of all choices of K
    vectors at most the share spread(F) / (K e^2) gives a mean that is e + b or
    more from tr(F). *)
Definition concentrated_within n (F : 'M[R]_n) (b : R) (sample : n.-tuple bool -> R) : Prop :=
  `|average sample - \tr F| <= b /\
  (forall K e, (0 < K)%N -> 0 < e ->
     (#|[set S : draws K [finType of n.-tuple bool] | e + b <= `|sample_mean sample S - \tr F|]|)%:R <=
     (#|{: draws K [finType of n.-tuple bool]}|)%:R * (spread F / (K%:R * e ^+ 2))).
End Spec.
