(** Standard notions about matrices, used in the statements about the trace,
    log-determinant and Schatten norm methods.  Nothing here models code. *)
From mathcomp Require Import all_ssreflect all_algebra.
Set Implicit Arguments.
Unset Strict Implicit.
Unset Printing Implicit Defensive.
Import GRing.Theory Num.Theory.
Local Open Scope ring_scope.

(** M^k *)
Definition mxpow (R : ringType) n (M : 'M[R]_n) (k : nat) : 'M[R]_n :=
  iter k (mulmx M) 1%:M.

(** M^p for an integer p; M should be invertible if p < 0 *)
Definition mxpowz (R : comUnitRingType) n (M : 'M[R]_n) (p : int) : 'M[R]_n :=
  match p with
  | Posz k => mxpow M k
  | Negz k => mxpow (invmx M) k.+1
  end.

(** x^T M x *)
Definition qform (R : ringType) n (M : 'M[R]_n) (x : 'cV[R]_n) : R := (x^T *m M *m x) 0 0.

(** M is symmetric and positive definite *)
Definition posdef (R : numDomainType) n (M : 'M[R]_n) : Prop :=
  M^T = M /\ forall x : 'cV[R]_n, x != 0 -> 0 < qform M x.

(** L is lower triangular with positive diagonal *)
Definition lower_pos (R : numDomainType) n (L : 'M[R]_n) : Prop :=
  (forall i j : 'I_n, (i < j)%N -> L i j = 0) /\ forall i, 0 < L i i.

(** L is lower triangular with ones on its diagonal *)
Definition unit_lower (R : ringType) n (L : 'M[R]_n) : Prop :=
  (forall i j : 'I_n, (i < j)%N -> L i j = 0) /\ forall i, L i i = 1.

(** U is upper triangular *)
Definition upper (R : ringType) n (U : 'M[R]_n) : Prop :=
  forall i j : 'I_n, (j < i)%N -> U i j = 0.

(** The symmetric matrix with the lower triangle of M *)
Definition symlow (R : ringType) n (M : 'M[R]_n) : 'M[R]_n :=
  \matrix_(i, j) if (j <= i)%N then M i j else M j i.

(** s lists the eigenvalues of M with their multiplicities: the characteristic
    polynomial of M is the product of the X - x for x in s *)
Definition spectrum (R : comRingType) n (M : 'M[R]_n) (s : seq R) : Prop :=
  char_poly M = \prod_(x <- s) ('X - x%:P).
