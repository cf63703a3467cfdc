(** What the Lanczos and Golub-Kahn iterations are supposed to deliver:
    inner products, band matrices and spectral decompositions. *)
From mathcomp Require Import all_ssreflect all_algebra.
Set Implicit Arguments.
Unset Strict Implicit.
Unset Printing Implicit Defensive.
Import GRing.Theory Num.Theory.
Local Open Scope ring_scope.

Section Spec.
Variable R : rcfType.

Definition ip n (x y : 'cV[R]_n) : R := \sum_i x i 0 * y i 0.
Definition nrm n (x : 'cV[R]_n) : R := Num.sqrt (ip x x).

(** The symmetric tridiagonal matrix with diagonal a and off-diagonal b. *)
Definition tridiag m (a b : nat -> R) : 'M[R]_m :=
  \matrix_(i, j) (if (i == j :> nat) then a i
                  else if (j == i.+1 :> nat) then b i
                  else if (i == j.+1 :> nat) then b j else 0).

(** The upper bidiagonal matrix with diagonal a and superdiagonal b. *)
Definition bidiag m (a b : nat -> R) : 'M[R]_m :=
  \matrix_(i, j) (if (i == j :> nat) then a i
                  else if (j == i.+1 :> nat) then b i else 0).

(** The columns of M are orthonormal. *)
Definition orthonormal n m (M : 'M[R]_(n, m)) : Prop := M^T *m M = 1%:M.

(** M = P diag(d) P^T with P orthogonal. *)
Definition spectral n (M P : 'M[R]_n) (d : 'rV[R]_n) : Prop :=
  orthonormal P /\ M = P *m diag_mx d *m P^T.

(** f(M) for M = P diag(d) P^T. *)
Definition matrix_function n (f : R -> R) (P : 'M[R]_n) (d : 'rV[R]_n) : 'M[R]_n :=
  P *m diag_mx (map_mx f d) *m P^T.

End Spec.
