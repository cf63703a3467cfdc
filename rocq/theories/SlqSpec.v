(** What a quadrature sample is supposed to be, and what is assumed about the
    two LAPACK routines. *)
From mathcomp Require Import all_ssreflect all_algebra.
From Verif Require Import LanczosSpec.
Set Implicit Arguments.
Unset Strict Implicit.
Unset Printing Implicit Defensive.
Import GRing.Theory Num.Theory.
Local Open Scope ring_scope.

Section Spec.
Variable R : rcfType.

(** LAPACK xstev (diagonalization.cpp 88-118): an orthogonal eigendecomposition
    of the k x k symmetric tridiagonal matrix with diagonal alpha and
    off-diagonal beta; eigenvector i is column i, column-major. *)
Definition eigh_contract (eigh : nat -> seq R -> seq R -> option (seq R * seq R)) : Prop :=
  forall k alpha beta, (0 < k)%N -> (k <= size alpha)%N -> (k <= size beta)%N ->
  exists d ev, [/\ eigh k alpha beta = Some (d, ev), (k <= size d)%N, (k * k <= size ev)%N &
    spectral (tridiag k (nth 0 alpha) (nth 0 beta)) (\matrix_(r < k, i < k) ev`_(i * k + r))
      (\row_(i < k) d`_i)].

(** LAPACK xbdsdc (diagonalization.cpp 189-231): B = X diag(s) Vt with X and Vt
    orthogonal, for the k x k upper bidiagonal B with diagonal alpha (non-zero)
    and superdiagonal beta; Vt is column-major. *)
Definition svd_contract (svd : nat -> seq R -> seq R -> option (seq R * seq R)) : Prop :=
  forall k alpha beta, (0 < k)%N -> (k <= size alpha)%N -> (k <= size beta)%N ->
  (forall i, (i < k)%N -> alpha`_i != 0) ->
  exists s vt (X : 'M[R]_k),
    let Vt := \matrix_(i < k, r < k) vt`_(r * k + i) in
    [/\ svd k alpha beta = Some (s, vt), (k <= size s)%N, (k * k <= size vt)%N &
    [/\ X^T *m X = 1%:M, Vt *m Vt^T = 1%:M &
    bidiag k (nth 0 alpha) (nth 0 beta) = X *m diag_mx (\row_(i < k) s`_i) *m Vt]].

(** v^T F v / v^T v *)
Definition rayleigh n (F : 'M[R]_n) (v : 'cV[R]_n) : R := ip v (F *m v) / ip v v.

(** k steps of the Lanczos iteration on A from v: an orthonormal basis V whose
    first vector is v / |v|, the symmetric tridiagonal T = V^T A V, and the
    remainder r of the last step, orthogonal to V:  A V = V T + r e_k^T. *)
Definition lanczos_result n k (A : 'M[R]_n) (v : 'cV[R]_n) (V : 'M[R]_(n, k.+1))
    (T : 'M[R]_k.+1) (r : 'cV[R]_n) : Prop :=
  [/\ orthonormal V, col 0 V = (nrm v)^-1 *: v,
      V^T *m A *m V = T /\ (exists a b, T = tridiag k.+1 a b),
      V^T *m r = 0 &
      A *m V = V *m T + r *m delta_mx 0 ord_max].

(** k steps of the Golub-Kahn bidiagonalisation of A from v: orthonormal U and V,
    A V = U B with B upper bidiagonal, and A^T U = V B^T + y e_k^T. *)
Definition golub_kahn_result n k (A : 'M[R]_n) (v : 'cV[R]_n) (U V : 'M[R]_(n, k.+1))
    (B : 'M[R]_k.+1) (y : 'cV[R]_n) : Prop :=
  [/\ orthonormal U, orthonormal V, col 0 V = (nrm v)^-1 *: v,
      A *m V = U *m B /\ (exists a b, B = bidiag k.+1 a b) &
      [/\ B^T *m B = V^T *m (A^T *m A) *m V, V^T *m y = 0 &
      A^T *m U = V *m B^T + y *m delta_mx 0 ord_max]].

End Spec.
