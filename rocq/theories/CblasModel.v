(** Model of the build with USE_CBLAS == 1 of imate/_c_basic_algebra: the wrappers
    of cblas_interface.cpp and the branches of c_vector_operations.cpp and of
    c_matrix_operations.cpp that call them.

    The CBLAS routines are the reference ones, with exact arithmetic.  None
    stands for an access outside an array, for a call that a routine rejects
    (it prints an error and computes nothing), and for abort(). *)
From mathcomp Require Import all_ssreflect all_algebra.
From Verif Require Import Mem KernelModel.
Set Implicit Arguments.
Unset Strict Implicit.
Unset Printing Implicit Defensive.
Import GRing.Theory.
Local Open Scope ring_scope.

Inductive precision := Float | Double | LongDouble.

Section Cblas.
Variable R : comRingType.
Implicit Types (A x y : seq R) (alpha beta : R).

(** cblas_?gemv without transposition and with increments 1.  Row major: entry
    (i, j) is at i*lda + j, and lda must be at least N; column major: at
    i + lda*j, and lda must be at least M *)
Definition gemv (row_major : bool) (M N : nat) alpha A (lda : nat) x beta y : option (seq R) :=
  if (lda < maxn 1 (if row_major then N else M))%N then None
  else for_ 0 M 1
    (fun i y =>
       do sum <- for_ 0 N 1
                   (fun j sum => add_term A (if row_major then i * lda + j else i + lda * j)%N x j sum) 0;
       do v <- rd y i; wr y i (alpha * sum + beta * v)) y.

(** cblas_?copy, cblas_?scal, cblas_?axpy, cblas_?dot with increments 1 *)
Definition copy (N : nat) x y : option (seq R) :=
  for_ 0 N 1 (fun i y => do a <- rd x i; wr y i a) y.
Definition scal (N : nat) alpha x : option (seq R) :=
  for_ 0 N 1 (fun i x => do a <- rd x i; wr x i (alpha * a)) x.
Definition axpy (N : nat) alpha x y : option (seq R) :=
  for_ 0 N 1 (fun i y => do a <- rd x i; do v <- rd y i; wr y i (alpha * a + v)) y.
Definition dot (N : nat) x y : option R :=
  for_ 0 N 1 (fun i s => add_term x i y i s) 0.

(** The wrappers of cblas_interface.cpp: the versions for long double abort *)
Definition wrap (T : Type) (p : precision) (r : option T) : option T :=
  if p is LongDouble then None else r.

(** c_matrix_operations.cpp 69-90 *)
Definition cblas_dense_matvec (p : precision) A x (m n : nat) (row_major : bool) y :=
  let lda := m in
  wrap p (gemv row_major m n 1 A lda x 0 y).

(** c_vector_operations.cpp 44-52 *)
Definition cblas_copy_vector (p : precision) x (n : nat) y := wrap p (copy n x y).

(** c_vector_operations.cpp 87-97 *)
Definition cblas_copy_scaled_vector (p : precision) x (n : nat) (scale : R) y :=
  do y <- wrap p (copy n x y); wrap p (scal n scale y).

(** c_vector_operations.cpp 142-151 *)
Definition cblas_subtract_scaled_vector (p : precision) x (n : nat) (scale : R) y :=
  wrap p (axpy n (- scale) x y).

(** c_vector_operations.cpp 209-219 *)
Definition cblas_inner_product (p : precision) x y (n : nat) := wrap p (dot n x y).
End Cblas.

Section Norms.
Variable R : rcfType.
Implicit Types x y : seq R.

(** cblas_?nrm2 *)
Definition nrm2 (N : nat) x : option R :=
  do s <- for_ 0 N 1 (fun i s => add_term x i x i s) 0; Some (Num.sqrt s).

(** c_vector_operations.cpp 285-293 *)
Definition cblas_euclidean_norm (p : precision) x (n : nat) := wrap p (nrm2 n x).

(** c_vector_operations.cpp 342-354: the inverse of a zero norm is [0] here,
    infinite in C++ (the vector becomes NaN, as in the other build) *)
Definition cblas_normalize_vector_in_place (p : precision) x (n : nat) : option (R * seq R) :=
  do norm <- cblas_euclidean_norm p x n;
  do x <- wrap p (scal n (1 / norm) x);
  Some (norm, x).

(** c_vector_operations.cpp 394-406 *)
Definition cblas_normalize_vector_and_copy (p : precision) x (n : nat) y : option (R * seq R) :=
  do norm <- cblas_euclidean_norm p x n;
  do y <- cblas_copy_scaled_vector p x n (1 / norm) y;
  Some (norm, y).
End Norms.
