(** What the kernels are supposed to compute: the matrices and vectors that
    arrays denote. *)
From mathcomp Require Import all_ssreflect all_algebra.
Set Implicit Arguments.
Unset Strict Implicit.
Unset Printing Implicit Defensive.
Import GRing.Theory.
Local Open Scope ring_scope.

Section Spec.
Variable R : ringType.

(** The first n entries of an array, as a column vector. *)
Definition vec (n : nat) (b : seq R) : 'cV[R]_n := \col_(i < n) b`_i.

(** The matrix stored in a dense array, row-major or column-major. *)
Definition dense_matrix (m n : nat) (row_major : bool) (A : seq R) : 'M[R]_(m, n) :=
  \matrix_(i < m, j < n)
    A`_(if row_major then (i * n + j)%N else (i + m * j)%N).

(** Well-formed compressed structure: [lines] rows (columns) whose entries
    have positions below [width] and lie inside the arrays.  Entries may be
    unsorted and duplicated, lines may be empty. *)
Definition compressed_ok (lines width : nat) (data : seq R) (idx ptr : seq nat) : Prop :=
  (lines < size ptr)%N /\
  forall i q, (i < lines)%N -> (nth 0 ptr i <= q < nth 0 ptr i.+1)%N ->
    [/\ (q < size data)%N, (q < size idx)%N & (nth 0 idx q < width)%N].

(** Duplicate entries add up. *)
Definition csr_matrix (m n : nat) (data : seq R) (idx ptr : seq nat) : 'M[R]_(m, n) :=
  \matrix_(i < m, j < n)
    \sum_(nth 0%N ptr i <= q < nth 0%N ptr i.+1 | nth 0%N idx q == j) data`_q.

Definition csc_matrix (m n : nat) (data : seq R) (idx ptr : seq nat) : 'M[R]_(m, n) :=
  \matrix_(i < m, j < n)
    \sum_(nth 0%N ptr j <= q < nth 0%N ptr j.+1 | nth 0%N idx q == i) data`_q.

(** The outcome of a kernel that must put the vector [v] in the first [n]
    entries of the output array [c] and leave the rest alone. *)
Definition writes (n : nat) (c : seq R) (v : 'cV[R]_n) (result : option (seq R)) : Prop :=
  exists c', [/\ result = Some c', vec n c' = v, size c' = size c
               & forall k, (n <= k)%N -> c'`_k = c`_k].

End Spec.
