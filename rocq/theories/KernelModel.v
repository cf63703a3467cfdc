(** Model of imate/_c_basic_algebra: vector and matrix-vector kernels
    (USE_CBLAS == 0, the default of _definitions/definitions.h 72).
    Exact arithmetic over a ring; arrays never alias; indices are unbounded
    (LongIndexType overflow is treated separately). *)
From mathcomp Require Import all_ssreflect all_algebra.
From Verif Require Import Mem.
Set Implicit Arguments.
Unset Strict Implicit.
Unset Printing Implicit Defensive.
Import GRing.Theory.
Local Open Scope ring_scope.

Section Kernels.
Variable R : comRingType.
Implicit Types (A b c data diag sup : seq R) (alpha : R) (idx ptr : seq nat).

(** One product A[ia] * b[ib]. *)
Definition term A (ia : nat) b (ib : nat) : option R :=
  do x <- rd A ia; do y <- rd b ib; Some (x * y).

(** The five products summed in one pass of an unrolled loop, e.g.
    c_matrix_operations.cpp 107-111, where [ia k] is the index of the k-th. *)
Definition five A (ia : nat -> nat) b (ib : nat) (sum : R) : option R :=
  do t0 <- term A (ia 0%N) b ib;
  do t1 <- term A (ia 1%N) b (ib + 1)%N;
  do t2 <- term A (ia 2%N) b (ib + 2)%N;
  do t3 <- term A (ia 3%N) b (ib + 3)%N;
  do t4 <- term A (ia 4%N) b (ib + 4)%N;
  Some (sum + (t0 + t1 + t2 + t3 + t4)).

Definition add_term A (ia : nat) b (ib : nat) (sum : R) : option R :=
  do t <- term A ia b ib; Some (sum + t).

(** c[i] = sum and c[i] += alpha * sum. *)
Definition store c (i : nat) (sum : R) : option (seq R) := wr c i sum.
Definition accumulate c (i : nat) (v : R) : option (seq R) :=
  do x <- rd c i; wr c i (x + v).

(** c_matrix_operations.cpp 103-121 (and 206-219): one row, row-major, with
    the loop over columns unrolled by chunk = 5. *)
Definition row_sum_row_major A b (n i : nat) : option R :=
  let chunked := (n - n %% 5)%N in
  do sum <- for_ 0 chunked 5
              (fun j sum => five A (fun k => (i * n + j + k)%N) b j sum) 0;
  for_ chunked n 1 (fun j sum => add_term A (i * n + j) b j sum) sum.

(** c_matrix_operations.cpp 128-135 (and 228-234): one row, column-major. *)
Definition row_sum_col_major A b (m n i : nat) : option R :=
  for_ 0 n 1 (fun j sum => add_term A (i + m * j) b j sum) 0.

(** c_matrix_operations.cpp 60-139: dense_matvec. *)
Definition dense_matvec A b (m n : nat) (row_major : bool) c : option (seq R) :=
  for_ 0 m 1
    (fun i c =>
       do sum <- (if row_major then row_sum_row_major A b n i
                  else row_sum_col_major A b m n i);
       store c i sum) c.

(** c_matrix_operations.cpp 180-237: dense_matvec_plus. *)
Definition dense_matvec_plus A b alpha (m n : nat) (row_major : bool) c
  : option (seq R) :=
  if alpha == 0 then Some c else
  for_ 0 m 1
    (fun i c =>
       do sum <- (if row_major then row_sum_row_major A b n i
                  else row_sum_col_major A b m n i);
       accumulate c i (alpha * sum)) c.

(** c_matrix_operations.cpp 295-303: one column, row-major. *)
Definition col_sum_row_major A b (m n j : nat) : option R :=
  for_ 0 m 1 (fun i sum => add_term A (i * n + j) b i sum) 0.

(** c_matrix_operations.cpp 308-325: one column, column-major, unrolled. *)
Definition col_sum_col_major A b (m j : nat) : option R :=
  let chunked := (m - m %% 5)%N in
  do sum <- for_ 0 chunked 5
              (fun i sum => five A (fun k => (i + k + m * j)%N) b i sum) 0;
  for_ chunked m 1 (fun i sum => add_term A (i + m * j) b i sum) sum.

(** c_matrix_operations.cpp 277-328: dense_transposed_matvec. *)
Definition dense_transposed_matvec A b (m n : nat) (row_major : bool) c
  : option (seq R) :=
  for_ 0 n 1
    (fun j c =>
       do sum <- (if row_major then col_sum_row_major A b m n j
                  else col_sum_col_major A b m j);
       store c j sum) c.

(** c_matrix_operations.cpp 370-427: dense_transposed_matvec_plus. *)
Definition dense_transposed_matvec_plus A b alpha (m n : nat) (row_major : bool) c
  : option (seq R) :=
  if alpha == 0 then Some c else
  for_ 0 n 1
    (fun j c =>
       do sum <- (if row_major then col_sum_row_major A b m n j
                  else col_sum_col_major A b m j);
       accumulate c j (alpha * sum)) c.

(** c_matrix_operations.cpp 482-492 / 885-895: gather the products of one
    compressed row (column) with the dense vector. *)
Definition gather data idx ptr b (line : nat) : option R :=
  do first <- rd ptr line;
  do last <- rd ptr line.+1;
  for_ first last 1
    (fun q sum => do col <- rd idx q; add_term data q b col sum) 0.

(** c_matrix_operations.cpp 468-494: csr_matvec. *)
Definition csr_matvec data idx ptr b (m : nat) c : option (seq R) :=
  for_ 0 m 1 (fun row c => do sum <- gather data idx ptr b row; store c row sum) c.

(** c_matrix_operations.cpp 539-571: csr_matvec_plus. *)
Definition csr_matvec_plus data idx ptr b alpha (m : nat) c : option (seq R) :=
  if alpha == 0 then Some c else
  for_ 0 m 1
    (fun row c => do sum <- gather data idx ptr b row;
                  accumulate c row (alpha * sum)) c.

(** c_matrix_operations.cpp 618-621 / 747-750: zero the output. *)
Definition zero_fill (n : nat) c : option (seq R) :=
  for_ 0 n 1 (fun k c => wr c k 0) c.

(** c_matrix_operations.cpp 625-633 / 754-762: scatter one compressed row
    (column) multiplied by b[line] into the output. *)
Definition scatter data idx ptr b alpha (line : nat) c : option (seq R) :=
  do first <- rd ptr line;
  do last <- rd ptr line.+1;
  for_ first last 1
    (fun q c => do k <- rd idx q; do d <- rd data q; do x <- rd b line;
                accumulate c k (alpha * d * x)) c.

(** c_matrix_operations.cpp 605-635: csr_transposed_matvec. *)
Definition csr_transposed_matvec data idx ptr b (m n : nat) c : option (seq R) :=
  do c <- zero_fill n c;
  for_ 0 m 1 (fun row c => scatter data idx ptr b 1 row c) c.

(** c_matrix_operations.cpp 671-700: csr_transposed_matvec_plus. *)
Definition csr_transposed_matvec_plus data idx ptr b alpha (m : nat) c
  : option (seq R) :=
  if alpha == 0 then Some c else
  for_ 0 m 1 (fun row c => scatter data idx ptr b alpha row c) c.

(** c_matrix_operations.cpp 734-764: csc_matvec. *)
Definition csc_matvec data idx ptr b (m n : nat) c : option (seq R) :=
  do c <- zero_fill m c;
  for_ 0 n 1 (fun column c => scatter data idx ptr b 1 column c) c.

(** c_matrix_operations.cpp 800-829: csc_matvec_plus. *)
Definition csc_matvec_plus data idx ptr b alpha (n : nat) c : option (seq R) :=
  if alpha == 0 then Some c else
  for_ 0 n 1 (fun column c => scatter data idx ptr b alpha column c) c.

(** c_matrix_operations.cpp 871-897: csc_transposed_matvec. *)
Definition csc_transposed_matvec data idx ptr b (n : nat) c : option (seq R) :=
  for_ 0 n 1
    (fun column c => do sum <- gather data idx ptr b column; store c column sum) c.

(** c_matrix_operations.cpp 942-974: csc_transposed_matvec_plus. *)
Definition csc_transposed_matvec_plus data idx ptr b alpha (n : nat) c
  : option (seq R) :=
  if alpha == 0 then Some c else
  for_ 0 n 1
    (fun column c => do sum <- gather data idx ptr b column;
                     accumulate c column (alpha * sum)) c.

(** c_matrix_operations.cpp 1020-1046: create_band_matrix; [mat] is the array
    of row pointers, a sequence of rows. *)
Definition wr2 (mat : seq (seq R)) (i j : nat) (v : R) : option (seq (seq R)) :=
  do row <- rd mat i; do row <- wr row j v; wr mat i row.

Definition create_band_matrix diag sup (size_ : nat) (tridiagonal : bool)
    (mat : seq (seq R)) : option (seq (seq R)) :=
  for_ 0 size_ 1
    (fun j mat =>
       do d <- rd diag j;
       do mat <- wr2 mat j j d;
       if (j < size_ - 1)%N then
         do s <- rd sup j;
         do mat <- wr2 mat j j.+1 s;
         if tridiagonal then wr2 mat j.+1 j s else Some mat
       else Some mat) mat.

(** ** Vector operations *)

(** c_vector_operations.cpp 38-62: copy_vector. *)
Definition copy_vector (x : seq R) (n : nat) (y : seq R) : option (seq R) :=
  for_ 0 n 1 (fun i y => do a <- rd x i; wr y i a) y.

(** c_vector_operations.cpp 80-106: copy_scaled_vector. *)
Definition copy_scaled_vector (x : seq R) (n : nat) (scale : R) (y : seq R)
  : option (seq R) :=
  for_ 0 n 1 (fun i y => do a <- rd x i; wr y i (scale * a)) y.

(** c_vector_operations.cpp 134-165: subtract_scaled_vector. *)
Definition subtract_scaled_vector (x : seq R) (n : nat) (scale : R) (y : seq R)
  : option (seq R) :=
  if scale == 0 then Some y else
  for_ 0 n 1 (fun i y => do a <- rd x i; do v <- rd y i; wr y i (v - scale * a)) y.

(** c_vector_operations.cpp 203-244: inner_product. *)
Definition inner_product (x y : seq R) (n : nat) : option R :=
  let chunked := (n - n %% 5)%N in
  do s <- for_ 0 chunked 5 (fun i s => five x (fun k => (i + k)%N) y i s) 0;
  for_ chunked n 1 (fun i s => add_term x i y i s) s.

End Kernels.

Section Norms.
Variable R : rcfType.

(** c_vector_operations.cpp 280-321: euclidean_norm (sqrt is the exact root). *)
Definition euclidean_norm (x : seq R) (n : nat) : option R :=
  let chunked := (n - n %% 5)%N in
  do s <- for_ 0 chunked 5 (fun i s => five x (fun k => (i + k)%N) x i s) 0;
  do s <- for_ chunked n 1 (fun i s => add_term x i x i s) s;
  Some (Num.sqrt s).

(** c_vector_operations.cpp 337-370: normalize_vector_in_place; returns the
    norm and the new contents.  Division by a zero norm is [0] here, NaN in
    C++. *)
Definition normalize_vector_in_place (x : seq R) (n : nat) : option (R * seq R) :=
  do norm <- euclidean_norm x n;
  do x' <- for_ 0 n 1 (fun i x => do a <- rd x i; wr x i (a / norm)) x;
  Some (norm, x').

(** c_vector_operations.cpp 388-422: normalize_vector_and_copy. *)
Definition normalize_vector_and_copy (x : seq R) (n : nat) (y : seq R)
  : option (R * seq R) :=
  do norm <- euclidean_norm x n;
  do y' <- for_ 0 n 1 (fun i y => do a <- rd x i; wr y i (a / norm)) y;
  Some (norm, y').

End Norms.
