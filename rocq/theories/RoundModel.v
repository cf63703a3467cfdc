(** Model of the rounding done by the vector and matrix-vector kernels of
    imate/_c_basic_algebra (USE_CBLAS == 0, the default of
    _definitions/definitions.h 72): the code of KernelModel.v, in which every
    operation of C++ rounds its result.

    [fl] rounds to DataType (float, double or long double), [fll] to long
    double, the type of the reduction variables, and [flq] to the type in which
    the function [sqrt] works.  A product or sum of two DataType values is a
    DataType value (FLT_EVAL_METHOD 0) and sums associate to the left; a
    DataType value that is added to a long double is converted exactly.
    setup.py 912-918 gives no -ffast-math and no -march, so that operations are
    neither reordered nor contracted to fused multiply-adds on x86-64.
    Not modelled: infinities and NaN (overflow), signed zeros. *)
From mathcomp Require Import all_ssreflect all_algebra.
From Verif Require Import Mem.
Set Implicit Arguments.
Unset Strict Implicit.
Unset Printing Implicit Defensive.
Import GRing.Theory.
Local Open Scope ring_scope.

Section Rounded.
Variable F : rcfType.
Variables fl fll flq : F -> F.
Implicit Types (A b c data x y : seq F) (alpha : F) (idx ptr : seq nat).

(** One product A[ia] * b[ib] of type DataType. *)
Definition term A (ia : nat) b (ib : nat) : option F :=
  do v <- rd A ia; do w <- rd b ib; Some (fl (v * w)).

(** The five products added in one pass of an unrolled loop, e.g.
    c_matrix_operations.cpp 109-113: four additions in DataType, one in long
    double. *)
Definition five A (ia : nat -> nat) b (ib : nat) (sum : F) : option F :=
  do t0 <- term A (ia 0%N) b ib;
  do t1 <- term A (ia 1%N) b (ib + 1)%N;
  do t2 <- term A (ia 2%N) b (ib + 2)%N;
  do t3 <- term A (ia 3%N) b (ib + 3)%N;
  do t4 <- term A (ia 4%N) b (ib + 4)%N;
  Some (fll (sum + fl (fl (fl (fl (t0 + t1) + t2) + t3) + t4))).

(** sum += A[ia] * b[ib], e.g. c_matrix_operations.cpp 118. *)
Definition add_term A (ia : nat) b (ib : nat) (sum : F) : option F :=
  do t <- term A ia b ib; Some (fll (sum + t)).

(** c[i] = static_cast<DataType>(sum), e.g. c_matrix_operations.cpp 121. *)
Definition store c (i : nat) (sum : F) : option (seq F) := wr c i (fl sum).

(** c[i] += v for v of type DataType. *)
Definition accumulate c (i : nat) (v : F) : option (seq F) :=
  do w <- rd c i; wr c i (fl (w + v)).

(** c[i] += alpha * static_cast<DataType>(sum), e.g. c_matrix_operations.cpp
    221. *)
Definition accumulate_scaled c (i : nat) alpha (sum : F) : option (seq F) :=
  accumulate c i (fl (alpha * fl sum)).

(** c_matrix_operations.cpp 106-119 (and 206-219): one row, row-major. *)
Definition row_sum_row_major A b (n i : nat) : option F :=
  let chunked := (n - n %% 5)%N in
  do sum <- for_ 0 chunked 5
              (fun j sum => five A (fun k => (i * n + j + k)%N) b j sum) 0;
  for_ chunked n 1 (fun j sum => add_term A (i * n + j) b j sum) sum.

(** c_matrix_operations.cpp 129-133 (and 229-233): one row, column-major. *)
Definition row_sum_col_major A b (m n i : nat) : option F :=
  for_ 0 n 1 (fun j sum => add_term A (i + m * j) b j sum) 0.

(** c_matrix_operations.cpp 60-139: dense_matvec. *)
Definition dense_matvec A b (m n : nat) (row_major : bool) c : option (seq F) :=
  for_ 0 m 1
    (fun i c =>
       do sum <- (if row_major then row_sum_row_major A b n i
                  else row_sum_col_major A b m n i);
       store c i sum) c.

(** c_matrix_operations.cpp 180-237: dense_matvec_plus. *)
Definition dense_matvec_plus A b alpha (m n : nat) (row_major : bool) c
  : option (seq F) :=
  if alpha == 0 then Some c else
  for_ 0 m 1
    (fun i c =>
       do sum <- (if row_major then row_sum_row_major A b n i
                  else row_sum_col_major A b m n i);
       accumulate_scaled c i alpha sum) c.

(** c_matrix_operations.cpp 297-301: one column, row-major. *)
Definition col_sum_row_major A b (m n j : nat) : option F :=
  for_ 0 m 1 (fun i sum => add_term A (i * n + j) b i sum) 0.

(** c_matrix_operations.cpp 310-323: one column, column-major, unrolled. *)
Definition col_sum_col_major A b (m j : nat) : option F :=
  let chunked := (m - m %% 5)%N in
  do sum <- for_ 0 chunked 5
              (fun i sum => five A (fun k => (i + k + m * j)%N) b i sum) 0;
  for_ chunked m 1 (fun i sum => add_term A (i + m * j) b i sum) sum.

(** c_matrix_operations.cpp 277-328: dense_transposed_matvec. *)
Definition dense_transposed_matvec A b (m n : nat) (row_major : bool) c
  : option (seq F) :=
  for_ 0 n 1
    (fun j c =>
       do sum <- (if row_major then col_sum_row_major A b m n j
                  else col_sum_col_major A b m j);
       store c j sum) c.

(** c_matrix_operations.cpp 370-427: dense_transposed_matvec_plus. *)
Definition dense_transposed_matvec_plus A b alpha (m n : nat) (row_major : bool) c
  : option (seq F) :=
  if alpha == 0 then Some c else
  for_ 0 n 1
    (fun j c =>
       do sum <- (if row_major then col_sum_row_major A b m n j
                  else col_sum_col_major A b m j);
       accumulate_scaled c j alpha sum) c.

(** c_matrix_operations.cpp 484-491 / 887-894: the products of one compressed
    row (column) with the dense vector. *)
Definition gather data idx ptr b (line : nat) : option F :=
  do first <- rd ptr line;
  do last <- rd ptr line.+1;
  for_ first last 1
    (fun q sum => do col <- rd idx q; add_term data q b col sum) 0.

(** c_matrix_operations.cpp 468-494: csr_matvec. *)
Definition csr_matvec data idx ptr b (m : nat) c : option (seq F) :=
  for_ 0 m 1 (fun row c => do sum <- gather data idx ptr b row; store c row sum) c.

(** c_matrix_operations.cpp 539-571: csr_matvec_plus. *)
Definition csr_matvec_plus data idx ptr b alpha (m : nat) c : option (seq F) :=
  if alpha == 0 then Some c else
  for_ 0 m 1
    (fun row c => do sum <- gather data idx ptr b row;
                  accumulate_scaled c row alpha sum) c.

(** c_matrix_operations.cpp 620-623 / 749-752: zero the output. *)
Definition zero_fill (n : nat) c : option (seq F) :=
  for_ 0 n 1 (fun k c => wr c k 0) c.

(** c_matrix_operations.cpp 627-633 / 756-762: c[k] += A_data[q] * b[line]. *)
Definition scatter data idx ptr b (line : nat) c : option (seq F) :=
  do first <- rd ptr line;
  do last <- rd ptr line.+1;
  for_ first last 1
    (fun q c => do k <- rd idx q; do t <- term data q b line; accumulate c k t) c.

(** c_matrix_operations.cpp 692-698 / 821-827:
    c[k] += alpha * A_data[q] * b[line]. *)
Definition scatter_scaled data idx ptr b alpha (line : nat) c : option (seq F) :=
  do first <- rd ptr line;
  do last <- rd ptr line.+1;
  for_ first last 1
    (fun q c => do k <- rd idx q; do d <- rd data q; do w <- rd b line;
                accumulate c k (fl (fl (alpha * d) * w))) c.

(** c_matrix_operations.cpp 605-635: csr_transposed_matvec. *)
Definition csr_transposed_matvec data idx ptr b (m n : nat) c : option (seq F) :=
  do c <- zero_fill n c;
  for_ 0 m 1 (fun row c => scatter data idx ptr b row c) c.

(** c_matrix_operations.cpp 671-700: csr_transposed_matvec_plus. *)
Definition csr_transposed_matvec_plus data idx ptr b alpha (m : nat) c
  : option (seq F) :=
  if alpha == 0 then Some c else
  for_ 0 m 1 (fun row c => scatter_scaled data idx ptr b alpha row c) c.

(** c_matrix_operations.cpp 734-764: csc_matvec. *)
Definition csc_matvec data idx ptr b (m n : nat) c : option (seq F) :=
  do c <- zero_fill m c;
  for_ 0 n 1 (fun column c => scatter data idx ptr b column c) c.

(** c_matrix_operations.cpp 800-829: csc_matvec_plus. *)
Definition csc_matvec_plus data idx ptr b alpha (n : nat) c : option (seq F) :=
  if alpha == 0 then Some c else
  for_ 0 n 1 (fun column c => scatter_scaled data idx ptr b alpha column c) c.

(** c_matrix_operations.cpp 871-897: csc_transposed_matvec. *)
Definition csc_transposed_matvec data idx ptr b (n : nat) c : option (seq F) :=
  for_ 0 n 1
    (fun column c => do sum <- gather data idx ptr b column; store c column sum) c.

(** c_matrix_operations.cpp 942-974: csc_transposed_matvec_plus; line 972 is
    c[column] += static_cast<DataType>(alpha * sum), whose product is a long
    double, unlike in the other kernels. *)
Definition csc_transposed_matvec_plus data idx ptr b alpha (n : nat) c
  : option (seq F) :=
  if alpha == 0 then Some c else
  for_ 0 n 1
    (fun column c => do sum <- gather data idx ptr b column;
                     accumulate c column (fl (fll (alpha * sum)))) c.

(** ** Vector operations *)

(** c_vector_operations.cpp 80-106: copy_scaled_vector. *)
Definition copy_scaled_vector x (n : nat) (scale : F) y : option (seq F) :=
  for_ 0 n 1 (fun i y => do a <- rd x i; wr y i (fl (scale * a))) y.

(** c_vector_operations.cpp 134-165: subtract_scaled_vector. *)
Definition subtract_scaled_vector x (n : nat) (scale : F) y : option (seq F) :=
  if scale == 0 then Some y else
  for_ 0 n 1
    (fun i y => do a <- rd x i; do v <- rd y i; wr y i (fl (v - fl (scale * a)))) y.

(** c_vector_operations.cpp 223-239 and 297-313: the reduction loops. *)
Definition reduce x y (n : nat) : option F :=
  let chunked := (n - n %% 5)%N in
  do s <- for_ 0 chunked 5 (fun i s => five x (fun k => (i + k)%N) y i s) 0;
  for_ chunked n 1 (fun i s => add_term x i y i s) s.

(** c_vector_operations.cpp 203-244: inner_product. *)
Definition inner_product x y (n : nat) : option F :=
  do s <- reduce x y n; Some (fl s).

(** c_vector_operations.cpp 280-321: euclidean_norm.  Line 316 calls
    sqrt(static_cast<DataType>(norm2)) without std::, with only <cmath>
    included.  Which function that is depends on the headers of the compiler:
    where the overloads of <cmath> are also in the global namespace, it is the
    square root of DataType ([flq] is [fl]); where they are not, it is C's
    double sqrt(double), whose argument and result are doubles. *)
Definition euclidean_norm x (n : nat) : option F :=
  do s <- reduce x x n; Some (fl (flq (Num.sqrt (flq (fl s))))).

(** c_vector_operations.cpp 337-370: normalize_vector_in_place. *)
Definition normalize_vector_in_place x (n : nat) : option (F * seq F) :=
  do norm <- euclidean_norm x n;
  do x' <- for_ 0 n 1 (fun i x => do a <- rd x i; wr x i (fl (a / norm))) x;
  Some (norm, x').

(** c_vector_operations.cpp 388-422: normalize_vector_and_copy. *)
Definition normalize_vector_and_copy x (n : nat) y : option (F * seq F) :=
  do norm <- euclidean_norm x n;
  do y' <- for_ 0 n 1 (fun i y => do a <- rd x i; wr y i (fl (a / norm))) y;
  Some (norm, y').

End Rounded.
