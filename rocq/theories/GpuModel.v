(** Model of the products computed on GPU devices: imate/_cu_basic_algebra,
    imate/_cu_linear_operator and imate/_cuda_utilities/cuda_interface.cu.

    The cuBLAS and cuSPARSE routines are modelled by their documented results,
    with exact arithmetic.  None stands for an access outside an array and for a
    call that a routine rejects: the status is checked by assert only.  The
    OpenMP loops over the devices have one thread for each device. *)
From mathcomp Require Import all_ssreflect all_algebra.
From Verif Require Import Mem KernelModel CblasModel OperatorModel.
Set Implicit Arguments.
Unset Strict Implicit.
Unset Printing Implicit Defensive.
Import GRing.Theory Num.Theory.
Local Open Scope ring_scope.

Section Gpu.
Variable R : comRingType.
Implicit Types (A b c x y data : seq R) (alpha beta : R) (idx ptr : seq nat).

(** y[i] = alpha * sum + beta * y[i]; y is not read if beta is zero *)
Definition put alpha beta y (i : nat) (sum : R) : option (seq R) :=
  if beta == 0 then wr y i (alpha * sum)
  else do v <- rd y i; wr y i (alpha * sum + beta * v).

(** cublas?gemv with increments 1: A is an m x n matrix in column-major order
    with leading dimension lda *)
Definition cu_gemv (trans : bool) (m n : nat) alpha A (lda : nat) x beta y : option (seq R) :=
  if (lda < maxn 1 m)%N then None
  else if (m == 0)%N || (n == 0)%N then Some y
  else for_ 0 (if trans then n else m) 1
    (fun i y =>
       do sum <- for_ 0 (if trans then m else n) 1
                   (fun j sum => add_term A (if trans then j + lda * i else i + lda * j)%N x j sum) 0;
       put alpha beta y i sum) y.

(** cu_matrix_operations.cu 52-93 *)
Definition cu_dense_matvec A b (num_rows num_columns : nat) (row_major : bool) c :=
  let m := if row_major then num_columns else num_rows in
  let n := if row_major then num_rows else num_columns in
  cu_gemv row_major m n 1 A m b 0 c.

(** cu_matrix_operations.cu 128-169 *)
Definition cu_dense_matvec_plus A b alpha (num_rows num_columns : nat) (row_major : bool) c :=
  let m := if row_major then num_columns else num_rows in
  let n := if row_major then num_rows else num_columns in
  cu_gemv row_major m n alpha A m b 1 c.

(** cu_matrix_operations.cu 203-244 *)
Definition cu_dense_transposed_matvec A b (num_rows num_columns : nat) (row_major : bool) c :=
  let m := if row_major then num_columns else num_rows in
  let n := if row_major then num_rows else num_columns in
  cu_gemv (~~ row_major) m n 1 A m b 0 c.

(** cu_matrix_operations.cu 280-326: beta is 0 in line 300 *)
Definition cu_dense_transposed_matvec_plus A b alpha (num_rows num_columns : nat)
    (row_major : bool) c :=
  if alpha == 0 then Some c else
  let m := if row_major then num_columns else num_rows in
  let n := if row_major then num_rows else num_columns in
  cu_gemv (~~ row_major) m n alpha A m b 0 c.

(** cusparseSpMatDescr_t made by cusparseCreateCsr (cusparse_interface.cu 38-88):
    the device arrays are referred to, not copied *)
Record descr := Descr {
  d_rows : nat; d_columns : nat; d_data : seq R; d_idx : seq nat; d_ptr : seq nat }.

(** cusparseSpMV (cusparse_interface.cu 231-283) with vectors of the sizes nx and
    ny: the call is rejected if they do not match the matrix *)
Definition spmv (trans : bool) alpha (D : descr) (nx : nat) x beta (ny : nat) y
  : option (seq R) :=
  if trans then
    if (nx != d_rows D) || (ny != d_columns D) then None else
    do y <- for_ 0 (d_columns D) 1 (fun k y => put 0 beta y k 0) y;
    for_ 0 (d_rows D) 1 (fun line y => scatter (d_data D) (d_idx D) (d_ptr D) x alpha line y) y
  else
    if (nx != d_columns D) || (ny != d_rows D) then None else
    for_ 0 (d_rows D) 1
      (fun line y => do sum <- gather (d_data D) (d_idx D) (d_ptr D) x line;
                     put alpha beta y line sum) y.

(** CudaInterface::alloc and copy_to_device of n entries of a host array,
    cuda_interface.cu 76-99, 142-151 *)
Definition to_device (T : Type) (host : seq T) (n : nat) : option (seq T) :=
  if (n <= size host)%N then Some (take n host) else None.

(** The arrays of a matrix on one device *)
Inductive device_matrix : Type :=
| DDense (row_major : bool) A
| DCsr (D : descr)
| DCsc (D : descr).

(** copy_host_to_device on one device: cu_dense_matrix.cu 95-123,
    cu_csr_matrix.cu 165-224, cu_csc_matrix.cu 169-233.  get_nnz reads the index
    pointer at num_rows (c_csr_matrix.cpp) or at num_columns (c_csc_matrix.cpp
    128-131); both copies of the index pointer have num_rows + 1 entries *)
Definition device_copy (s : storage R) (m n : nat) : option device_matrix :=
  match s with
  | Dense rm A => do A <- to_device A (m * n); Some (DDense rm A)
  | Csr data idx ptr =>
      do nnz <- rd ptr m;
      do data <- to_device data nnz; do idx <- to_device idx nnz; do ptr <- to_device ptr m.+1;
      Some (DCsr (Descr m n data idx ptr))
  | Csc data idx ptr =>
      do nnz <- rd ptr n;
      do data <- to_device data nnz; do idx <- to_device idx nnz; do ptr <- to_device ptr m.+1;
      Some (DCsc (Descr n m data idx ptr))
  end.

(** The matrix on all devices: slot [d] holds the arrays of device [d] *)
Definition copy_host_to_device (s : storage R) (m n devices : nat) : option (seq device_matrix) :=
  do D <- device_copy s m n; Some (nseq devices D).

(** dot: cu_dense_matrix.cu 131-148, cu_csr_matrix.cu 278-318, cu_csc_matrix.cu
    287-329; [device] is the current device *)
Definition cu_dot (M : seq device_matrix) (device m n : nat) x y : option (seq R) :=
  do D <- rd M device;
  match D with
  | DDense rm A => cu_dense_matvec A x m n rm y
  | DCsr D => spmv false 1 D n x 0 m y
  | DCsc D => spmv true 1 D n x 0 m y
  end.

(** dot_plus: cu_dense_matrix.cu 156-175, cu_csr_matrix.cu 326-366,
    cu_csc_matrix.cu 337-379 *)
Definition cu_dot_plus (M : seq device_matrix) (device m n : nat) x alpha y : option (seq R) :=
  do D <- rd M device;
  match D with
  | DDense rm A => cu_dense_matvec_plus A x alpha m n rm y
  | DCsr D => spmv false alpha D n x 1 m y
  | DCsc D => spmv true alpha D n x 1 m y
  end.

(** transpose_dot: cu_dense_matrix.cu 183-200, cu_csr_matrix.cu 374-414,
    cu_csc_matrix.cu 387-429.  The sparse versions describe the input as a vector
    of num_columns entries and the output as one of num_rows entries *)
Definition cu_transpose_dot (M : seq device_matrix) (device m n : nat) x y : option (seq R) :=
  do D <- rd M device;
  match D with
  | DDense rm A => cu_dense_transposed_matvec A x m n rm y
  | DCsr D => spmv true 1 D n x 0 m y
  | DCsc D => spmv false 1 D n x 0 m y
  end.

(** transpose_dot_plus: cu_dense_matrix.cu 208-227, cu_csr_matrix.cu 422-462,
    cu_csc_matrix.cu 437-479 *)
Definition cu_transpose_dot_plus (M : seq device_matrix) (device m n : nat) x alpha y
  : option (seq R) :=
  do D <- rd M device;
  match D with
  | DDense rm A => cu_dense_transposed_matvec_plus A x alpha m n rm y
  | DCsr D => spmv true alpha D n x 1 m y
  | DCsc D => spmv false alpha D n x 1 m y
  end.

(** cu_vector_operations.cu 38-52, 73-96, 126-147, 166-183 *)
Definition cu_copy_vector x (n : nat) y := copy n x y.
Definition cu_copy_scaled_vector x (n : nat) (scale : R) y :=
  do y <- copy n x y; scal n scale y.
Definition cu_subtract_scaled_vector x (n : nat) (scale : R) y :=
  if scale == 0 then Some y else axpy n (- scale) x y.
Definition cu_inner_product x y (n : nat) := CblasModel.dot n x y.

(** The affine matrix functions, cu_dense_affine_matrix_function.cu,
    cu_csr_affine_matrix_function.cu, cu_csc_affine_matrix_function.cu *)
Record cu_affine := CuAffine {
  cu_A : seq device_matrix;
  cu_B : option (seq device_matrix);
  cu_B_is_identity : bool;
  cu_parameters : option (seq R) }.

(** Constructors: cu_dense_affine_matrix_function.cu 29-84,
    cu_csr_affine_matrix_function.cu 29-90, cu_csc_affine_matrix_function.cu
    29-90.  The test of B runs on the host arrays *)
Definition new_cu_affine (A : storage R) (B : option (storage R)) (m n devices : nat)
  : option cu_affine :=
  do M <- copy_host_to_device A m n devices;
  match B with
  | None => Some (CuAffine M None true None)
  | Some B =>
      do MB <- copy_host_to_device B m n devices;
      do id <- is_identity_matrix B m n;
      Some (CuAffine M (Some MB) id None)
  end.

(** c_linear_operator.cpp 108-111 *)
Definition cu_set_parameters (op : cu_affine) (p : seq R) : cu_affine :=
  CuAffine (cu_A op) (cu_B op) (cu_B_is_identity op) (Some p).

(** dot: cu_dense_affine_matrix_function.cu 118-149, cu_csr_... 124-155,
    cu_csc_... 124-155; cu_affine_matrix_function.cu 131-144 *)
Definition cu_affine_dot (op : cu_affine) (device m n : nat) v c : option (seq R) :=
  do c <- cu_dot (cu_A op) device m n v c;
  do p <- cu_parameters op;
  do t <- rd p 0%N;
  if cu_B_is_identity op then
    cu_subtract_scaled_vector v (if (m < n)%N then m else n) (- t) c
  else
    do B <- cu_B op; cu_dot_plus B device m n v t c.

(** transpose_dot: cu_dense_affine_matrix_function.cu 174-205, cu_csr_...
    180-211, cu_csc_... 180-211 *)
Definition cu_affine_transpose_dot (op : cu_affine) (device m n : nat) v c : option (seq R) :=
  do c <- cu_transpose_dot (cu_A op) device m n v c;
  do p <- cu_parameters op;
  do t <- rd p 0%N;
  if cu_B_is_identity op then
    cu_subtract_scaled_vector v (if (m < n)%N then m else n) (- t) c
  else
    do B <- cu_B op; cu_transpose_dot_plus B device m n v t c.

End Gpu.

Section Norms.
Variable R : rcfType.
Implicit Types x y : seq R.

(** cu_vector_operations.cu 201-215, 234-252, 273-290 *)
Definition cu_euclidean_norm x (n : nat) := nrm2 n x.
Definition cu_normalize_vector_in_place x (n : nat) : option (R * seq R) :=
  do norm <- cu_euclidean_norm x n; do x <- scal n (1 / norm) x; Some (norm, x).
Definition cu_normalize_vector_and_copy x (n : nat) y : option (R * seq R) :=
  do norm <- cu_euclidean_norm x n;
  do y <- cu_copy_scaled_vector x n (1 / norm) y; Some (norm, y).
End Norms.
