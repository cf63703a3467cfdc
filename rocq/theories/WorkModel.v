(** Model of the sizes of the work arrays of a run of the stochastic Lanczos
    quadrature and of the positions of the vectors in them, with the index types of
    imate/_definitions/types.h: imate/_c_trace_estimator/c_trace_estimator.cpp,
    c_lanczos_tridiagonalization.cpp, c_golub_kahn_bidiagonalization.cpp,
    diagonalization.cpp, and the same of imate/_cu_trace_estimator.

    A signed result out of range, which is undefined in C++, is taken to wrap
    around, as compilers do without assuming otherwise. *)
Require Import ZArith List Bool.
From Verif Require Import IndexModel.
Import ListNotations.
Local Open Scope Z_scope.

(** IndexType is int: types.h 65 *)
Definition int32 : index_type := IndexT false false.

(** new T[k]: a negative size throws std::bad_array_new_length; on the GPU
    CudaInterface::alloc aborts, since the size is compared as an unsigned number
    (cuda_interface.cu 39-51).  Whether there is so much memory is left out *)
Definition new_array (k : Z) : option Z := if k <? 0 then None else Some k.

(** An array: its size, if it is there, and the parts of it that are used, as
    positions and lengths *)
Record array := Array { size : option Z; parts : list (Z * Z) }.

Definition upto (k : Z) : list Z := map Z.of_nat (seq 0 (Z.to_nat k)).

(** c_trace_estimator.cpp 220: get_num_rows gives a LongIndexType *)
Definition matrix_size (num_rows : Z) : Z := wrap int32 num_rows.

(** c_trace_estimator.cpp 230-231, 271 and cu_trace_estimator.cu 236-237, 280, where
    the number of the thread is unsigned.  A vector has num_rows entries: the
    operator reads and writes so many *)
Definition random_vectors (gpu : bool) (num_rows threads : Z) : array :=
  let ms := matrix_size num_rows in
  Array (new_array (wrap int32 (ms * threads)))
    (map (fun t => (wrap (IndexT false gpu) (ms * t), num_rows)) (upto threads)).

(** c_lanczos_tridiagonalization.cpp 127-145 *)
Definition lanczos_buffer_size (orthogonalize m : Z) : Z :=
  if (orthogonalize =? 0) || (orthogonalize =? 1) then 2
  else if (orthogonalize <? 0) || (m <? orthogonalize) then m
  else orthogonalize.

(** c_golub_kahn_bidiagonalization.cpp 121-140 *)
Definition golub_kahn_buffer_size (orthogonalize m : Z) : Z :=
  if orthogonalize =? 0 then 2
  else if (orthogonalize <? 0) || (m - 1 <? orthogonalize) then m
  else orthogonalize + 1.

Definition buffer_size (gram : bool) (orthogonalize m : Z) : Z :=
  if gram then golub_kahn_buffer_size orthogonalize m else lanczos_buffer_size orthogonalize m.

(** The vectors of a basis: c_lanczos_tridiagonalization.cpp 150, 173-229,
    c_golub_kahn_bidiagonalization.cpp 145-146, 162-216, c_orthogonalization.cpp 182.
    Vector j is at (j % buffer_size) * n; here j runs over the places of the buffer *)
Definition basis (c : index_type) (num_rows b : Z) : array :=
  let n := wrap c (matrix_size num_rows) in
  Array (new_array (wrap c (n * b)))
    (map (fun j => (wrap c ((j mod b) * n), num_rows)) (upto b)).

(** c_lanczos_tridiagonalization.cpp 153 *)
Definition residual (c : index_type) (num_rows : Z) : array :=
  Array (new_array (wrap c (matrix_size num_rows))) [(0, num_rows)].

(** The arrays for LAPACK, where [s] is the size of the matrix of the Lanczos
    coefficients: c_trace_estimator.cpp 544, diagonalization.cpp 99 *)
Definition eigen_arrays (s : Z) : list array :=
  [ Array (new_array (wrap int32 (s * s))) [(0, s * s)];
    Array (new_array (wrap int32 (wrap int32 (2 * s) - 2))) [(0, 2 * s - 2)] ].

(** c_trace_estimator.cpp 519-522, diagonalization.cpp 215-216 *)
Definition singular_arrays (s : Z) : list array :=
  [ Array (new_array (wrap int32 (s * s))) [(0, s * s)];
    Array (new_array (wrap int32 (s * s))) [(0, s * s)];
    Array (new_array (wrap int32 (wrap int32 (wrap int32 (3 * s) * s) + wrap int32 (4 * s))))
      [(0, 3 * s * s + 4 * s)];
    Array (new_array (wrap int32 (8 * s))) [(0, 8 * s)] ].

(** The arrays of one run whose size depends on that of the matrix or on the degree.
    [s] is the number of Lanczos steps that were done *)
Definition work_arrays (c : index_type) (gpu gram : bool)
    (num_rows threads m orthogonalize s : Z) : list array :=
  let b := buffer_size gram orthogonalize m in
  random_vectors gpu num_rows threads ::
  (if gram then
     [basis c num_rows b; basis c num_rows b] ++ singular_arrays s
   else
     [basis c num_rows b; residual c num_rows] ++ eigen_arrays s).
