(** Model of the resources an operator holds on the GPU devices: handles of
    cuBLAS and cuSPARSE, arrays, descriptors and buffers; imate/_cu_linear_operator,
    imate/_cuda_utilities/cuda_interface.cu and the use that
    imate/_cu_trace_estimator makes of them.

    None stands for undefined behaviour: an access outside an array of pointers, a
    pointer that was never written, a resource that was released already, or one
    of another device.  The statuses are checked by assert only. *)
From mathcomp Require Import all_ssreflect.
From Verif Require Import Mem.
Set Implicit Arguments.
Unset Strict Implicit.
Unset Printing Implicit Defensive.

Inductive res := Cublas | Cusparse | Memory | Descriptor.
Definition res_code (r : res) : bool * bool :=
  match r with Cublas => (true, true) | Cusparse => (true, false)
             | Memory => (false, true) | Descriptor => (false, false) end.
Definition res_decode (c : bool * bool) : res :=
  match c with (true, true) => Cublas | (true, false) => Cusparse
             | (false, true) => Memory | (false, false) => Descriptor end.
Lemma res_codeK : cancel res_code res_decode. Proof. by case. Qed.
Definition res_eqMixin := CanEqMixin res_codeK.
Canonical res_eqType := EqType res res_eqMixin.

(** A pointer kept on the host *)
Inductive slot := Uninit | Null | Ptr (id : nat).

(** A resource that exists: its number, what it is and its device *)
Definition entry := (nat * (res * nat))%type.

(** The resources that exist, the number of the next one, the devices that were
    used so far, and the number of parallel regions so far *)
Record world := World { live : seq entry; next : nat; touched : seq nat; regions : nat }.

Section Handles.
(** [order r m]: the order in which the [m] threads of region [r] run.  The code
    of one thread in such a region is taken as a single step: the threads write
    different positions.  [limit]: the most threads OpenMP provides.
    [fails id]: the allocation with this number fails *)
Variables (order : nat -> nat -> seq nat) (limit : nat) (fails : nat -> bool).

Definition touch (d : nat) (w : world) : world :=
  World (live w) (next w) (d :: touched w) (regions w).

(** cublasCreate, cusparseCreate, cudaMalloc and cusparseCreateCsr on device [d].
    [old] is the pointer that is overwritten; a cudaMalloc that fails does not
    write it (cuda_interface.cu 35-125) *)
Definition create (k : res) (d : nat) (old : slot) (w : world) : slot * world :=
  let w := touch d w in
  if (k == Memory) && fails (next w) then
    (old, World (live w) (next w).+1 (touched w) (regions w))
  else (Ptr (next w),
        World ((next w, (k, d)) :: live w) (next w).+1 (touched w) (regions w)).

(** cublasDestroy, cusparseDestroy, cusparseDestroySpMat, and cudaFree, which is
    not called on NULL: cuda_interface.cu 165-174 *)
Definition release (k : res) (d : nat) (s : slot) (w : world) : option world :=
  let w := touch d w in
  match s with
  | Uninit => None
  | Null => if k == Memory then Some w else None
  | Ptr i => if (i, (k, d)) \in live w
             then Some (World (rem (i, (k, d)) (live w)) (next w) (touched w) (regions w))
             else None
  end.

(** A call that is given the pointer on device [d] *)
Definition use (k : res) (d : nat) (s : slot) (w : world) : option world :=
  let w := touch d w in
  if s is Ptr i then if (i, (k, d)) \in live w then Some w else None else None.

(** The pointers of one device, and those of all devices.  The program keeps one
    array of pointers for each kind; here the pointers of a device stand together *)
Definition row := seq slot.
Definition table := seq row.

Fixpoint fill (ks : seq res) (d : nat) (w : world) : row * world :=
  if ks is k :: ks then
    let: (s, w) := create k d Uninit w in
    let: (r, w) := fill ks d w in (s :: r, w)
  else ([::], w).

Fixpoint release_row (ks : seq res) (d : nat) (r : row) (w : world) : option world :=
  match ks, r with
  | k :: ks, s :: r => do w <- release k d s w; release_row ks d r w
  | [::], [::] => Some w
  | _, _ => None
  end.

Fixpoint use_row (ks : seq res) (d : nat) (r : row) (w : world) : option world :=
  match ks, r with
  | k :: ks, s :: r => do w <- use k d s w; use_row ks d r w
  | [::], [::] => Some w
  | _, _ => None
  end.

(** A parallel region after omp_set_num_threads(n) *)
Definition threads (n : nat) (w : world) : seq nat := order (regions w) (minn n limit).
Definition enter (w : world) : world :=
  World (live w) (next w) (touched w) (regions w).+1.

(** Each thread fills the pointers of the device with its number *)
Fixpoint fill_table (ks : seq res) (ts : seq nat) (tab : table) (w : world)
  : option (table * world) :=
  if ts is t :: ts then
    let: (r, w) := fill ks t w in
    do tab <- wr tab t r; fill_table ks ts tab w
  else Some (tab, w).

(** cu_linear_operator.cu 184-206 (cuBLAS), 216-238 (cuSPARSE), and
    copy_host_to_device: cu_dense_matrix.cu 95-123, cu_csr_matrix.cu 165-224,
    cu_csc_matrix.cu 169-233; the arrays of pointers are made by new[] *)
Definition make_table (ks : seq res) (n : nat) (w : world) : option (table * world) :=
  fill_table ks (threads n w) (nseq n (nseq (size ks) Uninit)) (enter w).

Fixpoint release_rows (ks : seq res) (ds : seq nat) (tab : table) (w : world) : option world :=
  if ds is d :: ds then
    do r <- rd tab d; do w <- release_row ks d r w; release_rows ks ds tab w
  else Some w.

(** cu_linear_operator.cu 102-148: the handles are destroyed in a parallel region *)
Definition destroy_table (ks : seq res) (n : nat) (tab : table) (w : world) : option world :=
  release_rows ks (threads n w) tab (enter w).

(** ** Matrices: cuDenseMatrix, cuCSRMatrix and cuCSCMatrix *)

(** The resources of a matrix on one device: the array of a dense matrix; the data,
    the indices, the index pointer and the descriptor of a sparse one *)
Definition arrays (sparse : bool) : seq res :=
  if sparse then [:: Memory; Memory; Memory; Descriptor] else [:: Memory].

Record matrix := Matrix {
  m_sparse : bool;
  m_n : nat;             (* num_gpu_devices *)
  m_copied : bool;       (* copied_host_to_device *)
  m_cublas : table; m_cusparse : table; m_arrays : table;
  m_buffer : table; m_bytes : seq nat }.

(** Constructor 2: cu_linear_operator.cu 59-95, cu_dense_matrix.cu 40-57,
    cu_csr_matrix.cu 52-84, cu_csc_matrix.cu 52-84 *)
Definition new_matrix (sparse : bool) (n : nat) (w : world) : option (matrix * world) :=
  do (cub, w) <- make_table [:: Cublas] n w;
  if sparse then
    do (cus, w) <- make_table [:: Cusparse] n w;
    do (arr, w) <- make_table (arrays true) n w;
    Some (Matrix true n true cub cus arr (nseq n [:: Null]) (nseq n 0), w)
  else
    do (arr, w) <- make_table (arrays false) n w;
    Some (Matrix false n true cub [::] arr [::] [::], w).

(** Constructor 1, without a matrix: cu_linear_operator.cu 29-45 takes all [count]
    devices; cu_dense_matrix.cu 29-32, cu_csr_matrix.cu 33-41,
    cu_csc_matrix.cu 33-41 *)
Definition no_matrix (sparse : bool) (count : nat) (w : world) : option (matrix * world) :=
  do (cub, w) <- make_table [:: Cublas] count w;
  Some (Matrix sparse count false cub [::] [::] [::] [::], w).

(** Destructor: cu_dense_matrix.cu 66-84, cu_csr_matrix.cu 95-154, cu_csc_matrix.cu
    95-154, then cu_linear_operator.cu 102-148.  The loop over the devices is not
    parallel.  The buffers are released after the arrays here *)
Definition delete_matrix (M : matrix) (w : world) : option world :=
  do w <- (if m_copied M then
             do w <- release_rows (arrays (m_sparse M)) (iota 0 (m_n M)) (m_arrays M) w;
             if m_sparse M then release_rows [:: Memory] (iota 0 (m_n M)) (m_buffer M) w
             else Some w
           else Some w);
  do w <- destroy_table [:: Cublas] (m_n M) (m_cublas M) w;
  if m_copied M && m_sparse M then destroy_table [:: Cusparse] (m_n M) (m_cusparse M) w
  else Some w.

(** allocate_buffer: cu_csr_matrix.cu 241-270, cu_csc_matrix.cu 250-279, and
    alloc_bytes; [req] is the size cusparseSpMV_bufferSize asks for.  cudaMalloc
    gives NULL for zero bytes *)
Definition allocate_buffer (M : matrix) (d req : nat) (w : world) : option (matrix * world) :=
  do bytes <- rd (m_bytes M) d;
  if bytes == req then Some (M, w)
  else
    do ms <- wr (m_bytes M) d req;
    do r <- rd (m_buffer M) d;
    do w <- release_row [:: Memory] d r w;
    let: (s, w) := if req == 0 then (Null, w) else create Memory d (head Uninit r) w in
    do bs <- wr (m_buffer M) d [:: s];
    Some (Matrix (m_sparse M) (m_n M) (m_copied M) (m_cublas M) (m_cusparse M)
            (m_arrays M) bs ms, w).

(** A product with the matrix on device [d]: dot, dot_plus, transpose_dot and
    transpose_dot_plus use the same resources.  cu_dense_matrix.cu 131-227,
    cu_csr_matrix.cu 278-462, cu_csc_matrix.cu 287-479.  cusparseSpMV does not read
    a buffer of size zero *)
Definition product (M : matrix) (d req : nat) (w : world) : option (matrix * world) :=
  do arr <- rd (m_arrays M) d;
  if m_sparse M then
    do h <- rd (m_cusparse M) d;
    do (M, w) <- allocate_buffer M d req w;
    do w <- use_row [:: Cusparse] d h w;
    do w <- use_row (arrays true) d arr w;
    do b <- rd (m_buffer M) d;
    do w <- (if req == 0 then Some w else use_row [:: Memory] d b w);
    Some (M, w)
  else
    do h <- rd (m_cublas M) d;
    do w <- use_row [:: Cublas] d h w;
    do w <- use_row (arrays false) d arr w;
    Some (M, w).

(** ** Operators *)

(** A matrix, or A + t B.  The class of the affine matrix functions has handles of
    its own, next to those of A and of B *)
Inductive operator :=
| Constant (M : matrix)
| Affine (count : nat) (handles : table) (A B : matrix) (B_is_identity : bool).

(** What the user passes: one matrix, or A with B or without *)
Inductive kind := KConstant | KAffine (B : option bool).   (* is B the identity? *)

Inductive outcome (T : Type) :=
| Raised          (* an exception *)
| Aborted         (* abort(): the process ends *)
| Done (v : T).
Arguments Raised {T}.
Arguments Aborted {T}.

(** num_gpu_devices = 0 means all: cu_linear_operator.cu 70-89, trace_estimator.pyx
    214-216 *)
Definition number (count n : nat) : nat := if n == 0 then count else n.

(** The affine functions: base class first, with constructor 1 of cuLinearOperator
    (cu_affine_matrix_function.cu 30-36), then the members A and B:
    cu_dense_affine_matrix_function.cu 29-84, cu_csr_affine_matrix_function.cu
    29-90, cu_csc_affine_matrix_function.cu 29-90.  A and B are both dense or both
    sparse.
    py_cu_linear_operator.pyx 45-51: without a device an exception is raised first *)
Definition new_operator (k : kind) (sparse : bool) (count n : nat) (w : world)
  : option (outcome (operator * world)) :=
  if count == 0 then Some Raised
  else
    let m := number count n in
    match k with
    | KConstant =>
        if count < n then Some Aborted
        else do (M, w) <- new_matrix sparse m w; Some (Done (Constant M, w))
    | KAffine ob =>
        do (h, w) <- make_table [:: Cublas] count w;
        if count < n then Some Aborted
        else
          do (A, w) <- new_matrix sparse m w;
          match ob with
          | None =>
              do (B, w) <- no_matrix sparse count w;
              Some (Done (Affine count h A B true, w))
          | Some id =>
              do (B, w) <- new_matrix sparse m w;
              Some (Done (Affine count h A B id, w))
          end
    end.

(** __dealloc__: py_cu_linear_operator.pyx 79-89.  The members are destroyed before
    the base class, in reverse order *)
Definition delete_operator (op : operator) (w : world) : option world :=
  match op with
  | Constant M => delete_matrix M w
  | Affine count h A B _ =>
      do w <- delete_matrix B w; do w <- delete_matrix A w;
      destroy_table [:: Cublas] count h w
  end.

(** get_cublas_handle on device [d]: cu_linear_operator.cu 167-174 *)
Definition get_cublas_handle (op : operator) (d : nat) : option row :=
  match op with
  | Constant M => rd (m_cublas M) d
  | Affine _ h _ _ _ => rd h d
  end.

(** A product with the operator on device [d]; [zero]: the parameter is zero, then
    subtract_scaled_vector does not call cuBLAS.  cu_dense_affine_matrix_function.cu
    118-205, cu_csr_... 124-211, cu_csc_... 124-211;
    cu_affine_matrix_function.cu 130-144 *)
Definition apply_operator (op : operator) (d reqA reqB : nat) (zero : bool) (w : world)
  : option (operator * world) :=
  match op with
  | Constant M => do (M, w) <- product M d reqA w; Some (Constant M, w)
  | Affine count h A B id =>
      do (A, w) <- product A d reqA w;
      if id then
        if zero then Some (Affine count h A B id, w)
        else do r <- rd h d; do w <- use_row [:: Cublas] d r w;
             Some (Affine count h A B id, w)
      else
        do (B, w) <- product B d reqB w; Some (Affine count h A B id, w)
  end.

(** ** The samples *)

(** What the thread of device [d] does: it begins a Lanczos process, with two arrays
    on the device (cu_lanczos_tridiagonalization.cu 130-160,
    cu_golub_kahn_bidiagonalization.cu 124-153); applies the operator; calls cuBLAS
    on the two arrays; ends the process and releases them
    (cu_lanczos_tridiagonalization.cu 244-245, cu_golub_kahn_bidiagonalization.cu
    238-239).  The steps of the threads come in any order *)
Inductive step :=
| Begin (d : nat)
| Apply (d reqA reqB : nat) (zero : bool)
| Vector (d : nat)
| End (d : nat).

Definition device (s : step) : nat :=
  match s with Begin d | Apply d _ _ _ | Vector d | End d => d end.

(** [loc]: for each thread, the pointers to its two arrays, if it is in a Lanczos
    process *)
Definition run_step (s : step) (op : operator) (loc : table) (w : world)
  : option (operator * table * world) :=
  let d := device s in
  do r <- rd loc d;
  match s with
  | Begin _ =>
      if r is [::] then
        do h <- get_cublas_handle op d; do w <- use_row [:: Cublas] d h w;
        let: (r, w) := fill [:: Memory; Memory] d w in
        do w <- use_row [:: Memory; Memory] d r w;
        do loc <- wr loc d r; Some (op, loc, w)
      else None
  | Apply _ reqA reqB zero =>
      do w <- use_row [:: Memory; Memory] d r w;
      do (op, w) <- apply_operator op d reqA reqB zero w; Some (op, loc, w)
  | Vector _ =>
      do h <- get_cublas_handle op d; do w <- use_row [:: Cublas] d h w;
      do w <- use_row [:: Memory; Memory] d r w; Some (op, loc, w)
  | End _ =>
      do w <- release_row [:: Memory; Memory] d r w;
      do loc <- wr loc d [::]; Some (op, loc, w)
  end.

Fixpoint run_steps (ss : seq step) (op : operator) (loc : table) (w : world)
  : option (operator * table * world) :=
  if ss is s :: ss then
    do (op, loc, w) <- run_step s op loc w; run_steps ss op loc w
  else Some (op, loc, w).

(** cu_trace_estimator.cu 228-229, 264-304 for [m] devices *)
Definition run (m : nat) (ss : seq step) (op : operator) (w : world)
  : option (operator * world) :=
  do (op, _, w) <- run_steps ss op (nseq m [::]) w; Some (op, w).

(** A number of runs one after the other *)
Fixpoint runs (m : nat) (sss : seq (seq step)) (op : operator) (w : world)
  : option (operator * world) :=
  if sss is ss :: sss then do (op, w) <- run m ss op w; runs m sss op w
  else Some (op, w).

(** The whole life of an operator: it is built for [n] devices, used, and deleted *)
Definition life (k : kind) (sparse : bool) (count n : nat) (sss : seq (seq step)) (w : world)
  : option (outcome world) :=
  do o <- new_operator k sparse count n w;
  match o with
  | Raised => Some Raised
  | Aborted => Some Aborted
  | Done (op, w) =>
      do (op, w) <- runs (number count n) sss op w;
      do w <- delete_operator op w; Some (Done w)
  end.

End Handles.
Arguments Raised {T}.
Arguments Aborted {T}.
