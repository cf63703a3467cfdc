(** Model of imate/_c_linear_operator: matrices in the supported storage
    formats and affine matrix functions t -> A + t B.
    DataType is any commutative ring; one thread. *)
From mathcomp Require Import all_ssreflect all_algebra.
From Verif Require Import Mem KernelModel.
Set Implicit Arguments.
Unset Strict Implicit.
Unset Printing Implicit Defensive.
Import GRing.Theory.
Local Open Scope ring_scope.

Section Operators.
Variable R : comRingType.

(** cDenseMatrix (c_dense_matrix.h), cCSRMatrix, cCSCMatrix: the arrays held.
    The shape (num_rows, num_columns) of cLinearOperator is passed along. *)
Inductive storage : Type :=
| Dense (row_major : bool) (A : seq R)
| Csr (data : seq R) (indices index_pointer : seq nat)
| Csc (data : seq R) (indices index_pointer : seq nat).

(** c_dense_matrix.cpp 122-133, c_csr_matrix.cpp 138-149, c_csc_matrix.cpp
    139-151: dot. *)
Definition dot (s : storage) (m n : nat) (v c : seq R) : option (seq R) :=
  match s with
  | Dense rm A => dense_matvec A v m n rm c
  | Csr d i p => csr_matvec d i p v m c
  | Csc d i p => csc_matvec d i p v m n c
  end.

(** c_dense_matrix.cpp 141-154, c_csr_matrix.cpp 157-170, c_csc_matrix.cpp:
    dot_plus. *)
Definition dot_plus (s : storage) (m n : nat) (v : seq R) (alpha : R) (c : seq R)
  : option (seq R) :=
  match s with
  | Dense rm A => dense_matvec_plus A v alpha m n rm c
  | Csr d i p => csr_matvec_plus d i p v alpha m c
  | Csc d i p => csc_matvec_plus d i p v alpha n c
  end.

(** c_dense_matrix.cpp 162-173, c_csr_matrix.cpp 178-190, c_csc_matrix.cpp:
    transpose_dot. *)
Definition transpose_dot (s : storage) (m n : nat) (v c : seq R) : option (seq R) :=
  match s with
  | Dense rm A => dense_transposed_matvec A v m n rm c
  | Csr d i p => csr_transposed_matvec d i p v m n c
  | Csc d i p => csc_transposed_matvec d i p v n c
  end.

(** c_dense_matrix.cpp 181-194, c_csr_matrix.cpp 198-211, c_csc_matrix.cpp:
    transpose_dot_plus. *)
Definition transpose_dot_plus (s : storage) (m n : nat) (v : seq R) (alpha : R)
    (c : seq R) : option (seq R) :=
  match s with
  | Dense rm A => dense_transposed_matvec_plus A v alpha m n rm c
  | Csr d i p => csr_transposed_matvec_plus d i p v alpha m c
  | Csc d i p => csc_transposed_matvec_plus d i p v alpha n c
  end.

(** The test applied to each visited element, c_dense_matrix.cpp 100-109,
    c_csr_matrix.cpp 96-106, c_csc_matrix.cpp 97-107: true when the scan goes
    on, false when it returns 0. *)
Definition element_passes (row column : nat) (x : R) : bool :=
  if (row == column) && (x != 1) then false
  else if x != 0 then false
  else true.

(** c_dense_matrix.cpp 78-114, c_csr_matrix.cpp 80-111, c_csc_matrix.cpp
    80-112: is_identity_matrix.  The state is the flag; once it is false the
    C++ function has returned. *)
Definition is_identity_matrix (s : storage) (m n : nat) : option bool :=
  match s with
  | Dense rm A =>
      for_ 0 m 1
        (fun row ok =>
           for_ 0 n 1
             (fun column ok =>
                if ~~ ok then Some false else
                do x <- rd A (if rm then (row * n + column)%N else (column * m + row)%N);
                Some (element_passes row column x)) ok) true
  | Csr d i p =>
      for_ 0 m 1
        (fun row ok =>
           if ~~ ok then Some false else
           do first <- rd p row; do last <- rd p row.+1;
           for_ first last 1
             (fun q ok =>
                if ~~ ok then Some false else
                do column <- rd i q; do x <- rd d q;
                Some (element_passes row column x)) ok) true
  | Csc d i p =>
      for_ 0 n 1
        (fun column ok =>
           if ~~ ok then Some false else
           do first <- rd p column; do last <- rd p column.+1;
           for_ first last 1
             (fun q ok =>
                if ~~ ok then Some false else
                do row <- rd i q; do x <- rd d q;
                Some (element_passes row column x)) ok) true
  end.

(** c_affine_matrix_function.h: the members of the affine classes, with
    cLinearOperator::parameters (NULL = None). *)
Record affine := Affine {
  mat_A : storage;
  mat_B : option storage;
  B_is_identity : bool;
  eigenvalue_relation_known : bool;
  parameters : option (seq R)
}.

(** Constructors: c_dense_affine_matrix_function.cpp 29-75,
    c_csr_affine_matrix_function.cpp 29-78, c_csc_affine_matrix_function.cpp
    29-78; c_affine_matrix_function.cpp 29-40. *)
Definition new_affine (A : storage) (B : option storage) (m n : nat) : option affine :=
  match B with
  | None => Some (Affine A None true true None)
  | Some B => do id <- is_identity_matrix B m n; Some (Affine A (Some B) id id None)
  end.

(** c_linear_operator.cpp 108-111: set_parameters.  The pointer is shared with
    the caller in C++; here the array is copied. *)
Definition set_parameters (op : affine) (p : seq R) : affine :=
  Affine (mat_A op) (mat_B op) (B_is_identity op) (eigenvalue_relation_known op) (Some p).

(** c_affine_matrix_function.cpp 136-145: _add_scaled_vector. *)
Definition add_scaled_vector (v : seq R) (n : nat) (scale : R) (c : seq R) : option (seq R) :=
  subtract_scaled_vector v n (- scale) c.

(** c_dense_affine_matrix_function.cpp 109-140, c_csr_... 112-143,
    c_csc_... 112-143: dot.  A NULL parameter pointer (the assert) is None. *)
Definition affine_dot (op : affine) (m n : nat) (v c : seq R) : option (seq R) :=
  do c <- dot (mat_A op) m n v c;
  do p <- parameters op;
  do t <- rd p 0%N;
  if B_is_identity op then
    add_scaled_vector v (if (m < n)%N then m else n) t c
  else
    do B <- mat_B op; dot_plus B m n v t c.

(** c_dense_affine_matrix_function.cpp 165-196, c_csr_... 168-199,
    c_csc_... 168-199: transpose_dot. *)
Definition affine_transpose_dot (op : affine) (m n : nat) (v c : seq R) : option (seq R) :=
  do c <- transpose_dot (mat_A op) m n v c;
  do p <- parameters op;
  do t <- rd p 0%N;
  if B_is_identity op then
    add_scaled_vector v (if (m < n)%N then m else n) t c
  else
    do B <- mat_B op; transpose_dot_plus B m n v t c.

(** c_affine_matrix_function.cpp 98-113: get_eigenvalue. *)
Definition get_eigenvalue (known_parameters : seq R) (known_eigenvalue : R)
    (inquiry_parameters : seq R) : option R :=
  do t0 <- rd known_parameters 0%N;
  do t1 <- rd inquiry_parameters 0%N;
  Some (known_eigenvalue - t0 + t1).

(** A use of the object: any mixture of the three calls. *)
Inductive call : Type :=
| SetParameters (p : seq R)
| Dot (v c : seq R)
| TransposeDot (v c : seq R).

(** The results of the products, in order, and the final object. *)
Fixpoint run (op : affine) (m n : nat) (calls : seq call) : option (affine * seq (seq R)) :=
  match calls with
  | [::] => Some (op, [::])
  | SetParameters p :: rest => run (set_parameters op p) m n rest
  | Dot v c :: rest =>
      do r <- affine_dot op m n v c;
      do s <- run op m n rest; Some (s.1, r :: s.2)
  | TransposeDot v c :: rest =>
      do r <- affine_transpose_dot op m n v c;
      do s <- run op m n rest; Some (s.1, r :: s.2)
  end.

End Operators.
