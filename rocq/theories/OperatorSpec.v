(** What stored matrices denote. *)
From mathcomp Require Import all_ssreflect all_algebra.
From Verif Require Import Mem KernelModel KernelSpec OperatorModel.
Set Implicit Arguments.
Unset Strict Implicit.
Unset Printing Implicit Defensive.
Import GRing.Theory.
Local Open Scope ring_scope.

Section Spec.
Variable R : comRingType.

(** The arrays are large enough and the indices in range. *)
Definition well_formed (s : storage R) (m n : nat) : Prop :=
  match s with
  | Dense _ A => (m * n <= size A)%N
  | Csr d i p => compressed_ok m n d i p
  | Csc d i p => compressed_ok n m d i p
  end.

(** The matrix held. *)
Definition denotes (s : storage R) (m n : nat) : 'M[R]_(m, n) :=
  match s with
  | Dense rm A => dense_matrix m n rm A
  | Csr d i p => csr_matrix m n d i p
  | Csc d i p => csc_matrix m n d i p
  end.

(** The m x n matrix with ones on the diagonal. *)
Definition eye (m n : nat) : 'M[R]_(m, n) := \matrix_(i, j) ((i == j :> nat)%:R).

(** The coefficient matrix of t: an omitted B stands for the identity. *)
Definition matrix_of_B (B : option (storage R)) m n : 'M[R]_(m, n) :=
  if B is Some s then denotes s m n else eye m n.

End Spec.
