(** Model of the exact trace method: imate/trace/_exact_method.py 252-333 and
    its check_arguments 380-420.

    Matrices are dense arrays or sparse matrices given by their stored entries
    (COO, CSR, CSC, BSR: "A.data" is the list of stored values, which may hold
    several entries for one position, as scipy allows).  Arithmetic is exact
    over a commutative ring. *)
From mathcomp Require Import all_ssreflect all_algebra.
From Verif Require Import ArgsModel.
Set Implicit Arguments.
Unset Strict Implicit.
Unset Printing Implicit Defensive.
Import GRing.Theory.
Local Open Scope ring_scope.

(** The exponent p: a Python (or numpy) integer, a finite float, or an infinite
    or not-a-number float. *)
Inductive pynum := PyInt of int | PyFloat of rat | PyFloatSpecial.

(** p == c for an integer constant c *)
Definition is_val (p : pynum) (c : int) : bool :=
  match p with
  | PyInt z => z == c
  | PyFloat x => x == c%:~R
  | PyFloatSpecial => false
  end.

(** p % 2 == 0 (the remainder of a float is 0 exactly for even integers) *)
Definition is_even (p : pynum) : bool :=
  match p with
  | PyInt z => (z %% 2)%Z == 0
  | PyFloat x => (denq x == 1) && ((numq x %% 2)%Z == 0)
  | PyFloatSpecial => false
  end.

(** numpy.abs(p) as the bound of range: floats raise TypeError *)
Definition range_bound (p : pynum) : res nat :=
  if p is PyInt z then Ok `|z|%N else Raise TypeError.

(** numpy.abs(p) // 2 as the bound of range *)
Definition half_bound (p : pynum) : res nat :=
  if p is PyInt z then Ok (`|z| %/ 2)%N else Raise TypeError.

Section Model.
Variable R : comRingType.

(** An input or intermediate matrix. *)
Inductive mat (n m : nat) :=
  | Dense of 'M[R]_(n, m)
  | Sparse of seq ('I_n * 'I_m * R).

(** The matrix represented: duplicate entries are summed. *)
Definition mx n m (A : mat n m) : 'M[R]_(n, m) :=
  match A with
  | Dense M => M
  | Sparse e => \matrix_(i, j) \sum_(t <- e | t.1 == (i, j)) t.2
  end.

(** The entries stored in the result of a scipy operation: one for each
    non-zero position. *)
Definition entries n m (M : 'M[R]_(n, m)) : seq ('I_n * 'I_m * R) :=
  [seq (ij, M ij.1 ij.2) | ij <- enum {: 'I_n * 'I_m} & M ij.1 ij.2 != 0].

(** Same kind of storage as A *)
Definition like n m k l (A : mat n m) (M : 'M[R]_(k, l)) : mat k l :=
  if A is Dense _ then Dense M else Sparse (entries M).

(** X @ Y *)
Definition matmul n m k (X : mat n m) (Y : mat m k) : mat n k := like X (mx X *m mx Y).

(** A.T @ A *)
Definition gramian n m (A : mat n m) : mat m m := like A ((mx A)^T *m mx A).

(** numpy.sum(A.data**2), numpy.linalg.norm(A, ord='fro')**2 *)
Definition frobenius2 n m (A : mat n m) : R :=
  match A with
  | Dense M => \sum_i \sum_j M i j ^+ 2
  | Sparse e => \sum_(t <- e) t.2 ^+ 2
  end.

(** numpy.sum(A.diagonal()), numpy.trace(A) *)
Definition trace_of n (A : mat n n) : R := \sum_i mx A i i.

(** numpy.sum(Ap.multiply(Ap.T).data), numpy.sum(numpy.multiply(Ap, Ap.T)) *)
Definition product_sum n (A : mat n n) : R :=
  match A with
  | Dense M => \sum_i \sum_j M i j * M j i
  | Sparse e =>
      \sum_(t <- entries (\matrix_(i, j) (mx A i j * mx A j i))) t.2
  end.

(** for i in range(1, bound): Ap = Ap @ A1 *)
Definition power_loop n (Ap A1 : mat n n) (bound : nat) : mat n n :=
  iter (bound - 1) (fun X => matmul X A1) Ap.

Definition bind (S T : Type) (r : res S) (f : S -> res T) : res T :=
  match r with Ok x => f x | Raise e => Raise e end.

(** Lines 257-331 with gram=False; A is square here, other shapes raise
    ValueError in check_arguments. *)
Definition exact_trace n (p : pynum) (A : mat n n) : res R :=
  if is_val p 0 then Ok (minn n n)%:R
  else if is_val p 1 then Ok (trace_of A)
  else if is_even p then
    bind (if is_val p 2 then Ok A
          else bind (half_bound p) (fun b => Ok (power_loop A A b)))
      (fun Ap => Ok (product_sum Ap))
  else
    bind (range_bound p) (fun b => Ok (trace_of (power_loop A A b))).

(** Lines 257-331 with gram=True *)
Definition exact_trace_gram n m (p : pynum) (A : mat n m) : res R :=
  if is_val p 0 then Ok (minn n m)%:R
  else if is_val p 1 then Ok (frobenius2 A)
  else if is_even p then
    bind (if is_val p 2 then Ok (gramian A)
          else bind (half_bound p) (fun b => Ok (power_loop (gramian A) (gramian A) b)))
      (fun Ap => Ok (frobenius2 Ap))
  else
    bind (range_bound p) (fun b => Ok (trace_of (power_loop (gramian A) (gramian A) b))).

End Model.
