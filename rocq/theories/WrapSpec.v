(** What numpy and scipy show of a matrix, and what they guarantee about it. *)
Require Import ZArith.
From mathcomp Require Import all_ssreflect all_algebra.
From Verif Require Import Mem KernelModel KernelSpec OperatorModel OperatorSpec WrapModel.
Set Implicit Arguments.
Unset Strict Implicit.
Unset Printing Implicit Defensive.
Import GRing.Theory.
Local Open Scope nat_scope.

Section Spec.
Variable R : comRingType.

(** The matrix shown: A[i, j], and for sparse matrices the sum of the entries
    stored for (i, j) *)
Definition value (mem : memory R) (A : object) (m n : nat) : 'M[R]_(m, n) :=
  match A with
  | DenseObject _ a => (\matrix_(i, j) nth 0 (nth [::] (reals mem) (base2 a)) (pos2 a i j))%R
  | SparseObject _ s =>
      let d := elems 0%R (reals mem) (data s) in
      let i := elems 0 (ints mem) (indices s) in
      let p := elems 0 (ints mem) (indptr s) in
      match fmt s with
      | CSR => csr_matrix m n d i p
      | CSC => csc_matrix m n d i p
      | OtherFormat _ =>
          (\matrix_(r, c) \sum_(q < len (data s) | (nth 0%N i q == r) && (nth 0%N p q == c)) d`_q)%R
      end
  | _ => 0%R
  end.

(** An array lies inside its block *)
Definition inside1 (T : Type) (blocks : seq (seq T)) (a : array1) : Prop :=
  base a < size blocks /\
  forall k, k < len a ->
    Z.le Z0 (Z.add (Z.of_nat (start a)) (Z.mul (Z.of_nat k) (stride a))) /\
    pos1 a k < size (nth [::] blocks (base a)).

(** Its elements are different places of memory; they are consecutive *)
Definition distinct1 (a : array1) : Prop := stride a <> Z0 \/ len a <= 1.
Definition contiguous1 (a : array1) : Prop := stride a = Zpos xH \/ len a <= 1.

(** The index pointers do not decrease *)
Definition nondecreasing (lines : nat) (ptr : seq nat) : Prop :=
  forall i, i < lines -> nth 0 ptr i <= nth 0 ptr i.+1.

(** A is an m x n matrix as numpy and scipy build them *)
Definition sound (mem : memory R) (A : object) (m n : nat) : Prop :=
  match A with
  | DenseObject _ a =>
      [/\ rows a = m, cols a = n, base2 a < size (reals mem) &
          forall i j, i < m -> j < n ->
            Z.le Z0 (Z.add (Z.of_nat (start2 a)) (Z.add (Z.mul (Z.of_nat i) (stride_row a))
                                                        (Z.mul (Z.of_nat j) (stride_col a)))) /\
            pos2 a i j < size (nth [::] (reals mem) (base2 a))]
  | SparseObject _ s =>
      let d := elems 0%R (reals mem) (data s) in
      let i := elems 0 (ints mem) (indices s) in
      let p := elems 0 (ints mem) (indptr s) in
      [/\ srows s = m, scols s = n,
          [/\ inside1 (reals mem) (data s), inside1 (ints mem) (indices s)
            & inside1 (ints mem) (indptr s)],
          [/\ distinct1 (data s), distinct1 (indices s) & base (indices s) <> base (indptr s)] &
          match fmt s with
          | CSR => compressed_ok m n d i p /\ nondecreasing m p
          | CSC => compressed_ok n m d i p /\ nondecreasing n p
          | OtherFormat _ =>
              [/\ len (indices s) = len (data s), len (indptr s) = len (data s) &
                  forall q, q < len (data s) -> nth 0 i q < m /\ nth 0 p q < n]
          end]
  | _ => False
  end.

(** The operator is given consecutive arrays *)
Definition consecutive (A : object) : Prop :=
  if A is SparseObject _ s then
    match fmt s with
    | OtherFormat _ => True
    | _ => contiguous1 (data s) /\
           (native_index s -> contiguous1 (indices s) /\ contiguous1 (indptr s))
    end
  else True.

(** What may be given to Matrix: float32, float64 or float128; dense arrays
    that are row-major or column-major; arrays that can be written, unless a
    copy is made *)
Definition acceptable (A : object) : bool :=
  match A with
  | DenseObject OtherType _ | SparseObject OtherType _ => false
  | DenseObject _ a => (c_contiguous a || f_contiguous a) && writeable2 a
  | SparseObject _ s =>
      match fmt s with
      | OtherFormat _ => true
      | _ => writeable (data s) &&
             (native_index s ==> (writeable (indices s) && writeable (indptr s)))
      end
  | _ => false
  end.

(** Two objects have no array in common *)
Definition separate (A B : object) : Prop :=
  (forall b, b \in object_reals A -> b \notin object_reals B) /\
  (forall b, b \in object_ints A -> b \notin object_ints B).

(** The entries of every line are in increasing order already *)
Definition in_order (mem : memory R) (A : object) : Prop :=
  if A is SparseObject _ s then has_sorted_indices mem s else True.

(** Sorting the indices of one of the two leaves the other alone: other
    formats are copied first *)
Definition compressed (s : sparse) : bool := if fmt s is OtherFormat _ then false else true.
Definition separate_or_ordered (mem : memory R) (A B : object) : Prop :=
  (if A is SparseObject _ s then ~~ compressed s else true) \/ separate A B \/
  (in_order mem A /\ in_order mem B).

(** A dense, CSR or CSC matrix: the operator computes with the arrays of the
    program *)
Definition direct (A : object) : bool :=
  match A with DenseObject _ _ => true | SparseObject _ s => compressed s | _ => false end.

(** The program changes the matrix without replacing its arrays; of index arrays
    of another type than LongIndexType the operator has copies *)
Definition in_place (A : object) (e : event R) : bool :=
  if A is SparseObject _ s then
    match e with Replace _ _ _ => false | PokeInt _ _ _ => native_index s | _ => true end
  else true.

(** The outcome of a computation is the product with the m x n matrix V or its
    transpose *)
Definition gives (m n : nat) (V : 'M[R]_(m, n)) (t : bool) (v c : seq R) (o : option (outcome R)) : Prop :=
  exists c', o = Some (Product (Some c')) /\
    if t then writes c (V^T *m vec m v)%R (Some c') else writes c (V *m vec n v)%R (Some c').

(** The vectors are long enough *)
Definition fits (m n : nat) (t : bool) (v c : seq R) : bool :=
  ((if t then m else n) <= size v) && ((if t then n else m) <= size c).

(** What is raised for an argument that is not accepted: by the constructor of
    Matrix, or else by the first computation *)
Definition refusal (A : object) : bool * error :=
  match A with
  | NoneObject => (true, AttributeError)
  | WrongDimension OtherType | DenseObject OtherType _ | SparseObject OtherType _ => (true, TypeError)
  | WrongDimension _ => (false, ValueError)
  | DenseObject _ a => (false, if c_contiguous a || f_contiguous a then ValueError else TypeError)
  | SparseObject _ _ => (false, ValueError)
  end.

(** scipy: conversion of coordinates to CSR *)
Definition to_csr_ok (to_csr : nat -> nat -> seq (nat * nat * R) -> seq R * seq nat * seq nat) : Prop :=
  forall m n (t : seq (nat * nat * R)), all (fun x => (x.1.1 < m) && (x.1.2 < n)) t ->
    let: (d, i, p) := to_csr m n t in
    [/\ compressed_ok m n d i p, nondecreasing m p &
        csr_matrix m n d i p = (\matrix_(r, c) \sum_(x <- t | (x.1.1 == r) && (x.1.2 == c)) x.2)%R].

End Spec.
