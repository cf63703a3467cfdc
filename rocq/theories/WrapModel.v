(** Model of the classes that turn numpy arrays and scipy sparse matrices into
    operators: imate/linear_operator/matrix.py and linear_operator.py (lazy
    creation), imate/_c_linear_operator/py_c_matrix.pyx and
    py_c_affine_matrix_function.pyx (pointers into the arrays of Python).

    Memory consists of blocks, of reals or of integers; arrays of numpy are
    views of blocks.  The C++ objects hold pointers, that is a block and the
    position of the first element.  Reading a block that no Python object refers
    to any longer is undefined and is [None] here.  Arithmetic is exact and
    indices do not overflow (C56). *)
Require Import ZArith.
From mathcomp Require Import all_ssreflect all_algebra.
From Verif Require Import Mem KernelModel OperatorModel.
Set Implicit Arguments.
Unset Strict Implicit.
Unset Printing Implicit Defensive.
Import GRing.Theory.
Local Open Scope nat_scope.

(** The exceptions *)
Inductive error := AttributeError | TypeError | ValueError.
Inductive result (T : Type) := Ok of T | Raise of error.
Arguments Ok {T}.
Arguments Raise {T}.

(** A one-dimensional numpy array: block, position of the first element,
    distance of consecutive elements, number of elements *)
Record array1 := Array1 {
  base : nat; start : nat; stride : Z; len : nat; writeable : bool
}.

(** Position in the block of element k *)
Definition pos1 (a : array1) (k : nat) : nat :=
  Z.to_nat (Z.add (Z.of_nat (start a)) (Z.mul (Z.of_nat k) (stride a))).

(** A two-dimensional numpy array *)
Record array2 := Array2 {
  base2 : nat; start2 : nat; rows : nat; cols : nat;
  stride_row : Z; stride_col : Z; writeable2 : bool
}.

(** Position of element [i, j] *)
Definition pos2 (a : array2) (i j : nat) : nat :=
  Z.to_nat (Z.add (Z.of_nat (start2 a))
             (Z.add (Z.mul (Z.of_nat i) (stride_row a)) (Z.mul (Z.of_nat j) (stride_col a)))).

(** The flags C_CONTIGUOUS and F_CONTIGUOUS of numpy: strides of dimensions of
    length one do not matter, an empty array is contiguous *)
Definition c_contiguous (a : array2) : bool :=
  [|| rows a == 0, cols a == 0 |
      ((cols a == 1) || Z.eqb (stride_col a) (Zpos xH)) &&
      ((rows a == 1) || Z.eqb (stride_row a) (Z.of_nat (cols a)))].
Definition f_contiguous (a : array2) : bool :=
  [|| rows a == 0, cols a == 0 |
      ((rows a == 1) || Z.eqb (stride_row a) (Zpos xH)) &&
      ((cols a == 1) || Z.eqb (stride_col a) (Z.of_nat (rows a)))].

(** The data types told apart *)
Inductive dtype := Float32 | Float64 | Float128 | OtherType.

(** The formats of scipy; the number tells the formats other than CSR and CSC
    apart *)
Inductive format := CSR | CSC | OtherFormat of nat.

(** A sparse matrix of scipy.  For the formats other than CSR and CSC, which are
    all represented by coordinates, indices and indptr are the arrays of the
    row and column numbers.  native_index: the index arrays have the type
    LongIndexType; cached: the value of has_sorted_indices, if known. *)
Record sparse := Sparse {
  fmt : format; srows : nat; scols : nat;
  data : array1; indices : array1; indptr : array1;
  native_index : bool; cached : option bool
}.

(** The argument A: None, an array that is not two-dimensional, a numpy array, a
    sparse matrix *)
Inductive object :=
  | NoneObject
  | WrongDimension of dtype
  | DenseObject of dtype & array2
  | SparseObject of dtype & sparse.

Section Wrap.
Variable R : comRingType.

Record memory := Memory { reals : seq (seq R); ints : seq (seq nat) }.

(** The elements of an array *)
Definition elems (T : Type) (x0 : T) (blocks : seq (seq T)) (a : array1) : seq T :=
  [seq nth x0 (nth [::] blocks (base a)) (pos1 a k) | k <- iota 0 (len a)].

(** a[k] = xs[k] for the k below the length of xs *)
Definition store (T : Type) (x0 : T) (block : seq T) (a : array1) (xs : seq T) : seq T :=
  foldl (fun s k => set_nth x0 s (pos1 a k) (nth x0 xs k)) block (iota 0 (size xs)).

(** scipy: csr_sort_indices sorts the pairs of index and value of every line *)
Definition sort_line (s : seq (nat * R)) (first last : nat) : seq (nat * R) :=
  if first < last then
    take first s ++ sort (fun x y => x.1 <= y.1) (drop first (take last s)) ++ drop last s
  else s.
Definition sort_lines (lines : nat) (ptr : seq nat) (s : seq (nat * R)) : seq (nat * R) :=
  foldl (fun s l => sort_line s (nth 0 ptr l) (nth 0 ptr l.+1)) s (iota 0 lines).

(** The number of compressed lines *)
Definition lines (s : sparse) : nat := if fmt s is CSC then scols s else srows s.

(** scipy: the property has_sorted_indices *)
Definition has_sorted_indices (mem : memory) (s : sparse) : bool :=
  if cached s is Some b then b else
  let idx := elems 0 (ints mem) (indices s) in
  let ptr := elems 0 (ints mem) (indptr s) in
  all (fun l => sorted leq (drop (nth 0 ptr l) (take (nth 0 ptr l.+1) idx))) (iota 0 (lines s)).

(** scipy: A.sort_indices(), in place *)
Definition sort_indices (mem : memory) (s : sparse) : memory * sparse :=
  let s' := sort_lines (lines s) (elems 0 (ints mem) (indptr s))
              (zip (elems 0 (ints mem) (indices s)) (elems 0%R (reals mem) (data s))) in
  (Memory (set_nth [::] (reals mem) (base (data s))
             (store 0%R (nth [::] (reals mem) (base (data s))) (data s) (unzip2 s')))
          (set_nth [::] (ints mem) (base (indices s))
             (store 0 (nth [::] (ints mem) (base (indices s))) (indices s) (unzip1 s'))),
   Sparse (fmt s) (srows s) (scols s) (data s) (indices s) (indptr s) (native_index s) (Some true)).

(** py_c_matrix.pyx 151-153, 167-169, 186-188: "if not A.has_sorted_indices" *)
Definition ensure_sorted (mem : memory) (s : sparse) : memory * sparse :=
  if has_sorted_indices mem s then (mem, s) else sort_indices mem s.

(** A new array with the given contents *)
Definition fresh (block len : nat) : array1 := Array1 block 0 (Zpos xH) len true.

(** scipy: csr_matrix(A) for a matrix in coordinates; the numerical work is
    done by the routine to_csr, see WrapSpec.v *)
Definition convert (to_csr : nat -> nat -> seq (nat * nat * R) -> seq R * seq nat * seq nat)
    (mem : memory) (s : sparse) : memory * sparse :=
  let triples := zip (zip (elems 0 (ints mem) (indices s)) (elems 0 (ints mem) (indptr s)))
                   (elems 0%R (reals mem) (data s)) in
  let: (d, i, p) := to_csr (srows s) (scols s) triples in
  let nr := size (reals mem) in
  let ni := size (ints mem) in
  (Memory (rcons (reals mem) d) (rcons (rcons (ints mem) i) p),
   Sparse CSR (srows s) (scols s) (fresh nr (size d)) (fresh ni (size i)) (fresh ni.+1 (size p))
     true None).

(** The pointers held by the C++ object (c_dense_matrix.h, c_csr_matrix.h,
    c_csc_matrix.h): a block and the position of the first element *)
Definition pointer := (nat * nat)%type.
Inductive pointers :=
  | PDense of bool & pointer
  | PCsr of pointer & pointer & pointer
  | PCsc of pointer & pointer & pointer.

(** pycMatrix: the C++ object, and the Python attributes A_csr, A_indices_copy
    and A_index_pointer_copy (py_c_matrix.pxd 22-24) *)
Record wrapper := Wrapper {
  w_rows : nat; w_cols : nat; w_pointers : pointers;
  A_csr : option sparse; A_indices_copy : option array1; A_index_pointer_copy : option array1
}.

(** A.indices.astype(self.long_index_type_name, copy=False): the same array, or a
    new one *)
Definition astype_index (mem : memory) (native : bool) (a : array1) : memory * array1 :=
  if native then (mem, a) else
  (Memory (reals mem) (rcons (ints mem) (elems 0 (ints mem) a)), fresh (size (ints mem)) (len a)).

(** py_c_matrix.pyx 384-523 (CSR), 525-660 (CSC) and 216-378 (dense), for the three
    data types.  A typed memoryview of an array that is not writeable raises
    ValueError. *)
Definition set_sparse (mem : memory) (s : sparse) (kept : option sparse) : result (memory * wrapper) :=
  let (mem, idx) := astype_index mem (native_index s) (indices s) in
  let (mem, ptr) := astype_index mem (native_index s) (indptr s) in
  if ~~ [&& writeable idx, writeable ptr & writeable (data s)] then Raise ValueError else
  let p (a : array1) := (base a, start a) in
  Ok (mem, Wrapper (srows s) (scols s)
             ((if fmt s is CSC then PCsc else PCsr) (p (data s)) (p idx) (p ptr))
             kept (Some idx) (Some ptr)).

Definition set_dense (mem : memory) (a : array2) : result (memory * wrapper) :=
  let build row_major :=
    if ~~ writeable2 a then Raise ValueError
    else Ok (mem, Wrapper (rows a) (cols a) (PDense row_major (base2 a, start2 a)) None None None) in
  if c_contiguous a then build true
  else if f_contiguous a then build false
  else Raise TypeError.

Section Create.
Variable to_csr : nat -> nat -> seq (nat * nat * R) -> seq R * seq nat * seq nat.

(** py_c_matrix.pyx 119-210: __cinit__.  A itself may be changed: its indices are
    sorted. *)
Definition create (mem : memory) (A : object) : result (memory * object * wrapper) :=
  match A with
  | NoneObject | WrongDimension _ => Raise ValueError
  | DenseObject OtherType _ | SparseObject OtherType _ => Raise TypeError
  | DenseObject dt a =>
      match set_dense mem a with
      | Ok (mem, w) => Ok (mem, A, w)
      | Raise e => Raise e
      end
  | SparseObject dt s =>
      if fmt s is OtherFormat _ then
        let (mem, c) := convert to_csr mem s in
        let (mem, c) := ensure_sorted mem c in
        match set_sparse mem c (Some c) with
        | Ok (mem, w) => Ok (mem, A, w)
        | Raise e => Raise e
        end
      else
        let (mem, s) := ensure_sorted mem s in
        match set_sparse mem s None with
        | Ok (mem, w) => Ok (mem, SparseObject dt s, w)
        | Raise e => Raise e
        end
  end.

(** ** A program that uses an operator Matrix(A) and goes on changing A *)

(** others: the blocks of reals to which the program has further references
    (for example d = A.data) *)
Record world := World {
  mem : memory; matrix : object; others : seq nat; wrap : option wrapper
}.

(** The blocks that are alive: those of the attributes of A (kept by
    matrix.py 278: self.A), of the attributes of pycMatrix, and others *)
Definition object_reals (A : object) : seq nat :=
  match A with
  | DenseObject _ a => [:: base2 a]
  | SparseObject _ s => [:: base (data s)]
  | _ => [::]
  end.
Definition object_ints (A : object) : seq nat :=
  if A is SparseObject _ s then [:: base (indices s); base (indptr s)] else [::].
Definition live_reals (W : world) : seq nat :=
  object_reals (matrix W) ++ others W ++
  (if wrap W is Some w then if A_csr w is Some s then [:: base (data s)] else [::] else [::]).
Definition live_ints (W : world) : seq nat :=
  object_ints (matrix W) ++
  (if wrap W is Some w then
     (if A_csr w is Some s then [:: base (indices s); base (indptr s)] else [::]) ++
     (if A_indices_copy w is Some a then [:: base a] else [::]) ++
     (if A_index_pointer_copy w is Some a then [:: base a] else [::])
   else [::]).

(** What the C++ code sees behind a pointer *)
Definition deref (T : Type) (live : seq nat) (blocks : seq (seq T)) (p : pointer) : option (seq T) :=
  if p.1 \in live then Some (drop p.2 (nth [::] blocks p.1)) else None.
Definition storage_of (W : world) (w : wrapper) : option (storage R) :=
  let real := deref (live_reals W) (reals (mem W)) in
  let int := deref (live_ints W) (ints (mem W)) in
  match w_pointers w with
  | PDense rm p => omap (Dense rm) (real p)
  | PCsr d i p => do d <- real d; do i <- int i; do p <- int p; Some (Csr d i p)
  | PCsc d i p => do d <- real d; do i <- int i; do p <- int p; Some (Csc d i p)
  end.

(** A product of the C++ object with a vector, as in a computation of a trace *)
Definition product (W : world) (w : wrapper) (transposed : bool) (v c : seq R) : option (seq R) :=
  do s <- storage_of W w;
  (if transposed then transpose_dot else dot) _ s (w_rows w) (w_cols w) v c.

(** The arrays created by pycMatrix, which the program cannot reach *)
Definition private_reals (W : world) : seq nat :=
  if wrap W is Some w then if A_csr w is Some s then [:: base (data s)] else [::] else [::].
Definition private_ints (W : world) : seq nat :=
  [seq b <- (if wrap W is Some w then live_ints W else [::]) | b \notin object_ints (matrix W)].

(** What the program may do: write an element of an array of reals or integers;
    replace the arrays of the sparse matrix A (scipy does so when an entry is
    inserted, A[i, j] = x); compute with the operator *)
Inductive event :=
  | Poke of nat & nat & R
  | PokeInt of nat & nat & nat
  | Replace of seq R & seq nat & seq nat
  | Compute of bool & seq R & seq R.

(** What a computation gives: an exception, or the product, None if the memory
    read is undefined *)
Inductive outcome := Failed of error | Product of option (seq R).

Definition poke (T : Type) (blocks : seq (seq T)) (b k : nat) (x : T) : seq (seq T) :=
  if (b < size blocks) && (k < size (nth [::] blocks b)) then
    set_nth [::] blocks b (set_nth x (nth [::] blocks b) k x)
  else blocks.

(** linear_operator.py 114-147 with matrix.py 286-352: the operator is created by
    the first computation *)
Definition step (W : world) (e : event) : world * option outcome :=
  match e with
  | Poke b k x =>
      (if b \in private_reals W then W
       else World (Memory (poke (reals (mem W)) b k x) (ints (mem W))) (matrix W) (others W) (wrap W),
       None)
  | PokeInt b k x =>
      (if b \in private_ints W then W
       else World (Memory (reals (mem W)) (poke (ints (mem W)) b k x)) (matrix W) (others W) (wrap W),
       None)
  | Replace d i p =>
      (if matrix W is SparseObject dt s then
         let nr := size (reals (mem W)) in
         let ni := size (ints (mem W)) in
         World (Memory (rcons (reals (mem W)) d) (rcons (rcons (ints (mem W)) i) p))
           (SparseObject dt (Sparse (fmt s) (srows s) (scols s) (fresh nr (size d)) (fresh ni (size i))
                               (fresh ni.+1 (size p)) (native_index s) None))
           (others W) (wrap W)
       else W, None)
  | Compute t v c =>
      match wrap W with
      | Some w => (W, Some (Product (product W w t v c)))
      | None =>
          match create (mem W) (matrix W) with
          | Raise e => (W, Some (Failed e))
          | Ok (m, A, w) =>
              let W := World m A (others W) (Some w) in
              (W, Some (Product (product W w t v c)))
          end
      end
  end.

Definition run (W : world) (h : seq event) : world := foldl (fun W e => (step W e).1) W h.

(** linear_operator.py 153-169: set_data_type_name, called by the constructor of
    Matrix: a TypeError for other data types; None has no data type *)
Definition construct (mem : memory) (A : object) (others : seq nat) : result world :=
  match A with
  | NoneObject => Raise AttributeError
  | WrongDimension OtherType | DenseObject OtherType _ | SparseObject OtherType _ => Raise TypeError
  | _ => Ok (World mem A others None)
  end.

(** ** pycAffineMatrixFunction *)

Definition object_type (A : object) : option (option format) :=
  match A with
  | DenseObject _ _ => Some None
  | SparseObject _ s => Some (Some (fmt s))
  | _ => None
  end.
Definition object_dtype (A : object) : dtype :=
  match A with WrongDimension d | DenseObject d _ | SparseObject d _ => d | NoneObject => OtherType end.
Definition object_shape (A : object) : nat * nat :=
  match A with DenseObject _ a => (rows a, cols a) | SparseObject _ s => (srows s, scols s) | _ => (0, 0) end.

Definition same_dtype (d e : dtype) : bool :=
  match d, e with
  | Float32, Float32 | Float64, Float64 | Float128, Float128 | OtherType, OtherType => true
  | _, _ => false
  end.
Definition same_type (a b : option (option format)) : bool :=
  match a, b with
  | Some None, Some None | Some (Some CSR), Some (Some CSR) | Some (Some CSC), Some (Some CSC) => true
  | Some (Some (OtherFormat i)), Some (Some (OtherFormat j)) => i == j
  | _, _ => false
  end.

(** py_c_affine_matrix_function.pyx 177-216: the checks; None for B is the
    identity *)
Definition check_affine (A : object) (B : option object) : result unit :=
  match A with
  | NoneObject | WrongDimension _ => Raise ValueError
  | _ =>
    match object_dtype A with
    | OtherType => Raise TypeError
    | _ =>
      match B with
      | None => Ok tt
      | Some B =>
          if ~~ same_type (object_type A) (object_type B) then Raise TypeError
          else if ~~ same_dtype (object_dtype A) (object_dtype B) then Raise TypeError
          else if object_shape A != object_shape B then Raise ValueError
          else Ok tt
      end
    end
  end.

(** py_c_affine_matrix_function.pyx 218-288: the indices of A are sorted, then
    those of B; other formats are converted first, A and then B.  Afterwards the
    arrays of A and of B are set (306-1014).  Only one of the exceptions of a
    pair that is not accepted is modelled: which of them comes first may
    differ. *)
Definition prepare_affine (mem : memory) (A : object) (B : option object) :
    memory * object * option object :=
  match A with
  | SparseObject dA a =>
      let conv mem s := if fmt s is OtherFormat _ then convert to_csr mem s else (mem, s) in
      let (mem, a) := conv mem a in
      match B with
      | Some (SparseObject dB b) =>
          let (mem, b) := conv mem b in
          let (mem, a) := ensure_sorted mem a in
          let (mem, b) := ensure_sorted mem b in
          (mem, SparseObject dA a, Some (SparseObject dB b))
      | _ => let (mem, a) := ensure_sorted mem a in (mem, SparseObject dA a, B)
      end
  | _ => (mem, A, B)
  end.

Definition set_object (mem : memory) (A : object) : result (memory * wrapper) :=
  match A with
  | DenseObject _ a => set_dense mem a
  | SparseObject _ s => set_sparse mem s (Some s)
  | _ => Raise ValueError
  end.

(** The C++ object is built from the arrays (OperatorModel.new_affine); every
    array it points to is kept by AffineMatrixFunction or pycAffineMatrixFunction *)
Definition wrapper_storage (mem : memory) (w : wrapper) : storage R :=
  let real (p : pointer) := drop p.2 (nth [::] (reals mem) p.1) in
  let int (p : pointer) := drop p.2 (nth [::] (ints mem) p.1) in
  match w_pointers w with
  | PDense rm p => Dense rm (real p)
  | PCsr d i p => Csr (real d) (int i) (int p)
  | PCsc d i p => Csc (real d) (int i) (int p)
  end.

Definition create_affine (mem : memory) (A : object) (B : option object) :
    result (memory * option (affine R)) :=
  match check_affine A B with
  | Raise e => Raise e
  | Ok _ =>
    let: (mem, A', B') := prepare_affine mem A B in
    match set_object mem A' with
    | Raise e => Raise e
    | Ok (mem, wA) =>
      match B' with
      | None => Ok (mem, new_affine (wrapper_storage mem wA) None (w_rows wA) (w_cols wA))
      | Some B' =>
        match set_object mem B' with
        | Raise e => Raise e
        | Ok (mem, wB) =>
            Ok (mem, new_affine (wrapper_storage mem wA) (Some (wrapper_storage mem wB))
                       (w_rows wA) (w_cols wA))
        end
      end
    end
  end.

End Create.
End Wrap.
