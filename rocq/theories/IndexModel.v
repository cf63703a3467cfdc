(** Model of the index arithmetic of the dense products of
    imate/_c_basic_algebra/c_matrix_operations.cpp: LongIndexType has 32 or 64
    bits, signed or unsigned (_definitions/types.h 50-62), and indices are computed
    in it, with wrap-around where they overflow (the default is 32 bits, signed:
    _definitions/definitions.h 39, 62).

    Values are integers.  The array is a function of the position, defined also
    outside the matrix.  The unrolling of the inner loops by five (the subject of
    C07) is left out: position i*n + j is computed as (i*n) + j. *)
Require Import ZArith List.
Local Open Scope Z_scope.

(** types.h 50-62 *)
Record index_type := IndexT { long_int : bool; unsigned : bool }.

Definition bits (c : index_type) : Z := if long_int c then 64 else 32.
Definition wrap (c : index_type) (z : Z) : Z :=
  if unsigned c then z mod 2 ^ bits c
  else (z + 2 ^ (bits c - 1)) mod 2 ^ bits c - 2 ^ (bits c - 1).

(** A[i*num_columns + j] (107-119, 299) and A[i + num_rows*j] (132, 313-322) *)
Definition position (c : index_type) (row_major : bool) (m n i j : Z) : Z :=
  if row_major then wrap c (wrap c (i * n) + j) else wrap c (i + wrap c (m * j)).

(** sum of f(0), ..., f(k-1) *)
Definition loop_sum (f : Z -> Z) (k : Z) : Z :=
  fold_left (fun sum j => sum + f (Z.of_nat j)) (seq 0 (Z.to_nat k)) 0.

(** 60-139: entry i of the product *)
Definition dense_matvec (c : index_type) (A b : Z -> Z) (m n : Z) (row_major : bool) (i : Z) : Z :=
  loop_sum (fun j => A (position c row_major m n i j) * b j) n.

(** 277-328: entry j of the product with the transpose *)
Definition dense_transposed_matvec (c : index_type) (A b : Z -> Z) (m n : Z) (row_major : bool) (j : Z) : Z :=
  loop_sum (fun i => A (position c row_major m n i j) * b i) m.
