(** Theorems C07-C11: the matrix and vector kernels.
    [writes c v r] (KernelSpec.v): the run [r] ended without an access outside
    the arrays, the first entries of the output array hold the vector [v], and
    the size and the remaining entries of the output array [c] are unchanged. *)
From mathcomp Require Import all_ssreflect all_algebra.
From Verif Require Import Mem KernelModel KernelSpec KernelProofs.
From Verif Require Import OperatorModel OperatorSpec OperatorProofs.
Set Implicit Arguments.
Unset Strict Implicit.
Unset Printing Implicit Defensive.
Import GRing.Theory.
Local Open Scope ring_scope.

Section Props.
Variable R : comRingType.

(** C07. c = A b. *)
Theorem C07_dense_matvec : forall (A b c : seq R) (m n : nat) (row_major : bool),
  (m * n <= size A)%N -> (n <= size b)%N -> (m <= size c)%N ->
  writes c (dense_matrix m n row_major A *m vec n b) (dense_matvec A b m n row_major c).
Proof. move=> *; exact: dense_matvec_ok. Qed.

(** C07. c += alpha A b. *)
Theorem C07_dense_matvec_plus : forall (A b c : seq R) (alpha : R) (m n : nat) (row_major : bool),
  (m * n <= size A)%N -> (n <= size b)%N -> (m <= size c)%N ->
  writes c (vec m c + alpha *: (dense_matrix m n row_major A *m vec n b))
    (dense_matvec_plus A b alpha m n row_major c).
Proof. move=> *; exact: dense_matvec_plus_ok. Qed.

(** C07. c = A^T b. *)
Theorem C07_dense_transposed_matvec : forall (A b c : seq R) (m n : nat) (row_major : bool),
  (m * n <= size A)%N -> (m <= size b)%N -> (n <= size c)%N ->
  writes c ((dense_matrix m n row_major A)^T *m vec m b)
    (dense_transposed_matvec A b m n row_major c).
Proof. move=> *; exact: dense_transposed_matvec_ok. Qed.

(** C07. c += alpha A^T b. *)
Theorem C07_dense_transposed_matvec_plus :
  forall (A b c : seq R) (alpha : R) (m n : nat) (row_major : bool),
  (m * n <= size A)%N -> (m <= size b)%N -> (n <= size c)%N ->
  writes c (vec n c + alpha *: ((dense_matrix m n row_major A)^T *m vec m b))
    (dense_transposed_matvec_plus A b alpha m n row_major c).
Proof. move=> *; exact: dense_transposed_matvec_plus_ok. Qed.

(** C08. The same for compressed rows. *)
Theorem C08_csr : forall (data b c : seq R) (idx ptr : seq nat) (alpha : R) (m n : nat),
  compressed_ok m n data idx ptr -> (n <= size b)%N -> (m <= size c)%N ->
  let A := csr_matrix m n data idx ptr in
  writes c (A *m vec n b) (csr_matvec data idx ptr b m c) /\
  writes c (vec m c + alpha *: (A *m vec n b)) (csr_matvec_plus data idx ptr b alpha m c).
Proof. move=> *; split; [exact: csr_matvec_ok|exact: csr_matvec_plus_ok]. Qed.

Theorem C08_csr_transposed :
  forall (data b c : seq R) (idx ptr : seq nat) (alpha : R) (m n : nat),
  compressed_ok m n data idx ptr -> (m <= size b)%N -> (n <= size c)%N ->
  let A := csr_matrix m n data idx ptr in
  writes c (A^T *m vec m b) (csr_transposed_matvec data idx ptr b m n c) /\
  writes c (vec n c + alpha *: (A^T *m vec m b))
    (csr_transposed_matvec_plus data idx ptr b alpha m c).
Proof. move=> *; split; [exact: csr_transposed_matvec_ok|exact: csr_transposed_matvec_plus_ok]. Qed.

(** C08. The same for compressed columns. *)
Theorem C08_csc : forall (data b c : seq R) (idx ptr : seq nat) (alpha : R) (m n : nat),
  compressed_ok n m data idx ptr -> (n <= size b)%N -> (m <= size c)%N ->
  let A := csc_matrix m n data idx ptr in
  writes c (A *m vec n b) (csc_matvec data idx ptr b m n c) /\
  writes c (vec m c + alpha *: (A *m vec n b)) (csc_matvec_plus data idx ptr b alpha n c).
Proof. move=> *; split; [exact: csc_matvec_ok|exact: csc_matvec_plus_ok]. Qed.

Theorem C08_csc_transposed :
  forall (data b c : seq R) (idx ptr : seq nat) (alpha : R) (m n : nat),
  compressed_ok n m data idx ptr -> (m <= size b)%N -> (n <= size c)%N ->
  let A := csc_matrix m n data idx ptr in
  writes c (A^T *m vec m b) (csc_transposed_matvec data idx ptr b n c) /\
  writes c (vec n c + alpha *: (A^T *m vec m b))
    (csc_transposed_matvec_plus data idx ptr b alpha n c).
Proof. move=> *; split; [exact: csc_transposed_matvec_ok|exact: csc_transposed_matvec_plus_ok]. Qed.

(** C09. Two storages of one matrix give the same arrays. *)
Theorem C09_format_does_not_matter : forall (s s' : storage R) (m n : nat),
  well_formed s m n -> well_formed s' m n -> denotes s m n = denotes s' m n ->
  (forall v c, (n <= size v)%N -> (m <= size c)%N -> dot s m n v c = dot s' m n v c) /\
  (forall v c, (m <= size v)%N -> (n <= size c)%N ->
     transpose_dot s m n v c = transpose_dot s' m n v c).
Proof.
  move=> s s' m n Hs Hs' E; split=> v c Hv Hc.
  - apply: (writes_det Hc (dot_ok Hs Hv Hc)). rewrite E. exact: dot_ok.
  - apply: (writes_det Hc (transpose_dot_ok Hs Hv Hc)). rewrite E. exact: transpose_dot_ok.
Qed.

(** C09. <A x, y> = <x, A^T y>. *)
Theorem C09_transpose_is_adjoint : forall (s : storage R) (m n : nat) (x y c d : seq R),
  well_formed s m n -> (n <= size x)%N -> (m <= size y)%N -> (m <= size c)%N -> (n <= size d)%N ->
  exists Ax ATy,
    [/\ dot s m n x c = Some Ax, transpose_dot s m n y d = Some ATy &
        \sum_(i < m) Ax`_i * y`_i = \sum_(j < n) x`_j * ATy`_j].
Proof.
  move=> s m n x y c d Hs Hx Hy Hc Hd.
  have [Ax [E1 V1 _ _]] := dot_ok Hs Hx Hc.
  have [Ay [E2 V2 _ _]] := transpose_dot_ok Hs Hy Hd.
  exists Ax, Ay. split => //.
  have D k (a b : seq R) : ((vec k a)^T *m vec k b) 0 0 = \sum_(i < k) a`_i * b`_i.
  { rewrite mxE. by apply: eq_bigr => i _; rewrite !mxE. }
  by rewrite -!D V1 V2 trmx_mul mulmxA.
Qed.

(** C10. *)
Theorem C10_inner_product : forall (x y : seq R) (n : nat),
  (n <= size x)%N -> (n <= size y)%N ->
  inner_product x y n = Some (\sum_(i < n) x`_i * y`_i).
Proof. move=> *; exact: inner_product_ok. Qed.

Theorem C10_copy_and_subtract : forall (x y : seq R) (n : nat) (a : R),
  (n <= size x)%N -> (n <= size y)%N ->
  [/\ writes y (vec n x) (copy_vector x n y),
      writes y (a *: vec n x) (copy_scaled_vector x n a y) &
      writes y (vec n y - a *: vec n x) (subtract_scaled_vector x n a y)].
Proof.
  move=> *; split;
  [exact: copy_vector_ok|exact: copy_scaled_vector_ok|exact: subtract_scaled_vector_ok].
Qed.

(** C11. The entries of the row-pointer array [mat] afterwards: the diagonal,
    the superdiagonal, the subdiagonal in tridiagonal mode; nothing else
    changes. *)
Theorem C11_band_matrix : forall (diag sup : seq R) (n : nat) (tridiagonal : bool)
    (mat : seq (seq R)),
  (n <= size diag)%N -> (n.-1 <= size sup)%N -> (n <= size mat)%N ->
  (forall r, (r < n)%N -> (n <= size (nth [::] mat r))%N) ->
  exists mat', create_band_matrix diag sup n tridiagonal mat = Some mat' /\
    forall i j, (nth [::] mat' i)`_j =
      if (i < n)%N && (j == i) then diag`_i
      else if (i.+1 < n)%N && (j == i.+1) then sup`_i
      else if tridiagonal && (j.+1 < n)%N && (i == j.+1) then sup`_j
      else (nth [::] mat i)`_j.
Proof.
  move=> diag sup n tri mat H1 H2 H3 H4.
  have [mat' E H] := create_band_matrix_ok tri H1 H2 H3 H4. by exists mat'.
Qed.

End Props.

(** C10, norms, over a real closed field. *)
Theorem C10_euclidean_norm : forall (R : rcfType) (x : seq R) (n : nat), (n <= size x)%N ->
  euclidean_norm x n = Some (Num.sqrt (\sum_(i < n) x`_i ^+ 2)).
Proof. move=> *; exact: euclidean_norm_ok. Qed.

Theorem C10_normalize_in_place : forall (R : rcfType) (x : seq R) (n : nat), (n <= size x)%N ->
  exists norm x', normalize_vector_in_place x n = Some (norm, x') /\
    norm = Num.sqrt (\sum_(i < n) x`_i ^+ 2) /\
    vec n x' = norm^-1 *: vec n x /\ size x' = size x /\
    (forall k, (n <= k)%N -> x'`_k = x`_k) /\
    (vec n x != 0 -> 0 < norm /\ \sum_(i < n) x'`_i ^+ 2 = 1).
Proof.
  move=> R x n Hx. have [x' [E [H1 H2 H3]]] := normalize_in_place_ok Hx.
  exists (norm2 n x), x'. do 4![split => //]. split => // Hv. split; [exact: norm2_gt0|exact: normalised H1].
Qed.

Theorem C10_normalize_and_copy : forall (R : rcfType) (x y : seq R) (n : nat),
  (n <= size x)%N -> (n <= size y)%N ->
  exists norm y', normalize_vector_and_copy x n y = Some (norm, y') /\
    norm = Num.sqrt (\sum_(i < n) x`_i ^+ 2) /\
    vec n y' = norm^-1 *: vec n x /\ size y' = size y /\
    (forall k, (n <= k)%N -> y'`_k = y`_k) /\
    (vec n x != 0 -> 0 < norm /\ \sum_(i < n) y'`_i ^+ 2 = 1).
Proof.
  move=> R x y n Hx Hy. have [y' [E [H1 H2 H3]]] := normalize_and_copy_ok Hx Hy.
  exists (norm2 n x), y'. do 4![split => //]. split => // Hv. split; [exact: norm2_gt0|exact: normalised H1].
Qed.

Print Assumptions C07_dense_matvec.
Print Assumptions C07_dense_matvec_plus.
Print Assumptions C07_dense_transposed_matvec.
Print Assumptions C07_dense_transposed_matvec_plus.
Print Assumptions C08_csr.
Print Assumptions C08_csr_transposed.
Print Assumptions C08_csc.
Print Assumptions C08_csc_transposed.
Print Assumptions C09_format_does_not_matter.
Print Assumptions C09_transpose_is_adjoint.
Print Assumptions C10_inner_product.
Print Assumptions C10_copy_and_subtract.
Print Assumptions C10_euclidean_norm.
Print Assumptions C10_normalize_in_place.
Print Assumptions C10_normalize_and_copy.
Print Assumptions C11_band_matrix.

(** Concrete runs over the integers: 2 x 6 (an unrolled pass and a remainder),
    output array longer than needed. *)
Example C07_example :
  dense_matvec [:: 1; 2; 3; 4; 5; 6; 0; 1; 0; 1; 0; 2 : int] [:: 1; 1; 2; 1; 1; 1] 2 6 true
    [:: 9; 9; 7] = Some [:: 24; 4; 7].
Proof. by vm_compute. Qed.

Example C07_example_col_major :
  dense_transposed_matvec_plus [:: 1; 2; 3; 4; 5; 6 : int] [:: 1; 0; 2] 2 3 2 false [:: 1; 1; 5]
  = Some [:: 15; 33; 5].
Proof. by vm_compute. Qed.

(** Row 0 empty, row 1 unsorted with a duplicate column 2. *)
Definition ex_data : seq int := [:: 4; 1; 5].
Definition ex_idx : seq nat := [:: 2; 0; 2]%N.
Definition ex_ptr : seq nat := [:: 0; 0; 3]%N.
Example C08_example_ok : compressed_ok 2 3 ex_data ex_idx ex_ptr.
Proof. by split => // - [|[|i]] q //=; rewrite ?ltn0 ?andbF //; case: q => [|[|[|q]]]. Qed.
Example C08_example :
  csr_matvec ex_data ex_idx ex_ptr [:: 10; 20; 1] 2 [:: 8; 8] = Some [:: 0; 19].
Proof. by vm_compute. Qed.
Example C08_example_transposed :
  csr_transposed_matvec ex_data ex_idx ex_ptr [:: 7; 2] 2 3 [:: 8; 8; 8] = Some [:: 2; 0; 18].
Proof. by vm_compute. Qed.

(** The same matrix dense and sparse. *)
Example C09_example :
  denotes (Csr ex_data ex_idx ex_ptr) 2 3 = denotes (Dense true [:: 0; 0; 0; 1; 0; 9]) 2 3.
Proof.
  apply/matrixP => - [[|[|i]] Hi] [[|[|[|j]]] Hj] //; rewrite !mxE /=;
  by rewrite unlock /=.
Qed.

Example C10_example : inner_product [:: 1; 2; 3; 4; 5; 6; 7 : int] [:: 1; 1; 1; 1; 1; 1; 2] 7 = Some 35.
Proof. by vm_compute. Qed.

Example C11_example :
  create_band_matrix [:: 1; 2; 3 : int] [:: 7; 8] 3 true
    [:: [:: 0; 0; 0]; [:: 0; 0; 0]; [:: 0; 0; 0]]
  = Some [:: [:: 1; 7; 0]; [:: 7; 2; 8]; [:: 0; 8; 3]].
Proof. by vm_compute. Qed.
