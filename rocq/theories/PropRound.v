(** Theorem C71: rounding errors of the matrix and vector kernels.

    [rounds fl u eta]: [fl] rounds with relative error at most u, up to an
    absolute error eta from underflow.  [writes_within c P h s v r]: the run [r]
    ended without an access outside the arrays, entry i of the output differs
    from [v i] by at most (P i - 1) * s i + P i * h i, and the remaining
    entries of [c] are unchanged.  [s] is always the product with the absolute
    values of the entries, and P counts how many roundings touch an entry:
    for the sums with a long double accumulator the roundings to DataType (u)
    do not grow with the size, only those to long double (ul) do.  Where a
    compressed matrix is scattered, those to DataType grow with the number of
    entries: see PropRoundIeee.v for what that costs in single precision. *)
From mathcomp Require Import all_ssreflect all_algebra.
From Verif Require Import Mem KernelModel KernelSpec KernelProofs RoundModel RoundSpec RoundProofs.
Set Implicit Arguments.
Unset Strict Implicit.
Unset Printing Implicit Defensive.
Import GRing.Theory Num.Theory.
Local Open Scope ring_scope.

Section Props.
Variable F : rcfType.
(** Rounding to DataType, to long double, and to the type of sqrt. *)
Variables fl fll flq : F -> F.
Variables u eta ul etal uq etaq : F.
Hypothesis Hfl : rounds fl u eta.
Hypothesis Hfll : rounds fll ul etal.
Hypothesis Hflq : rounds flq uq etaq.

(** C71. c = A b and c += alpha A b for a dense matrix of either layout.  The
    unrolled loop is that of the row-major layout. *)
Theorem C71_dense : forall (A b c : seq F) (alpha : F) (m n : nat) (row_major : bool),
  (m * n <= size A)%N -> (n <= size b)%N -> (m <= size c)%N ->
  let P := dense_growth u ul n row_major in
  let h := dense_slack eta etal n row_major in
  let A' := dense_matrix m n row_major A in
  writes_within c (fun=> P) (fun=> h) (absmx A' *m absmx (vec n b)) (A' *m vec n b)
    (RoundModel.dense_matvec fl fll A b m n row_major c) /\
  writes_within c (fun=> P * (1 + u) ^+ 2) (fun=> `|alpha| * h + 2%:R * eta)
    (absmx (vec m c) + `|alpha| *: (absmx A' *m absmx (vec n b)))
    (vec m c + alpha *: (A' *m vec n b))
    (RoundModel.dense_matvec_plus fl fll A b alpha m n row_major c).
Proof.
  move=> A b c alpha m n rm HA Hb Hc. cbv zeta.
  split; [exact: dense_matvec_near|exact: dense_matvec_plus_near].
Qed.

(** C71. The same for A^T b; the unrolled loop is that of the column-major
    layout. *)
Theorem C71_dense_transposed :
  forall (A b c : seq F) (alpha : F) (m n : nat) (row_major : bool),
  (m * n <= size A)%N -> (m <= size b)%N -> (n <= size c)%N ->
  let P := dense_growth u ul m (~~ row_major) in
  let h := dense_slack eta etal m (~~ row_major) in
  let A' := dense_matrix m n row_major A in
  writes_within c (fun=> P) (fun=> h) (absmx A'^T *m absmx (vec m b)) (A'^T *m vec m b)
    (RoundModel.dense_transposed_matvec fl fll A b m n row_major c) /\
  writes_within c (fun=> P * (1 + u) ^+ 2) (fun=> `|alpha| * h + 2%:R * eta)
    (absmx (vec n c) + `|alpha| *: (absmx A'^T *m absmx (vec m b)))
    (vec n c + alpha *: (A'^T *m vec m b))
    (RoundModel.dense_transposed_matvec_plus fl fll A b alpha m n row_major c).
Proof.
  move=> A b c alpha m n rm HA Hb Hc. cbv zeta.
  split; [exact: dense_transposed_matvec_near|exact: dense_transposed_matvec_plus_near].
Qed.

(** C71. A b for compressed rows: P i depends on the number of entries stored
    in row i only. *)
Theorem C71_csr : forall (data b c : seq F) (idx ptr : seq nat) (alpha : F) (m n : nat),
  compressed_ok m n data idx ptr -> (n <= size b)%N -> (m <= size c)%N ->
  let A := csr_matrix m n data idx ptr in
  let S := csr_matrix m n (absarray data) idx ptr *m absmx (vec n b) in
  writes_within c (line_growth u ul ptr) (line_slack eta etal ptr) S (A *m vec n b)
    (RoundModel.csr_matvec fl fll data idx ptr b m c) /\
  writes_within c (fun i => line_growth u ul ptr i * (1 + u) ^+ 2)
    (fun i => `|alpha| * line_slack eta etal ptr i + 2%:R * eta)
    (absmx (vec m c) + `|alpha| *: S) (vec m c + alpha *: (A *m vec n b))
    (RoundModel.csr_matvec_plus fl fll data idx ptr b alpha m c).
Proof.
  move=> data b c idx ptr alpha m n Hok Hb Hc. cbv zeta.
  split; [exact: csr_matvec_near|exact: csr_matvec_plus_near].
Qed.

(** C71. A^T b for compressed columns; the product with alpha is a long
    double here. *)
Theorem C71_csc_transposed :
  forall (data b c : seq F) (idx ptr : seq nat) (alpha : F) (m n : nat),
  compressed_ok n m data idx ptr -> (m <= size b)%N -> (n <= size c)%N ->
  let A := csc_matrix m n data idx ptr in
  let S := (csc_matrix m n (absarray data) idx ptr)^T *m absmx (vec m b) in
  writes_within c (line_growth u ul ptr) (line_slack eta etal ptr) S (A^T *m vec m b)
    (RoundModel.csc_transposed_matvec fl fll data idx ptr b n c) /\
  writes_within c (long_growth u ul ptr) (fun i => long_slack eta etal ptr i alpha)
    (absmx (vec n c) + `|alpha| *: S) (vec n c + alpha *: (A^T *m vec m b))
    (RoundModel.csc_transposed_matvec_plus fl fll data idx ptr b alpha n c).
Proof.
  move=> data b c idx ptr alpha m n Hok Hb Hc. cbv zeta.
  split; [exact: csc_transposed_matvec_near|exact: csc_transposed_matvec_plus_near].
Qed.

(** C71. A b for compressed columns: the sums are DataType numbers in the
    output array, and P k grows with the number of entries in row k. *)
Theorem C71_csc : forall (data b c : seq F) (idx ptr : seq nat) (alpha bmax : F) (m n : nat),
  compressed_ok n m data idx ptr -> (n <= size b)%N -> (m <= size c)%N ->
  0 <= bmax -> (forall i, (i < n)%N -> `|b`_i| <= bmax) ->
  let A := csc_matrix m n data idx ptr in
  let S := csc_matrix m n (absarray data) idx ptr *m absmx (vec n b) in
  writes_within c (scatter_growth u n idx ptr) (scatter_slack eta n idx ptr) S (A *m vec n b)
    (RoundModel.csc_matvec fl data idx ptr b m n c) /\
  writes_within c (scatter_plus_growth u n idx ptr) (scatter_plus_slack eta bmax n idx ptr)
    (absmx (vec m c) + `|alpha| *: S) (vec m c + alpha *: (A *m vec n b))
    (RoundModel.csc_matvec_plus fl data idx ptr b alpha n c).
Proof.
  move=> data b c idx ptr alpha bmax m n Hok Hb Hc H0 Hmax. cbv zeta.
  split; [exact: csc_matvec_near|exact: csc_matvec_plus_near].
Qed.

Theorem C71_csr_transposed :
  forall (data b c : seq F) (idx ptr : seq nat) (alpha bmax : F) (m n : nat),
  compressed_ok m n data idx ptr -> (m <= size b)%N -> (n <= size c)%N ->
  0 <= bmax -> (forall i, (i < m)%N -> `|b`_i| <= bmax) ->
  let A := csr_matrix m n data idx ptr in
  let S := (csr_matrix m n (absarray data) idx ptr)^T *m absmx (vec m b) in
  writes_within c (scatter_growth u m idx ptr) (scatter_slack eta m idx ptr) S (A^T *m vec m b)
    (RoundModel.csr_transposed_matvec fl data idx ptr b m n c) /\
  writes_within c (scatter_plus_growth u m idx ptr) (scatter_plus_slack eta bmax m idx ptr)
    (absmx (vec n c) + `|alpha| *: S) (vec n c + alpha *: (A^T *m vec m b))
    (RoundModel.csr_transposed_matvec_plus fl data idx ptr b alpha m c).
Proof.
  move=> data b c idx ptr alpha bmax m n Hok Hb Hc H0 Hmax. cbv zeta.
  split; [exact: csr_transposed_matvec_near|exact: csr_transposed_matvec_plus_near].
Qed.

(** C71. Scaled copies and differences of vectors. *)
Theorem C71_vectors : forall (x y : seq F) (n : nat) (a : F),
  (n <= size x)%N -> (n <= size y)%N ->
  writes_within y (fun=> 1 + u) (fun=> eta) (`|a| *: absmx (vec n x)) (a *: vec n x)
    (RoundModel.copy_scaled_vector fl x n a y) /\
  writes_within y (fun=> (1 + u) ^+ 2) (fun=> 2%:R * eta)
    (absmx (vec n y) + `|a| *: absmx (vec n x)) (vec n y - a *: vec n x)
    (RoundModel.subtract_scaled_vector fl x n a y).
Proof.
  move=> x y n a Hx Hy. split; [exact: copy_scaled_near|exact: subtract_scaled_near].
Qed.

(** C71. Inner products. *)
Theorem C71_inner_product : forall (x y : seq F) (n : nat),
  (n <= size x)%N -> (n <= size y)%N ->
  exists2 s, RoundModel.inner_product fl fll x y n = Some s &
    within (unrolled_growth u ul n) (unrolled_slack eta etal n)
      (\sum_(i < n) `|x`_i| * `|y`_i|) (\sum_(i < n) x`_i * y`_i) s.
Proof.
  move=> x y n Hx Hy. have [s -> N] := inner_product_near Hfl Hfll Hx Hy.
  exists s => //. exact: near_within N.
Qed.

(** C71. Norms. *)
Theorem C71_norm : forall (x : seq F) (n : nat), (n <= size x)%N ->
  exists2 r, RoundModel.euclidean_norm fl fll flq x n = Some r &
    `|r - length n x| <= (norm_growth u ul uq n - 1) * length n x
                         + norm_slack u ul uq eta etal etaq n.
Proof. move=> x n Hx. exact: norm_near. Qed.

End Props.

(** C71. Where nothing underflows, a normalized vector has length one up to
    rounding, whatever the length of the vector was. *)
Theorem C71_unit_length : forall (F : rcfType) (fl fll flq : F -> F) (u ul uq : F),
  rounds fl u 0 -> rounds fll ul 0 -> rounds flq uq 0 ->
  forall (x y : seq F) (n : nat), (n <= size x)%N -> (n <= size y)%N ->
  norm_growth u ul uq n < 2%:R -> 0 < length n x ->
  let P := norm_growth u ul uq n in
  let unit_vector v := 1 - u <= P * length n v /\ (2%:R - P) * length n v <= 1 + u in
  (exists r x', [/\ RoundModel.normalize_vector_in_place fl fll flq x n = Some (r, x'),
     size x' = size x, unit_vector x' & forall k, (n <= k)%N -> x'`_k = x`_k]) /\
  (exists r y', [/\ RoundModel.normalize_vector_and_copy fl fll flq x n y = Some (r, y'),
     size y' = size y, unit_vector y' & forall k, (n <= k)%N -> y'`_k = y`_k]).
Proof.
  move=> F fl fll flq u ul uq Hfl Hfll Hflq x y n Hx Hy HP HL. cbv beta zeta.
  have [r E Hr] := norm_unit Hfl Hfll Hflq Hx. split; exists r.
  - rewrite /RoundModel.normalize_vector_in_place E /=.
    have [x' [-> Hs Hd Hrest]] := divide_near fl r Hx. exists x'; split => //.
    exact: (unit_length Hfl HP HL Hr Hd).
  - rewrite /RoundModel.normalize_vector_and_copy E /=.
    have [y' [-> Hs Hd Hrest]] := divide_copy_near fl r Hx Hy. exists y'; split => //.
    exact: (unit_length Hfl HP HL Hr Hd).
Qed.

(** C71. Matrices and vectors of integers: as long as the products with the
    absolute values do not exceed the integers that the types hold, nothing is
    rounded and all three formats give the same result, the exact one. *)
Theorem C71_integers : forall (F : rcfType) (fl fll : F -> F) (M : nat),
  keeps_integers fl M -> keeps_integers fll M ->
  forall (b : seq F) (m n : nat), integers b -> (n <= size b)%N ->
  (forall (A c : seq F) (row_major : bool), integers A -> (m * n <= size A)%N -> (m <= size c)%N ->
     (forall i : 'I_m, (absmx (dense_matrix m n row_major A) *m absmx (vec n b)) i 0 <= M%:R) ->
     writes c (dense_matrix m n row_major A *m vec n b)
       (RoundModel.dense_matvec fl fll A b m n row_major c)) /\
  (forall (data c : seq F) (idx ptr : seq nat), integers data -> compressed_ok m n data idx ptr ->
     (m <= size c)%N ->
     (forall i : 'I_m, (csr_matrix m n (absarray data) idx ptr *m absmx (vec n b)) i 0 <= M%:R) ->
     writes c (csr_matrix m n data idx ptr *m vec n b)
       (RoundModel.csr_matvec fl fll data idx ptr b m c)) /\
  (forall (data c : seq F) (idx ptr : seq nat), integers data -> compressed_ok n m data idx ptr ->
     (m <= size c)%N ->
     (forall i : 'I_m, (csc_matrix m n (absarray data) idx ptr *m absmx (vec n b)) i 0 <= M%:R) ->
     writes c (csc_matrix m n data idx ptr *m vec n b)
       (RoundModel.csc_matvec fl data idx ptr b m n c)).
Proof.
  move=> F fl fll M K K' b m n Ib Hb. split; first by move=> A c rm IA HA Hc HS; exact: (dense_matvec_exact K K').
  split.
  - move=> data c idx ptr IA Hok Hc HS. exact: (csr_matvec_exact K K').
  - move=> data c idx ptr IA Hok Hc HS. exact: (csc_matvec_exact K).
Qed.

(** Exact arithmetic meets the hypotheses with no error at all, and then the
    theorems say that the kernels are exact. *)
Example C71_example_exact (F : rcfType) : rounds (@id F) 0 0.
Proof. by split => // x; rewrite subrr normr0 mul0r addr0. Qed.

Example C71_example_exact_csr (F : rcfType) (data b c : seq F) idx ptr m n :
  compressed_ok m n data idx ptr -> (n <= size b)%N -> (m <= size c)%N ->
  writes c (csr_matrix m n data idx ptr *m vec n b) (RoundModel.csr_matvec id id data idx ptr b m c).
Proof.
  move=> Hok Hb Hc. have E := C71_example_exact F.
  have [[c' [H1 H2 H3 H4]] _] := C71_csr E E 0 Hok Hb Hc.
  exists c'; split => //. apply/matrixP => i o. rewrite ord1 [LHS]mxE. apply/eqP. move: (H3 i).
  rewrite /within /line_growth /line_slack /plain_growth /plain_slack !addr0 !expr1n !mulr0 !addr0 !mulr1 mulr0.
  by rewrite subrr mul0r addr0 normr_le0 subr_eq0.
Qed.

Definition C71_assumptions := (@C71_dense, @C71_dense_transposed, @C71_csr, @C71_csc_transposed,
  @C71_csc, @C71_csr_transposed, @C71_vectors, @C71_inner_product, @C71_norm, @C71_unit_length,
  @C71_integers).
Print Assumptions C71_assumptions.
