(** The build with CBLAS computes what the other build computes: C55. *)
From mathcomp Require Import all_ssreflect all_algebra zify.
From Verif Require Import Mem KernelModel KernelSpec KernelProofs CblasModel.
Set Implicit Arguments.
Unset Strict Implicit.
Unset Printing Implicit Defensive.
Import GRing.Theory Num.Theory.
Local Open Scope ring_scope.

Lemma loop_none (S : Type) (f : nat -> S -> option S) bound k fuel i s :
  (i <= k < bound)%N -> (forall s, f k s = None) -> loop fuel i bound 1 f s = None.
Proof.
move=> Hk Hf. elim: fuel i s Hk => [|fuel IH] i s Hk /=; first by case: ifP => //; lia.
rewrite ifT; last by lia.
case: (altP (i =P k)) => [->|D]; first by rewrite Hf.
case: (f i s) => //= s'. apply: IH. rewrite addn1. lia.
Qed.

Lemma for_none (S : Type) (f : nat -> S -> option S) bound k s :
  (k < bound)%N -> (forall s, f k s = None) -> for_ 0 bound 1 f s = None.
Proof. by move=> Hk Hf; apply: (loop_none (k := k)). Qed.

Section Ring.
Variable R : comRingType.
Implicit Types (A x y : seq R).

(** An outcome is determined by what is written *)
Lemma writes_uniq n y (v : 'cV[R]_n) r1 r2 : writes y v r1 -> writes y v r2 -> r1 = r2.
Proof.
move=> [y1 [-> V1 S1 O1]] [y2 [-> V2 S2 O2]]. congr Some.
apply: (@eq_from_nth _ 0); first by rewrite S1 S2.
move=> i Hi. case: (ltnP i n) => Hn; last by rewrite O1 // O2.
have := congr1 (fun M : 'cV_n => M (Ordinal Hn) 0) V1.
rewrite -V2 !mxE. by [].
Qed.

Lemma dot_ok x y n : (n <= size x)%N -> (n <= size y)%N -> dot n x y = Some (\sum_(i < n) x`_i * y`_i).
Proof.
move=> Hx Hy. rewrite -(big_mkord xpredT (fun i => x`_i * y`_i)) /dot.
have [s -> ->] : exists2 s, for_ 0 n 1 (fun i s => add_term x i y i s) 0 = Some s &
    s = \sum_(0 <= i < n) x`_i * y`_i; last by [].
apply: (for1_inv (I := fun k s => s = \sum_(0 <= i < k) x`_i * y`_i)) => //; first by rewrite big_geq.
move=> k s /andP [_ Hk] ->. rewrite add_term_ok; [|exact: leq_trans Hx|exact: leq_trans Hy].
eexists; first reflexivity. by rewrite big_nat_recr.
Qed.

Lemma scal_ok x n a : (n <= size x)%N -> writes x (a *: vec n x) (scal n a x).
Proof.
move=> Hx.
have Hb : forall i c', (i < n)%N -> size c' = size x ->
    (do v <- rd c' i; wr c' i (a * v)) = wr c' i ((fun _ v => a * v) i c'`_i).
{ move=> i c' Hi Hs. rewrite (rdE 0) // Hs. exact: leq_trans Hx. }
have [c' E [Hs Hc]] := write_loop (v := fun _ v => a * v) Hx Hb.
exists c'; split => //.
+ by apply/matrixP => i j; rewrite !mxE Hc ltn_ord.
+ by move=> k Hk; rewrite Hc ltnNge Hk.
Qed.

Lemma axpy_ok x y n a : (n <= size x)%N -> (n <= size y)%N -> writes y (vec n y + a *: vec n x) (axpy n a x y).
Proof.
move=> Hx Hy.
have Hb : forall i c', (i < n)%N -> size c' = size y ->
    (do u <- rd x i; do v <- rd c' i; wr c' i (a * u + v))
    = wr c' i ((fun i v => a * x`_i + v) i c'`_i).
{ move=> i c' Hi Hs. rewrite (rdE 0 (leq_trans Hi Hx)) /=.
  rewrite (rdE 0) // Hs. exact: leq_trans Hi Hy. }
have [c' E [Hs Hc]] := write_loop (v := fun i v => a * x`_i + v) Hy Hb.
exists c'; split => //.
+ by apply/matrixP => i j; rewrite !mxE Hc ltn_ord addrC.
+ by move=> k Hk; rewrite Hc ltnNge Hk.
Qed.

(** C55: matrix-vector products.  Column-major matrices and square matrices are
    handled as in the other build. *)
Theorem C55_matvec_partial p A x (m n : nat) row_major y : p <> LongDouble ->
  ~~ row_major || (m == n) -> (0 < m)%N ->
  (m * n <= size A)%N -> (n <= size x)%N -> (m <= size y)%N ->
  cblas_dense_matvec p A x m n row_major y = dense_matvec A x m n row_major y /\
  writes y (dense_matrix m n row_major A *m vec n x) (cblas_dense_matvec p A x m n row_major y).
Proof.
move=> Hp Hrm Hm HA Hx Hy.
suff H : writes y (dense_matrix m n row_major A *m vec n x) (cblas_dense_matvec p A x m n row_major y).
{ split=> //. apply: writes_uniq H _. exact: dense_matvec_ok. }
have -> : cblas_dense_matvec p A x m n row_major y = gemv row_major m n 1 A m x 0 y by case: p Hp.
have Hl : (m < maxn 1 (if row_major then n else m))%N = false by case: row_major Hrm => /= [/eqP|] *; lia.
rewrite /gemv Hl -dense_mulE.
set rowsum := fun i => for_ 0 n 1 (fun j sum => add_term A (if row_major then i * m + j else i + m * j)%N x j sum) 0.
have Hr : forall i, (i < m)%N -> rowsum i =
    Some (\sum_(0 <= j < n) A`_(if row_major then (i * n + j)%N else (i + m * j)%N) * x`_j).
{ move=> i Hi. rewrite /rowsum.
  have Hix : forall j, (j < n)%N -> (if row_major then i * m + j else i + m * j)%N =
      (if row_major then i * n + j else i + m * j)%N.
  { by move=> j Hj; case: row_major Hrm {Hl rowsum} => //= /eqP ->. }
  have [s -> ->] : exists2 s, for_ 0 n 1 (fun j sum => add_term A (if row_major then i * m + j else i + m * j)%N x j sum) 0 = Some s &
    s = \sum_(0 <= j < n) A`_(if row_major then (i * n + j)%N else (i + m * j)%N) * x`_j; last by [].
  apply: (for1_inv (I := fun k s => s = \sum_(0 <= j < k) A`_(if row_major then (i * n + j)%N else (i + m * j)%N) * x`_j)) => //;
    first by rewrite big_geq.
  move=> k s /andP [_ Hk] ->. rewrite Hix // add_term_ok; last first.
  - exact: leq_trans Hx.
  - apply: leq_trans HA. case: row_major {Hl rowsum Hix Hrm} => //; nia.
  eexists; first reflexivity. by rewrite big_nat_recr. }
have Hb : forall i c', (i < m)%N -> size c' = size y ->
  (do sum <- rowsum i; do v <- rd c' i; wr c' i (1 * sum + 0 * v)) =
  wr c' i ((fun i _ => \sum_(0 <= j < n) A`_(if row_major then (i * n + j)%N else (i + m * j)%N) * x`_j) i c'`_i).
{ move=> i c' Hi Hs. rewrite Hr //= (rdE 0) /=; last by rewrite Hs; exact: leq_trans Hy.
  by rewrite mul1r mul0r addr0. }
have [c' E [Hs Hc]] := write_loop (v := fun i _ => \sum_(0 <= j < n) A`_(if row_major then (i * n + j)%N else (i + m * j)%N) * x`_j) Hy Hb.
exists c'; split => //.
+ by apply/matrixP => i j; rewrite !mxE Hc ltn_ord.
+ by move=> k Hk; rewrite Hc ltnNge Hk.
Qed.

(** Row-major matrices that are not square: the leading dimension is wrong.  With
    more columns than rows the call is rejected; with more rows than columns it
    reads after the end of the matrix.  No input is handled. *)
Theorem C55_matvec_refuted p A x (m n : nat) y : size A = (m * n)%N -> m != n -> (0 < n)%N -> (0 < m)%N ->
  cblas_dense_matvec p A x m n true y = None.
Proof.
move=> HA Hmn Hn Hm. case: p => //=; rewrite /cblas_dense_matvec /= /gemv; case: ifP => // Hl;
 (apply: (for_none (k := m.-1)); [by lia|]); move=> y'; rewrite (for_none (k := n.-1)) //; try lia;
 move=> s; rewrite /add_term /term; case E: (rd A _) => [a|] //; exfalso; have := rd_some E; rewrite HA; nia.
Qed.

(** With the other build these are handled *)
Theorem C55_matvec_other_build A x (m n : nat) y : size A = (m * n)%N -> (n <= size x)%N -> (m <= size y)%N ->
  writes y (dense_matrix m n true A *m vec n x) (dense_matvec A x m n true y).
Proof. by move=> HA Hx Hy; apply: dense_matvec_ok => //; rewrite HA. Qed.

(** C55: the vector operations give the same results as in the other build *)
Theorem C55_copy p x n y : p <> LongDouble -> (n <= size x)%N -> (n <= size y)%N ->
  cblas_copy_vector p x n y = copy_vector x n y.
Proof. by case: p. Qed.

Theorem C55_copy_scaled p x n (a : R) y : p <> LongDouble -> (n <= size x)%N -> (n <= size y)%N ->
  cblas_copy_scaled_vector p x n a y = copy_scaled_vector x n a y.
Proof.
move=> Hp Hx Hy.
have -> : cblas_copy_scaled_vector p x n a y = (do y <- copy n x y; scal n a y) by case: p Hp.
apply: writes_uniq (copy_scaled_vector_ok a Hx Hy).
have [y' [E V S O]] : writes y (vec n x) (copy n x y) := copy_vector_ok Hx Hy.
rewrite E /=. have Hy' : (n <= size y')%N by rewrite S.
have [z [Ez Vz Sz Oz]] := scal_ok a Hy'. rewrite Ez. exists z; split=> //.
- by rewrite Vz V.
- by rewrite Sz S.
- by move=> k Hk; rewrite Oz // O.
Qed.

Theorem C55_subtract_scaled p x n (a : R) y : p <> LongDouble -> (n <= size x)%N -> (n <= size y)%N ->
  cblas_subtract_scaled_vector p x n a y = subtract_scaled_vector x n a y.
Proof.
move=> Hp Hx Hy.
have -> : cblas_subtract_scaled_vector p x n a y = axpy n (- a) x y by case: p Hp.
apply: writes_uniq (subtract_scaled_vector_ok a Hx Hy). rewrite -scaleNr. exact: axpy_ok.
Qed.

Theorem C55_inner_product p x y n : p <> LongDouble -> (n <= size x)%N -> (n <= size y)%N ->
  cblas_inner_product p x y n = inner_product x y n.
Proof.
by move=> Hp Hx Hy; rewrite inner_product_ok // -dot_ok //; case: p Hp.
Qed.

(** With long double every operation aborts *)
Theorem C55_long_double_refuted A x y (m n : nat) row_major (a : R) :
  cblas_dense_matvec LongDouble A x m n row_major y = None /\
  cblas_copy_vector LongDouble x n y = None /\
  cblas_copy_scaled_vector LongDouble x n a y = None /\
  cblas_subtract_scaled_vector LongDouble x n a y = None /\
  cblas_inner_product LongDouble x y n = None.
Proof. by []. Qed.
End Ring.

Section Norms.
Variable R : rcfType.
Implicit Types x y : seq R.

Theorem C55_norm p x n : p <> LongDouble -> (n <= size x)%N ->
  cblas_euclidean_norm p x n = euclidean_norm x n.
Proof.
move=> Hp Hx. rewrite euclidean_norm_ok //.
have -> : cblas_euclidean_norm p x n = nrm2 n x by case: p Hp.
have := dot_ok Hx Hx. rewrite /dot /nrm2 => -> /=.
by congr (Some (Num.sqrt _)); apply: eq_bigr => i _; rewrite expr2.
Qed.

Theorem C55_normalize_in_place p x n : p <> LongDouble -> (n <= size x)%N ->
  cblas_normalize_vector_in_place p x n = normalize_vector_in_place x n.
Proof.
move=> Hp Hx. rewrite /cblas_normalize_vector_in_place C55_norm // /normalize_vector_in_place.
rewrite euclidean_norm_ok //=. set nr := Num.sqrt _.
have E : wrap p (scal n (1 / nr) x) = for_ 0 n 1 (fun i x => do a <- rd x i; wr x i (a / nr)) x.
{ have -> : wrap p (scal n (1 / nr) x) = scal n (1 / nr) x by case: p Hp.
  apply: writes_uniq (divide_loop nr Hx). rewrite div1r. exact: scal_ok. }
by rewrite E.
Qed.

Theorem C55_normalize_and_copy p x n y : p <> LongDouble -> (n <= size x)%N -> (n <= size y)%N ->
  cblas_normalize_vector_and_copy p x n y = normalize_vector_and_copy x n y.
Proof.
move=> Hp Hx Hy. rewrite /cblas_normalize_vector_and_copy C55_norm // /normalize_vector_and_copy.
rewrite euclidean_norm_ok //=. set nr := Num.sqrt _.
have E : cblas_copy_scaled_vector p x n (1 / nr) y = for_ 0 n 1 (fun i y => do a <- rd x i; wr y i (a / nr)) y.
{ rewrite C55_copy_scaled //. apply: writes_uniq (divide_copy_loop nr Hx Hy). rewrite div1r. exact: copy_scaled_vector_ok. }
by rewrite E.
Qed.
End Norms.

(** Cases *)
Example C55_square : cblas_dense_matvec Double [:: 1; 2; 3; 4 : int] [:: 1; 1] 2 2 true [:: 0; 0] = Some [:: 3; 7].
Proof. by []. Qed.
Example C55_column_major :
  cblas_dense_matvec Double [:: 1; 4; 2; 5; 3; 6 : int] [:: 1; 1; 2] 2 3 false [:: 0; 0] = Some [:: 9; 21].
Proof. by []. Qed.
Example C55_wide : cblas_dense_matvec Double [:: 1; 2; 3; 4; 5; 6 : int] [:: 1; 1; 2] 2 3 true [:: 0; 0] = None /\
  dense_matvec [:: 1; 2; 3; 4; 5; 6 : int] [:: 1; 1; 2] 2 3 true [:: 0; 0] = Some [:: 9; 21].
Proof. by []. Qed.
Example C55_vector : cblas_copy_scaled_vector Float [:: 1; 2; 3 : int] 3 2 [:: 0; 0; 0; 9] = Some [:: 2; 4; 6; 9] /\
  cblas_subtract_scaled_vector Float [:: 1; 2; 3 : int] 3 2 [:: 5; 5; 5] = Some [:: 3; 1; -1].
Proof. by []. Qed.

Definition C55_assumptions := (@C55_matvec_partial, @C55_matvec_refuted, @C55_matvec_other_build,
  @C55_copy, @C55_copy_scaled, @C55_subtract_scaled, @C55_inner_product, @C55_long_double_refuted,
  @C55_norm, @C55_normalize_in_place, @C55_normalize_and_copy).
Print Assumptions C55_assumptions.
