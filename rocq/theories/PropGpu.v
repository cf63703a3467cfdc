(** Products on GPU devices: C60. *)
From mathcomp Require Import all_ssreflect all_algebra zify.
From Verif Require Import CblasModel PropCblas Mem KernelModel KernelSpec KernelProofs.
From Verif Require Import OperatorModel OperatorSpec OperatorProofs GpuModel.
Set Implicit Arguments.
Unset Strict Implicit.
Unset Printing Implicit Defensive.
Import GRing.Theory Num.Theory.
Local Open Scope ring_scope.

(** ** Specification: matrices as numpy and scipy hand them over *)

(** The index pointer has one entry for each line and one more, does not
    decrease, and its last entry is the number of stored entries. *)
Definition scipy_compressed (R : Type) (lines width : nat) (data : seq R) (idx ptr : seq nat) : Prop :=
  [/\ size ptr = lines.+1, sorted leq ptr, (last 0%N ptr <= size data)%N,
      (last 0%N ptr <= size idx)%N & all (fun k => k < width)%N idx].

Definition from_scipy (R : comRingType) (s : storage R) (m n : nat) : Prop :=
  match s with
  | Dense _ A => size A = (m * n)%N
  | Csr d i p => scipy_compressed m n d i p
  | Csc d i p => scipy_compressed n m d i p
  end.

Section Proofs.
Variable R : comRingType.
Implicit Types (A b c x y data : seq R) (alpha beta : R) (idx ptr : seq nat) (s : storage R).

Lemma put_loop (f : nat -> option R) alpha beta n c (v : 'cV[R]_n) :
  (n <= size c)%N -> (forall i : 'I_n, f i = Some (v i 0)) ->
  writes c (alpha *: v + beta *: vec n c) (for_ 0 n 1 (fun i c => do u <- f i; put alpha beta c i u) c).
Proof.
move=> Hn Hf. pose g i := if insub i is Some o then v o 0 else 0.
have Hb i c' : (i < n)%N -> size c' = size c ->
    (do u <- f i; put alpha beta c' i u) = wr c' i ((fun i (x : R) => alpha * g i + beta * x) i c'`_i).
{ move=> Hi Hs. rewrite (Hf (Ordinal Hi)) /= /put /g insubT /=.
  case: eqP => [->|_]; first by rewrite mul0r addr0.
  by rewrite (rdE 0) ?Hs ?(leq_trans Hi Hn) //=. }
have [c' E [Hs Hc]] := write_loop (v := fun i (x : R) => alpha * g i + beta * x) Hn Hb.
exists c'; split => //.
- apply/matrixP => i j. by rewrite !mxE Hc ltn_ord /g valK ord1.
- move=> k Hk. by rewrite Hc ltnNge Hk.
Qed.

(** gemv on the device: A as stored in column-major order *)
Lemma cu_gemv_ok (trans : bool) (m n : nat) alpha A x beta y : (0 < m)%N -> (0 < n)%N ->
  (m * n <= size A)%N -> ((if trans then m else n) <= size x)%N ->
  ((if trans then n else m) <= size y)%N ->
  writes y (alpha *: \col_(i < (if trans then n else m))
                       (\sum_(0 <= j < if trans then m else n)
                          A`_(if trans then j + m * i else i + m * j)%N * x`_j)
            + beta *: vec (if trans then n else m) y)
         (cu_gemv trans m n alpha A m x beta y).
Proof.
move=> Hm Hn HA Hx Hy. rewrite /cu_gemv ltnNge geq_max Hm leqnn /=. rewrite (gtn_eqF Hm) (gtn_eqF Hn) /=.
case: trans Hx Hy => Hx Hy; cbn iota in Hx, Hy |- *; apply: (put_loop _ _ Hy) => i; rewrite mxE.
- apply: (@plain_sum R A x (fun j => (j + m * i)%N) (fun j => j) 0 m) => j /andP [_ Hj].
  + apply: leq_trans HA. exact: dense_index_col Hj (ltn_ord i).
  + exact: leq_trans Hj Hx.
- apply: (@plain_sum R A x (fun j => (i + m * j)%N) (fun j => j) 0 n) => j /andP [_ Hj].
  + apply: leq_trans HA. exact: dense_index_col (ltn_ord i) Hj.
  + exact: leq_trans Hj Hx.
Qed.

Lemma writes_eq n c (u v : 'cV[R]_n) r : u = v -> writes c u r -> writes c v r.
Proof. by move=> ->. Qed.

Lemma cu_dense_ok A b alpha beta m n rm c : (0 < m)%N -> (0 < n)%N ->
  (m * n <= size A)%N -> (n <= size b)%N -> (m <= size c)%N ->
  writes c (alpha *: (dense_matrix m n rm A *m vec n b) + beta *: vec m c)
    (cu_gemv rm (if rm then n else m) (if rm then m else n) alpha A (if rm then n else m) b beta c).
Proof.
move=> Hm Hn HA Hb Hc. rewrite -dense_mulE. case: rm.
- have HA' : (n * m <= size A)%N by rewrite mulnC.
  have := @cu_gemv_ok true n m alpha A b beta c Hn Hm HA' Hb Hc.
  apply: writes_eq. congr (_ *: _ + _). apply/matrixP => i k. rewrite !mxE.
  apply: eq_bigr => j _. by rewrite addnC mulnC.
- exact: (@cu_gemv_ok false m n alpha A b beta c Hm Hn HA Hb Hc).
Qed.

Lemma cu_dense_t_ok A b alpha beta m n rm c : (0 < m)%N -> (0 < n)%N ->
  (m * n <= size A)%N -> (m <= size b)%N -> (n <= size c)%N ->
  writes c (alpha *: ((dense_matrix m n rm A)^T *m vec m b) + beta *: vec n c)
    (cu_gemv (~~ rm) (if rm then n else m) (if rm then m else n) alpha A (if rm then n else m) b beta c).
Proof.
move=> Hm Hn HA Hb Hc. rewrite -dense_tmulE. case: rm => /=.
- have HA' : (n * m <= size A)%N by rewrite mulnC.
  have := @cu_gemv_ok false n m alpha A b beta c Hn Hm HA' Hb Hc.
  apply: writes_eq. congr (_ *: _ + _). apply/matrixP => i k. rewrite !mxE.
  apply: eq_bigr => j _. by rewrite addnC mulnC.
- exact: (@cu_gemv_ok true m n alpha A b beta c Hm Hn HA Hb Hc).
Qed.

(** The device arrays hold the same matrix *)
Lemma scipy_wf lines width data idx ptr : scipy_compressed lines width data idx ptr ->
  compressed_ok lines width data idx ptr.
Proof.
move=> [Hs So Hd Hi Ha]. split; first by rewrite Hs.
move=> i q Hi' /andP [_ Hq].
have Hl : (nth 0 ptr i.+1 <= last 0 ptr)%N.
{ rewrite (last_nth 0%N). case: ptr So Hs {Hd Hi Ha Hq} => [|p0 ptr] //= So [Hs].
  have := sorted_leq_nth leq_trans leqnn 0%N (s := p0 :: ptr) So i.+1 (size ptr).
  by rewrite !inE /= !ltnS Hs; apply. }
have Hq' := leq_trans Hq Hl.
split; [exact: leq_trans Hd | exact: leq_trans Hi |].
by apply: (all_nthP 0%N Ha); apply: leq_trans Hi.
Qed.

Lemma device_compressed lines width data idx ptr : scipy_compressed lines width data idx ptr ->
  let nnz := nth 0%N ptr lines in
  [/\ rd ptr lines = Some nnz, to_device data nnz = Some (take nnz data),
      to_device idx nnz = Some (take nnz idx), to_device ptr lines.+1 = Some ptr &
      compressed_ok lines width (take nnz data) (take nnz idx) ptr
      /\ forall i q, (i < lines)%N -> (nth 0 ptr i <= q < nth 0 ptr i.+1)%N ->
           (take nnz data)`_q = data`_q /\ nth 0%N (take nnz idx) q = nth 0%N idx q].
Proof.
move=> H; have [Hs So Hd Hi Ha] := H; move=> nnz.
have E : last 0%N ptr = nnz by rewrite (last_nth 0%N) /nnz; case: ptr Hs {So Hd Hi Ha H nnz} => //= p0 ptr [->].
rewrite E in Hd Hi.
have Hq i q : (i < lines)%N -> (nth 0 ptr i <= q < nth 0 ptr i.+1)%N -> (q < nnz)%N.
{ move=> Hil /andP [_ Hq]. apply: leq_trans Hq _.
  apply: (sorted_leq_nth leq_trans leqnn 0%N So); rewrite ?inE ?Hs //. }
rewrite /to_device Hd Hi Hs leqnn. split => //; last 2 first.
- by rewrite -Hs take_size.
- split; last first.
  { move=> i q H1 H2. have H3 := Hq i q H1 H2. by rewrite !nth_take. }
  split; first by rewrite Hs.
  move=> i q H1 H2. have H3 := Hq i q H1 H2.
  have [_ Hok] := scipy_wf H. have [_ _ Hw] := Hok i q H1 H2.
  by rewrite !size_takel // nth_take.
- by rewrite (rdE 0%N) // Hs.
Qed.

Lemma device_csr m n data idx ptr : scipy_compressed m n data idx ptr ->
  let nnz := nth 0%N ptr m in
  csr_matrix m n (take nnz data) (take nnz idx) ptr = csr_matrix m n data idx ptr.
Proof.
move=> H nnz. have [_ _ _ _ [_ Hq]] := device_compressed H.
apply/matrixP => i j. rewrite !mxE big_nat_cond [in RHS]big_nat_cond.
apply: congr_big => // q.
- case Hb: (_ <= q < _)%N => //=. by have [_ ->] := Hq i q (ltn_ord i) Hb.
- move=> /andP [Hb _]. by have [-> _] := Hq i q (ltn_ord i) Hb.
Qed.

Lemma device_csc m n data idx ptr : scipy_compressed n m data idx ptr ->
  let nnz := nth 0%N ptr n in
  csc_matrix m n (take nnz data) (take nnz idx) ptr = csc_matrix m n data idx ptr.
Proof.
move=> H nnz. have [_ _ _ _ [_ Hq]] := device_compressed H.
apply/matrixP => i j. rewrite !mxE big_nat_cond [in RHS]big_nat_cond.
apply: congr_big => // q.
- case Hb: (_ <= q < _)%N => //=. by have [_ ->] := Hq j q (ltn_ord j) Hb.
- move=> /andP [Hb _]. by have [-> _] := Hq j q (ltn_ord j) Hb.
Qed.

Lemma spmv_n_ok lines width data idx ptr alpha beta b c :
  compressed_ok lines width data idx ptr -> (width <= size b)%N -> (lines <= size c)%N ->
  writes c (alpha *: (csr_matrix lines width data idx ptr *m vec width b) + beta *: vec lines c)
    (spmv false alpha (Descr lines width data idx ptr) width b beta lines c).
Proof.
move=> Hok Hb Hc. rewrite /spmv /= !eqxx /= -csr_mulE //. apply: put_loop => // i.
rewrite mxE. exact: gather_ok Hok Hb (ltn_ord i).
Qed.

Lemma spmv_t_ok lines width data idx ptr alpha beta b c :
  compressed_ok lines width data idx ptr -> (lines <= size b)%N -> (width <= size c)%N ->
  writes c (alpha *: ((csr_matrix lines width data idx ptr)^T *m vec lines b) + beta *: vec width c)
    (spmv true alpha (Descr lines width data idx ptr) lines b beta width c).
Proof.
move=> Hok Hb Hc. rewrite /spmv /= !eqxx /= -csr_scattered.
have [c1 [E1 V1 S1 O1]] : writes c (0 *: (0 : 'cV[R]_width) + beta *: vec width c)
    (for_ 0 width 1 (fun i c => do u <- Some 0; put 0 beta c i u) c).
{ apply: put_loop => // i. by rewrite mxE. }
rewrite E1 /=. have Hc1 : (width <= size c1)%N by rewrite S1.
have [c2 [E2 V2 S2 O2]] := scatter_plus alpha Hok Hb Hc1.
exists c2; split; rewrite ?E2 ?S2 ?S1 //.
- by rewrite V2 V1 scale0r add0r addrC.
- by move=> k Hk; rewrite O2 // O1.
Qed.

Lemma csc_as_csr m n data idx ptr : csc_matrix m n data idx ptr = (csr_matrix n m data idx ptr)^T.
Proof. by apply/matrixP => i j; rewrite !mxE. Qed.

Definition is_dense (s : storage R) : bool := if s is Dense _ _ then true else false.

Lemma from_scipy_wf s m n : from_scipy s m n -> well_formed s m n.
Proof. by case: s => [rm A|d i p|d i p] /= H; [rewrite H|exact: scipy_wf|exact: scipy_wf]. Qed.

Lemma rd_nseq (T : Type) k d (D : T) : (d < k)%N -> rd (nseq k D) d = Some D.
Proof. by move=> H; rewrite (rdE D) ?size_nseq // nth_nseq H. Qed.

(** ** C60 *)

(** Dense matrices of any shape, sparse square matrices: on every one of the
    devices the products are those of the matrix given.  The product with the
    transpose added to a dense result is right only if nothing is to be added. *)
Theorem C60_products_partial s m n (devices d : nat) v w t c e :
  from_scipy s m n -> (0 < m)%N -> (0 < n)%N -> is_dense s || (m == n) -> (d < devices)%N ->
  (n <= size v)%N -> (m <= size c)%N -> (m <= size w)%N -> (n <= size e)%N ->
  exists2 M, copy_host_to_device s m n devices = Some M &
  [/\ writes c (denotes s m n *m vec n v) (cu_dot M d m n v c),
      writes c (vec m c + t *: (denotes s m n *m vec n v)) (cu_dot_plus M d m n v t c),
      writes e ((denotes s m n)^T *m vec m w) (cu_transpose_dot M d m n w e) &
      ~~ is_dense s \/ t = 0 \/ vec n e = 0 ->
      writes e (vec n e + t *: ((denotes s m n)^T *m vec m w)) (cu_transpose_dot_plus M d m n w t e)].
Proof.
case: s => [rm A|data idx ptr|data idx ptr] /= Hs Hm Hn Hd Hk Hv Hc Hw He; rewrite /copy_host_to_device /=.
- rewrite /to_device Hs leqnn /= -Hs take_size. eexists; first by [].
  have HA : (m * n <= size A)%N by rewrite Hs.
  rewrite /cu_dot /cu_dot_plus /cu_transpose_dot /cu_transpose_dot_plus (rd_nseq _ Hk) /=.
  split.
  + apply: writes_eq (cu_dense_ok 1 0 rm Hm Hn HA Hv Hc). by rewrite scale1r scale0r addr0.
  + apply: writes_eq (cu_dense_ok t 1 rm Hm Hn HA Hv Hc). by rewrite scale1r addrC.
  + apply: writes_eq (cu_dense_t_ok 1 0 rm Hm Hn HA Hw He). by rewrite scale1r scale0r addr0.
  + rewrite /cu_dense_transposed_matvec_plus. case: eqP => [-> _|Ht [//|[//|E]]].
    { exists e; split => //. by rewrite scale0r addr0. }
    apply: writes_eq (cu_dense_t_ok t 0 rm Hm Hn HA Hw He). by rewrite E scaler0 add0r addr0.
- have {Hd} Hd := eqP Hd. subst n.
  have [E1 E2 E3 E4 [Hok _]] := device_compressed Hs.
  rewrite E1 /= E2 /= E3 /= E4 /=. eexists; first by [].
  rewrite /cu_dot /cu_dot_plus /cu_transpose_dot /cu_transpose_dot_plus (rd_nseq _ Hk) /=.
  rewrite -(device_csr Hs). split.
  + apply: writes_eq (spmv_n_ok 1 0 Hok Hv Hc). by rewrite scale1r scale0r addr0.
  + apply: writes_eq (spmv_n_ok t 1 Hok Hv Hc). by rewrite scale1r addrC.
  + apply: writes_eq (spmv_t_ok 1 0 Hok Hw He). by rewrite scale1r scale0r addr0.
  + move=> _. apply: writes_eq (spmv_t_ok t 1 Hok Hw He). by rewrite scale1r addrC.
- have {Hd} Hd := eqP Hd. subst n.
  have [E1 E2 E3 E4 [Hok _]] := device_compressed Hs.
  rewrite E1 /= E2 /= E3 /= E4 /=. eexists; first by [].
  rewrite /cu_dot /cu_dot_plus /cu_transpose_dot /cu_transpose_dot_plus (rd_nseq _ Hk) /=.
  rewrite -(device_csc Hs) csc_as_csr trmxK. split.
  + apply: writes_eq (spmv_t_ok 1 0 Hok Hv Hc). by rewrite scale1r scale0r addr0.
  + apply: writes_eq (spmv_t_ok t 1 Hok Hv Hc). by rewrite scale1r addrC.
  + apply: writes_eq (spmv_n_ok 1 0 Hok Hw He). by rewrite scale1r scale0r addr0.
  + move=> _. apply: writes_eq (spmv_n_ok t 1 Hok Hw He). by rewrite scale1r addrC.
Qed.

(** The full statement fails for dense matrices: the product with the transpose
    replaces the vector it should be added to *)
Theorem C60_dense_transposed_refuted rm A m n (devices d : nat) w t e :
  size A = (m * n)%N -> (0 < m)%N -> (0 < n)%N -> (d < devices)%N ->
  (m <= size w)%N -> (n <= size e)%N -> t != 0 -> vec n e != 0 ->
  exists2 M, copy_host_to_device (Dense rm A) m n devices = Some M &
  writes e (t *: ((dense_matrix m n rm A)^T *m vec m w)) (cu_transpose_dot_plus M d m n w t e) /\
  ~ writes e (vec n e + t *: ((dense_matrix m n rm A)^T *m vec m w))
      (cu_transpose_dot_plus M d m n w t e).
Proof.
move=> Hs Hm Hn Hk Hw He Ht He0. rewrite /copy_host_to_device /= /to_device Hs leqnn /= -Hs take_size.
eexists; first by [].
rewrite /cu_transpose_dot_plus (rd_nseq _ Hk) /= /cu_dense_transposed_matvec_plus (negbTE Ht).
have HA : (m * n <= size A)%N by rewrite Hs.
have H := cu_dense_t_ok t 0 rm Hm Hn HA Hw He. split.
- apply: writes_eq H. by rewrite scale0r addr0.
- move: H => [c1 [-> V1 _ _]] [c2 [[<-] V2 _ _]]. move: V1. rewrite V2 scale0r addr0 -[RHS]add0r.
  move=> /addIr E. by rewrite E eqxx in He0.
Qed.

(** CSR matrices of any shape: the products with the matrix itself *)
Theorem C60_csr_partial m n (devices d : nat) data idx ptr v t c :
  scipy_compressed m n data idx ptr -> (d < devices)%N -> (n <= size v)%N -> (m <= size c)%N ->
  exists2 M, copy_host_to_device (Csr data idx ptr) m n devices = Some M &
  writes c (csr_matrix m n data idx ptr *m vec n v) (cu_dot M d m n v c) /\
  writes c (vec m c + t *: (csr_matrix m n data idx ptr *m vec n v)) (cu_dot_plus M d m n v t c).
Proof.
move=> Hs Hk Hv Hc. have [E1 E2 E3 E4 [Hok _]] := device_compressed Hs.
rewrite /copy_host_to_device /= E1 /= E2 /= E3 /= E4 /=. eexists; first by [].
rewrite /cu_dot /cu_dot_plus (rd_nseq _ Hk) /= -(device_csr Hs). split.
- apply: writes_eq (spmv_n_ok 1 0 Hok Hv Hc). by rewrite scale1r scale0r addr0.
- apply: writes_eq (spmv_n_ok t 1 Hok Hv Hc). by rewrite scale1r addrC.
Qed.

(** The products with the transpose of a rectangular sparse matrix are rejected:
    the vectors are described with the sizes swapped *)
Theorem C60_sparse_transposed_refuted s m n (devices d : nat) M w t e :
  ~~ is_dense s -> m != n -> copy_host_to_device s m n devices = Some M ->
  cu_transpose_dot M d m n w e = None /\ cu_transpose_dot_plus M d m n w t e = None.
Proof.
move=> Hd Hmn. rewrite /copy_host_to_device. case E: device_copy => [D|] //= [<-].
rewrite /cu_transpose_dot /cu_transpose_dot_plus.
case Er: (rd _ d) => [D'|] //=.
have {Er} -> : D' = D.
{ have := rd_some Er. rewrite size_nseq => Hdk. by move: Er; rewrite rd_nseq // => [[]]. }
case: s Hd E => [//|data idx ptr|data idx ptr] _ /=.
- case: (rd ptr m) => //= nnz. case: (to_device data nnz) => //= a.
  case: (to_device idx nnz) => //= b. case: (to_device ptr m.+1) => //= p [<-]. by rewrite /spmv /= eq_sym (negbTE Hmn).
- case: (rd ptr n) => //= nnz. case: (to_device data nnz) => //= a.
  case: (to_device idx nnz) => //= b. case: (to_device ptr m.+1) => //= p [<-]. by rewrite /spmv /= eq_sym (negbTE Hmn) orbT.
Qed.

(** A rectangular CSC matrix: either the copy reads beyond the index pointer, or
    the copy is too short for the product *)
Theorem C60_csc_refuted m n (devices d : nat) data idx ptr v t c :
  scipy_compressed n m data idx ptr -> m != n ->
  match copy_host_to_device (Csc data idx ptr) m n devices with
  | None => True
  | Some M => cu_dot M d m n v c = None /\ cu_dot_plus M d m n v t c = None
  end.
Proof.
move=> Hs Hmn. have [E1 E2 E3 _ _] := device_compressed Hs. have [Hp _ _ _ _] := Hs.
rewrite /copy_host_to_device /= E1 /= E2 /= E3 /= /to_device Hp ltnS. case: leqP => //= Hle.
have Hlt : (m < n)%N by rewrite ltn_neqAle Hmn.
rewrite /cu_dot /cu_dot_plus. case Er: (rd _ d) => [D'|] //=.
have {Er} -> : D' = DCsc (Descr n m (take (nth 0%N ptr n) data) (take (nth 0%N ptr n) idx) (take m.+1 ptr)).
{ have := rd_some Er. rewrite size_nseq => Hdk. by move: Er; rewrite rd_nseq // => [[]]. }
have H alpha y : for_ 0 n 1 (fun line y => scatter (take (nth 0%N ptr n) data) (take (nth 0%N ptr n) idx)
    (take m.+1 ptr) v alpha line y) y = None.
{ apply: (for_none (k := m)) => // y'. rewrite /scatter.
  case: (rd (take m.+1 ptr) m) => //= p0; case Ep: (rd (take m.+1 ptr) m.+1) => [p1|] //=;
  by have := rd_some Ep; rewrite size_takel ?Hp // ltnn. }
rewrite /spmv /= !eqxx /=. by split; case: for_ => //= y; rewrite H.
Qed.
(** The vector operations on a device give the results of those on the CPU *)
Theorem C60_vectors x n (a : R) y : (n <= size x)%N -> (n <= size y)%N ->
  [/\ cu_copy_vector x n y = copy_vector x n y,
      cu_copy_scaled_vector x n a y = copy_scaled_vector x n a y,
      cu_subtract_scaled_vector x n a y = subtract_scaled_vector x n a y &
      cu_inner_product x y n = inner_product x y n].
Proof.
move=> Hx Hy. split.
- exact: (@C55_copy R Double).
- exact: (@C55_copy_scaled R Double).
- rewrite /cu_subtract_scaled_vector. case: eqP => [->|_]; last exact: (@C55_subtract_scaled R Double).
  apply: writes_uniq (subtract_scaled_vector_ok 0 Hx Hy). exists y; split => //. by rewrite scale0r subr0.
- exact: (@C55_inner_product R Double).
Qed.

(** The products of square matrices on a device are those on the CPU *)
Theorem C60_same_partial s n (devices d : nat) v t c :
  from_scipy s n n -> (0 < n)%N -> (d < devices)%N -> (n <= size v)%N -> (n <= size c)%N ->
  exists2 M, copy_host_to_device s n n devices = Some M &
  [/\ cu_dot M d n n v c = dot s n n v c,
      cu_dot_plus M d n n v t c = dot_plus s n n v t c,
      cu_transpose_dot M d n n v c = transpose_dot s n n v c &
      ~~ is_dense s -> cu_transpose_dot_plus M d n n v t c = transpose_dot_plus s n n v t c].
Proof.
move=> Hs Hn Hk Hv Hc. have Hw := from_scipy_wf Hs.
have Hd : is_dense s || (n == n) by rewrite eqxx orbT.
have [M E [H1 H2 H3 H4]] := C60_products_partial t Hs Hn Hn Hd Hk Hv Hc Hv Hc.
exists M => //. split.
- exact: writes_uniq H1 (dot_ok Hw Hv Hc).
- exact: writes_uniq H2 (dot_plus_ok t Hw Hv Hc).
- exact: writes_uniq H3 (transpose_dot_ok Hw Hv Hc).
- move=> Hd'. exact: writes_uniq (H4 (or_introl Hd')) (transpose_dot_plus_ok t Hw Hv Hc).
Qed.

(** Affine matrix functions A + t B of square matrices on any of the devices *)
Theorem C60_affine_partial (A : storage R) (B : option (storage R)) n (devices d : nat) t p v c :
  from_scipy A n n -> (forall s, B = Some s -> from_scipy s n n /\ denotes s n n <> 0) ->
  (0 < n)%N -> (d < devices)%N -> (n <= size v)%N -> (n <= size c)%N ->
  exists2 op, new_cu_affine A B n n devices = Some op &
  let op := cu_set_parameters op (t :: p) in
  writes c ((denotes A n n + t *: matrix_of_B B n n) *m vec n v) (cu_affine_dot op d n n v c) /\
  ((forall s, B = Some s -> ~~ is_dense s) \/ t = 0 ->
   writes c ((denotes A n n + t *: matrix_of_B B n n)^T *m vec n v)
     (cu_affine_transpose_dot op d n n v c)).
Proof.
move=> HA HB Hn Hk Hv Hc.
have Hd s : is_dense s || (n == n) by rewrite eqxx orbT.
have [M EM [H1 _ H3 _]] := C60_products_partial t HA Hn Hn (Hd _) Hk Hv Hc Hv Hc.
rewrite /new_cu_affine EM /=.
case: B HB => [s|] HB.
- have [Hs Hnz] := HB s erefl. have Hws := from_scipy_wf Hs.
  have [MB EB _] := C60_products_partial t Hs Hn Hn (Hd _) Hk Hv Hc Hv Hc.
  rewrite EB /=. case Eid: is_identity_matrix (identity_total Hws) => [b|] [b' // [Eb]] /=.
  case: b {Eb b'} Eid => Eid; first by case: Hnz; exact: identity_zero Eid.
  eexists; first by []. rewrite /cu_affine_dot /cu_affine_transpose_dot /=. split.
  + apply: writes_then H1 _ => c1 E1 S1 /=. rewrite mulmxDl -scalemxAl -E1.
    have Hc1 : (n <= size c1)%N by rewrite S1.
    have [MB' EB' [_ K _ _]] := C60_products_partial t Hs Hn Hn (Hd _) Hk Hv Hc1 Hv Hc1.
    move: EB'; rewrite EB => [[E]]. by rewrite -E in K.
  + move=> Ht. apply: writes_then H3 _ => c1 E1 S1 /=.
    rewrite linearD linearZ /= mulmxDl -scalemxAl -E1.
    have Hc1 : (n <= size c1)%N by rewrite S1.
    have [MB' EB' [_ _ _ K]] := C60_products_partial t Hs Hn Hn (Hd _) Hk Hv Hc1 Hv Hc1.
    move: EB'; rewrite EB => [[E]]. rewrite -E in K. apply: K.
    case: Ht => [Ht|->]; [by left; exact: Ht | by right; left].
- eexists; first by []. rewrite /cu_affine_dot /cu_affine_transpose_dot /= ltnn.
  have Hsub c1 : size c1 = size c ->
      writes c1 (vec n c1 + t *: (eye R n n *m vec n v)) (cu_subtract_scaled_vector v n (- t) c1).
  { move=> S1. have Hc1 : (n <= size c1)%N by rewrite S1.
    have [_ _ -> _] := C60_vectors (- t) Hv Hc1.
    have := add_scaled_eye t Hv Hc1. by rewrite /add_scaled_vector minnn. }
  split.
  + apply: writes_then H1 _ => c1 E1 S1 /=. rewrite mulmxDl -scalemxAl -E1. exact: Hsub.
  + move=> _. apply: writes_then H3 _ => c1 E1 S1 /=.
    rewrite linearD linearZ /= mulmxDl -scalemxAl -E1 trmx_eye. exact: Hsub.
Qed.

(** With a dense B the product with the transpose loses the part of A *)
Theorem C60_affine_dense_refuted (A : storage R) rm (B : seq R) n (devices d : nat) t p v c :
  from_scipy A n n -> size B = (n * n)%N -> dense_matrix n n rm B <> 0 ->
  (0 < n)%N -> (d < devices)%N -> (n <= size v)%N -> (n <= size c)%N -> t != 0 ->
  (denotes A n n)^T *m vec n v != 0 ->
  exists2 op, new_cu_affine A (Some (Dense rm B)) n n devices = Some op &
  let op := cu_set_parameters op (t :: p) in
  writes c (t *: ((dense_matrix n n rm B)^T *m vec n v)) (cu_affine_transpose_dot op d n n v c) /\
  ~ writes c ((denotes A n n + t *: dense_matrix n n rm B)^T *m vec n v)
      (cu_affine_transpose_dot op d n n v c).
Proof.
move=> HA HB Hnz Hn Hk Hv Hc Ht Hav.
have Hd s : is_dense s || (n == n) by rewrite eqxx orbT.
have [M EM [_ _ H3 _]] := C60_products_partial t HA Hn Hn (Hd _) Hk Hv Hc Hv Hc.
have Hws : well_formed (Dense rm B) n n by rewrite /= HB.
have EB : copy_host_to_device (Dense rm B) n n devices = Some (nseq devices (DDense rm B)).
{ by rewrite /copy_host_to_device /= /to_device HB leqnn -HB take_size. }
have [b Eid] := identity_total Hws.
case: b Eid => Eid; first by case: Hnz; exact: identity_zero Eid.
exists (CuAffine M (Some (nseq devices (DDense rm B))) false None).
{ by rewrite /new_cu_affine EB Eid EM. }
have W : writes c (t *: ((dense_matrix n n rm B)^T *m vec n v))
  (cu_affine_transpose_dot (cu_set_parameters (CuAffine M (Some (nseq devices (DDense rm B))) false None) (t :: p))
     d n n v c).
{ rewrite /cu_affine_transpose_dot /=. apply: writes_then H3 _ => c1 E1 S1 /=.
  have Hc1 : (n <= size c1)%N by rewrite S1.
  have He : vec n c1 != 0 by rewrite E1.
  have [MB' EB' [K _]] := C60_dense_transposed_refuted rm HB Hn Hn Hk Hv Hc1 Ht He.
  move: EB'; rewrite EB => [[E]]. by rewrite -E in K. }
split => // W2. case: W => [c1 [E1 V1 _ _]]. case: W2 => [c2 [E2 V2 _ _]].
move: E2; rewrite E1 => [[E]]. move: V2. rewrite -E V1 linearD linearZ /= mulmxDl -scalemxAl -[LHS]add0r.
move=> /addIr E0. by rewrite -E0 eqxx in Hav.
Qed.
End Proofs.

Section Norms.
Variable R : rcfType.
Implicit Types x y : seq R.

Theorem C60_norms x n y : (n <= size x)%N -> (n <= size y)%N ->
  [/\ cu_euclidean_norm x n = euclidean_norm x n,
      cu_normalize_vector_in_place x n = normalize_vector_in_place x n &
      cu_normalize_vector_and_copy x n y = normalize_vector_and_copy x n y].
Proof.
move=> Hx Hy. split.
- exact: (@C55_norm R Double).
- exact: (@C55_normalize_in_place R Double).
- exact: (@C55_normalize_and_copy R Double).
Qed.
End Norms.

(** Concrete cases: a CSR matrix [[1 2] [0 3]] on two devices; a dense one *)
Example C60_scipy_ex : from_scipy (Csr [:: 1; 2%:R; 3%:R : rat] [:: 0; 1; 1]%N [:: 0; 2; 3]%N) 2 2.
Proof. by split. Qed.

Example C60_scipy_rect_ex : from_scipy (Csc [:: 1; 2%:R; 3%:R : rat] [:: 0; 1; 1]%N [:: 0; 1; 2; 3]%N) 2 3 /\
  copy_host_to_device (Csc [:: 1; 2%:R; 3%:R : rat] [:: 0; 1; 1]%N [:: 0; 1; 2; 3]%N) 2 3 1 =
  Some [:: DCsc (Descr 3 2 [:: 1; 2%:R; 3%:R : rat] [:: 0; 1; 1]%N [:: 0; 1; 2]%N)].
Proof. by split. Qed.

Example C60_dot_ex : obind (fun M => cu_dot M 1 2 2 [:: 1; 1] [:: 7%:R; 7%:R])
  (copy_host_to_device (Csr [:: 1; 2%:R; 3%:R : rat] [:: 0; 1; 1]%N [:: 0; 2; 3]%N) 2 2 2)
  = Some [:: 3%:R; 3%:R].
Proof. by vm_compute. Qed.

(** [[1 2] [3 4]]^T (1, 1) + (1, 1) is (5, 7); the device gives (4, 6) *)
Example C60_dense_ex : obind (fun M => cu_transpose_dot_plus M 0 2 2 [:: 1; 1] 1 [:: 1; 1])
  (copy_host_to_device (Dense true [:: 1; 2%:R; 3%:R; 4%:R : rat]) 2 2 1) = Some [:: 4%:R; 6%:R].
Proof. by vm_compute. Qed.

Definition C60_assumptions := (@C60_products_partial, @C60_dense_transposed_refuted, @C60_csr_partial,
  @C60_sparse_transposed_refuted, @C60_csc_refuted, @C60_vectors, @C60_same_partial,
  @C60_affine_partial, @C60_affine_dense_refuted, @C60_norms).
Print Assumptions C60_assumptions.
