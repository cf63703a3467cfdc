(** Proofs about the kernels. *)
From mathcomp Require Import all_ssreflect all_algebra zify.
From Verif Require Import Mem KernelModel KernelSpec.
Set Implicit Arguments.
Unset Strict Implicit.
Unset Printing Implicit Defensive.
Import GRing.Theory Num.Theory Order.TTheory.
Local Open Scope ring_scope.

Ltac cases_lia :=
  repeat match goal with
  | |- context [if ?b then _ else _] =>
      let H := fresh in case H: b; try (exfalso; lia)
  end; try reflexivity; try (congr (nth _ _ _); lia); try (exfalso; lia).

Section Proofs.
Variable R : comRingType.
Implicit Types (A b c data diag sup : seq R) (alpha : R) (idx ptr : seq nat).

Lemma term_ok A ia b ib : (ia < size A)%N -> (ib < size b)%N ->
  term A ia b ib = Some (A`_ia * b`_ib).
Proof. by move=> HA Hb; rewrite /term (rdE 0 HA) /= (rdE 0 Hb). Qed.

Lemma add_term_ok A ia b ib s : (ia < size A)%N -> (ib < size b)%N ->
  add_term A ia b ib s = Some (s + A`_ia * b`_ib).
Proof. by move=> HA Hb; rewrite /add_term term_ok. Qed.

(** Unrolled loop plus remainder loop compute the plain sum. *)
Lemma unrolled_sum A b (ia : nat -> nat) (ia5 : nat -> nat -> nat) n :
  (n <= size b)%N -> (forall j, (j < n)%N -> (ia j < size A)%N) ->
  (forall j k, ia5 j k = ia (j + k)%N) ->
  let chunked := (n - n %% 5)%N in
  (do sum <- for_ 0 chunked 5 (fun j sum => five A (ia5 j) b j sum) 0;
   for_ chunked n 1 (fun j sum => add_term A (ia j) b j sum) sum)
  = Some (\sum_(0 <= j < n) A`_(ia j) * b`_j).
Proof.
  move=> Hb HA Hia chunked.
  have Hc : (chunked <= n)%N by apply: leq_subr.
  have Hd : (5 %| chunked - 0)%N.
  { rewrite subn0 /chunked {1}(divn_eq n 5) addnK. exact: dvdn_mull. }
  pose I k (s : R) := s = \sum_(0 <= j < k) A`_(ia j) * b`_j.
  have [s -> Hs] : exists2 s, for_ 0 chunked 5 (fun j sum => five A (ia5 j) b j sum) 0 = Some s
      & I chunked s.
  { apply: for_inv => //; first by rewrite /I big_geq.
    move=> k s _ Hk ->.
    have Hkn : (k + 5 <= n)%N by apply: leq_trans Hc.
    have Hlt : forall d, (d < 5)%N -> (k + d < n)%N.
    { move=> d Hd5. apply: leq_trans Hkn. by rewrite -addnS leq_add2l. }
    have H : forall d, (d < 5)%N -> term A (ia5 k d) b (k + d)%N
        = Some (A`_(ia (k + d)%N) * b`_(k + d)).
    { move=> d Hd5. rewrite Hia. apply: term_ok; first exact: HA (Hlt _ Hd5).
      exact: leq_trans (Hlt _ Hd5) Hb. }
    rewrite /five. have := H 0%N isT. rewrite addn0 => -> /=.
    rewrite !H //=. eexists; first reflexivity.
    rewrite /I !addnS !addn0 !big_nat_recr //=. by rewrite !addrA. }
  rewrite /=.
  have [s' -> ->] : exists2 s', for_ chunked n 1 (fun j sum => add_term A (ia j) b j sum) s = Some s'
      & I n s'; last by [].
  apply: for1_inv => // k s' /andP [Hk1 Hk2] ->.
  rewrite add_term_ok; last first.
  - exact: leq_trans Hk2 Hb.
  - exact: HA.
  - eexists; first reflexivity. by rewrite /I big_nat_recr.
Qed.

Lemma plain_sum A b (ia ib : nat -> nat) lo hi :
  (forall j, (lo <= j < hi)%N -> (ia j < size A)%N) ->
  (forall j, (lo <= j < hi)%N -> (ib j < size b)%N) ->
  for_ lo hi 1 (fun j sum => add_term A (ia j) b (ib j) sum) 0
  = Some (\sum_(lo <= j < hi) A`_(ia j) * b`_(ib j)).
Proof.
  move=> HA Hb.
  case: (leqP hi lo) => Hle; first by rewrite for_empty // big_geq.
  pose I k (s : R) := s = \sum_(lo <= j < k) A`_(ia j) * b`_(ib j).
  have [s' -> ->] : exists2 s', for_ lo hi 1 (fun j sum => add_term A (ia j) b (ib j) sum) 0 = Some s'
      & I hi s'; last by [].
  apply: for1_inv; [exact: ltnW|by rewrite /I big_geq|].
  move=> k s' Hk ->. rewrite add_term_ok; [|exact: HA|exact: Hb].
  eexists; first reflexivity. rewrite /I big_nat_recr //. by case/andP: Hk.
Qed.

(** A loop that updates entry i of c in iteration i. *)
Lemma write_loop (f : nat -> seq R -> option (seq R)) (v : nat -> R -> R) n c :
  (n <= size c)%N ->
  (forall i c', (i < n)%N -> size c' = size c -> f i c' = wr c' i (v i c'`_i)) ->
  exists2 c', for_ 0 n 1 f c = Some c' &
    size c' = size c /\ forall k, c'`_k = if (k < n)%N then v k c`_k else c`_k.
Proof.
  move=> Hn Hf.
  pose I i (c' : seq R) := size c' = size c /\
    forall k, c'`_k = if (k < i)%N then v k c`_k else c`_k.
  apply: (@for1_inv _ I); first exact: leq0n.
  - by split.
  - move=> i c' /andP [_ Hi] [Hs Hc']. rewrite Hf //.
    have Hi' : (i < size c')%N by rewrite Hs; apply: leq_trans Hn.
    rewrite wrE //. eexists; first reflexivity.
    have E : wr c' i (v i c'`_i) = Some (set_nth (v i c'`_i) c' i (v i c'`_i)) by rewrite wrE.
    split; first by rewrite (size_wr E).
    move=> k. rewrite (nth_wr 0 k E) ltnS !Hc' ltnn.
    by case: (ltngtP k i) => [||->].
Qed.

Lemma store_loop_fun (f : nat -> option R) (g : nat -> R) n c :
  (n <= size c)%N -> (forall i, (i < n)%N -> f i = Some (g i)) ->
  writes c (\col_(i < n) g i) (for_ 0 n 1 (fun i c => do s <- f i; store c i s) c).
Proof.
  move=> Hn Hf.
  have Hb : forall i c', (i < n)%N -> size c' = size c ->
      (do s <- f i; store c' i s) = wr c' i ((fun i _ => g i) i c'`_i).
  { move=> i c' Hi _. by rewrite Hf. }
  have [c' E [Hs Hc]] := write_loop (v := fun i _ => g i) Hn Hb.
  exists c'; split => //.
    + apply/matrixP => i j. by rewrite !mxE Hc ltn_ord.
    + move=> k Hk. by rewrite Hc ltnNge Hk.
Qed.

Lemma store_loop (f : nat -> option R) n c (v : 'cV[R]_n) :
  (n <= size c)%N -> (forall i : 'I_n, f i = Some (v i 0)) ->
  writes c (v) (for_ 0 n 1 (fun i c => do s <- f i; store c i s) c).
Proof.
  move=> Hn Hf. pose g i := if insub i is Some o then v o 0 else 0.
  have -> : v = \col_(i < n) g i by apply/matrixP => i j; rewrite !mxE /g valK ord1.
  apply: store_loop_fun => // i Hi. by rewrite (Hf (Ordinal Hi)) /g insubT.
Qed.

Lemma accumulate_loop_fun (f : nat -> option R) (g : nat -> R) n c :
  (n <= size c)%N -> (forall i, (i < n)%N -> f i = Some (g i)) ->
  writes c (vec n c + \col_(i < n) g i)
    (for_ 0 n 1 (fun i c => do s <- f i; accumulate c i s) c).
Proof.
  move=> Hn Hf.
  have Hb : forall i c', (i < n)%N -> size c' = size c ->
      (do s <- f i; accumulate c' i s) = wr c' i ((fun i x => x + g i) i c'`_i).
  { move=> i c' Hi Hs. rewrite Hf //= /accumulate (rdE 0) //. rewrite Hs. exact: leq_trans Hn. }
  have [c' E [Hs Hc]] := write_loop (v := fun i x => x + g i) Hn Hb.
  exists c'; split => //.
    + apply/matrixP => i j. by rewrite !mxE Hc ltn_ord.
    + move=> k Hk. by rewrite Hc ltnNge Hk.
Qed.

Lemma accumulate_loop (f : nat -> option R) n c (v : 'cV[R]_n) :
  (n <= size c)%N -> (forall i : 'I_n, f i = Some (v i 0)) ->
  writes c (vec n c + v) (for_ 0 n 1 (fun i c => do s <- f i; accumulate c i s) c).
Proof.
  move=> Hn Hf. pose g i := if insub i is Some o then v o 0 else 0.
  have -> : v = \col_(i < n) g i by apply/matrixP => i j; rewrite !mxE /g valK ord1.
  apply: accumulate_loop_fun => // i Hi. by rewrite (Hf (Ordinal Hi)) /g insubT.
Qed.

Lemma writes_refl n c (v : 'cV[R]_n) : v = vec n c -> writes c v (Some c).
Proof. by move=> ->; exists c. Qed.

(** ** Dense kernels *)

Lemma dense_index_row m n i j : (i < m)%N -> (j < n)%N -> (i * n + j < m * n)%N.
Proof.
  move=> Hi Hj. apply: leq_trans (_ : (i.+1 * n <= _)%N); last by rewrite leq_mul2r Hi orbT.
  by rewrite mulSn addnC ltn_add2r.
Qed.

Lemma dense_index_col m n i j : (i < m)%N -> (j < n)%N -> (i + m * j < m * n)%N.
Proof.
  move=> Hi Hj. apply: leq_trans (_ : (m * j.+1 <= _)%N); last by rewrite leq_mul2l Hj orbT.
  by rewrite mulnS ltn_add2r.
Qed.

Lemma dense_row A b m n rm i : (m * n <= size A)%N -> (n <= size b)%N -> (i < m)%N ->
  (if rm then row_sum_row_major A b n i else row_sum_col_major A b m n i)
  = Some (\sum_(0 <= j < n) A`_(if rm then (i * n + j)%N else (i + m * j)%N) * b`_j).
Proof.
  move=> HA Hb Hi. case: rm.
  - apply: (@unrolled_sum A b (fun j => (i * n + j)%N) (fun j k => (i * n + j + k)%N)) => //.
    + move=> j Hj. apply: leq_trans HA. exact: dense_index_row.
    + move=> j k. by rewrite addnA.
  - apply: (@plain_sum A b (fun j => (i + m * j)%N) id).
    + move=> j /andP [_ Hj]. apply: leq_trans HA. exact: dense_index_col.
    + move=> j /andP [_ Hj]. exact: leq_trans Hb.
Qed.

Lemma dense_col A b m n rm j : (m * n <= size A)%N -> (m <= size b)%N -> (j < n)%N ->
  (if rm then col_sum_row_major A b m n j else col_sum_col_major A b m j)
  = Some (\sum_(0 <= i < m) A`_(if rm then (i * n + j)%N else (i + m * j)%N) * b`_i).
Proof.
  move=> HA Hb Hj. case: rm.
  - apply: (@plain_sum A b (fun i => (i * n + j)%N) id).
    + move=> i /andP [_ Hi]. apply: leq_trans HA. exact: dense_index_row.
    + move=> i /andP [_ Hi]. exact: leq_trans Hb.
  - apply: (@unrolled_sum A b (fun i => (i + m * j)%N) (fun i k => (i + k + m * j)%N)) => //.
    move=> i Hi. apply: leq_trans HA. exact: dense_index_col.
Qed.

Lemma dense_mulE A b m n rm :
  \col_(i < m) (\sum_(0 <= j < n) A`_(if rm then (i * n + j)%N else (i + m * j)%N) * b`_j)
  = dense_matrix m n rm A *m vec n b.
Proof.
  apply/matrixP => i k. rewrite !mxE big_mkord. apply: eq_bigr => j _. by rewrite !mxE.
Qed.

Lemma dense_tmulE A b m n rm :
  \col_(j < n) (\sum_(0 <= i < m) A`_(if rm then (i * n + j)%N else (i + m * j)%N) * b`_i)
  = (dense_matrix m n rm A)^T *m vec m b.
Proof.
  apply/matrixP => j k. rewrite !mxE big_mkord. apply: eq_bigr => i _. by rewrite !mxE.
Qed.

Lemma dense_matvec_ok A b m n rm c :
  (m * n <= size A)%N -> (n <= size b)%N -> (m <= size c)%N ->
  writes c (dense_matrix m n rm A *m vec n b) (dense_matvec A b m n rm c).
Proof.
  move=> HA Hb Hc. rewrite -dense_mulE. apply: store_loop => // i.
  by rewrite mxE; exact: dense_row.
Qed.

Lemma dense_transposed_matvec_ok A b m n rm c :
  (m * n <= size A)%N -> (m <= size b)%N -> (n <= size c)%N ->
  writes c ((dense_matrix m n rm A)^T *m vec m b) (dense_transposed_matvec A b m n rm c).
Proof.
  move=> HA Hb Hc. rewrite -dense_tmulE. apply: store_loop => // i.
  by rewrite mxE; exact: dense_col.
Qed.

Lemma scaled_accumulate_loop_fun (f : nat -> option R) (g : nat -> R) alpha n c :
  (n <= size c)%N -> (forall i, (i < n)%N -> f i = Some (g i)) ->
  writes c (vec n c + alpha *: \col_(i < n) g i)
    (for_ 0 n 1 (fun i c => do s <- f i; accumulate c i (alpha * s)) c).
Proof.
  move=> Hn Hf.
  have Hb : forall i c', (i < n)%N -> size c' = size c ->
      (do s <- f i; accumulate c' i (alpha * s)) = wr c' i ((fun i x => x + alpha * g i) i c'`_i).
  { move=> i c' Hi Hs. rewrite Hf //= /accumulate (rdE 0) //. rewrite Hs. exact: leq_trans Hn. }
  have [c' E [Hs Hc]] := write_loop (v := fun i x => x + alpha * g i) Hn Hb.
  exists c'; split => //.
  + apply/matrixP => i j. by rewrite !mxE Hc ltn_ord.
  + move=> k Hk. by rewrite Hc ltnNge Hk.
Qed.

Lemma scaled_accumulate_loop (f : nat -> option R) alpha n c (v : 'cV[R]_n) :
  (n <= size c)%N -> (forall i : 'I_n, f i = Some (v i 0)) ->
  writes c (vec n c + alpha *: v) (for_ 0 n 1 (fun i c => do s <- f i; accumulate c i (alpha * s)) c).
Proof.
  move=> Hn Hf. pose g i := if insub i is Some o then v o 0 else 0.
  have -> : v = \col_(i < n) g i by apply/matrixP => i j; rewrite !mxE /g valK ord1.
  apply: scaled_accumulate_loop_fun => // i Hi. by rewrite (Hf (Ordinal Hi)) /g insubT.
Qed.

Lemma dense_matvec_plus_ok A b alpha m n rm c :
  (m * n <= size A)%N -> (n <= size b)%N -> (m <= size c)%N ->
  writes c (vec m c + alpha *: (dense_matrix m n rm A *m vec n b))
    (dense_matvec_plus A b alpha m n rm c).
Proof.
  move=> HA Hb Hc. rewrite /dense_matvec_plus. case: eqP => [->|_].
  - apply: writes_refl. by rewrite scale0r addr0.
  - rewrite -dense_mulE. apply: scaled_accumulate_loop => // i. by rewrite mxE; exact: dense_row.
Qed.

Lemma dense_transposed_matvec_plus_ok A b alpha m n rm c :
  (m * n <= size A)%N -> (m <= size b)%N -> (n <= size c)%N ->
  writes c (vec n c + alpha *: ((dense_matrix m n rm A)^T *m vec m b))
    (dense_transposed_matvec_plus A b alpha m n rm c).
Proof.
  move=> HA Hb Hc. rewrite /dense_transposed_matvec_plus. case: eqP => [->|_].
  - apply: writes_refl. by rewrite scale0r addr0.
  - rewrite -dense_tmulE. apply: scaled_accumulate_loop => // i. by rewrite mxE; exact: dense_col.
Qed.

(** ** Compressed kernels *)

Lemma gather_ok data idx ptr b lines width i :
  compressed_ok lines width data idx ptr -> (width <= size b)%N -> (i < lines)%N ->
  gather data idx ptr b i =
  Some (\sum_(nth 0%N ptr i <= q < nth 0%N ptr i.+1) data`_q * b`_(nth 0%N idx q)).
Proof.
  move=> [Hp Hok] Hb Hi. rewrite /gather (rdE 0%N (ltn_trans Hi Hp)) /=.
  rewrite (rdE 0%N (leq_ltn_trans Hi Hp : i.+1 < size ptr)%N) /=.
  case: (leqP (nth 0%N ptr i.+1) (nth 0%N ptr i)) => Hle.
  { by rewrite for_empty // big_geq. }
  pose I k (s : R) := s = \sum_(nth 0%N ptr i <= q < k) data`_q * b`_(nth 0%N idx q).
  set f := (fun q sum => _).
  have [s' -> ->] : exists2 s', for_ (nth 0%N ptr i) (nth 0%N ptr i.+1) 1 f 0 = Some s'
      & I (nth 0%N ptr i.+1) s'; last by [].
  apply: for1_inv; [exact: ltnW|by rewrite /I big_geq|].
  move=> k s' Hk ->. have [H1 H2 H3] := Hok i k Hi Hk.
  rewrite /f (rdE 0%N H2) /= add_term_ok //; last exact: leq_trans H3 Hb.
  eexists; first reflexivity. rewrite /I big_nat_recr //. by case/andP: Hk.
Qed.

(** Regrouping entries of a line by position. *)
Lemma regroup (lo hi width : nat) (d : nat -> R) (ix : nat -> nat) (x : nat -> R) :
  (forall q, (lo <= q < hi)%N -> (ix q < width)%N) ->
  \sum_(lo <= q < hi) d q * x (ix q) =
  \sum_(j < width) (\sum_(lo <= q < hi | ix q == j) d q) * x j.
Proof.
  move=> Hix.
  have E : forall j : 'I_width, true ->
    (\sum_(lo <= q < hi | ix q == j) d q) * x j =
    \sum_(lo <= q < hi) (if ix q == j then d q * x j else 0).
  { move=> j _. by rewrite mulr_suml big_mkcond. }
  rewrite (eq_bigr _ E) exchange_big /=.
  apply: eq_big_nat => q Hq.
  rewrite (bigD1 (Ordinal (Hix q Hq))) //= eqxx big1 ?addr0 // => j Hj.
  case: eqP => // Eq. case/eqP: Hj. exact: val_inj.
Qed.

Lemma csr_mulE data idx ptr b m n : compressed_ok m n data idx ptr ->
  \col_(i < m) (\sum_(nth 0%N ptr i <= q < nth 0%N ptr i.+1) data`_q * b`_(nth 0%N idx q))
  = csr_matrix m n data idx ptr *m vec n b.
Proof.
  move=> [_ Hok]. apply/matrixP => i k. rewrite !mxE.
  rewrite (@regroup _ _ n (nth 0 data) (nth 0%N idx) (nth 0 b)); last first.
  { move=> q Hq. by have [] := Hok i q (ltn_ord i) Hq. }
  apply: eq_bigr => j _. by rewrite !mxE.
Qed.

Lemma csc_tmulE data idx ptr b m n : compressed_ok n m data idx ptr ->
  \col_(i < n) (\sum_(nth 0%N ptr i <= q < nth 0%N ptr i.+1) data`_q * b`_(nth 0%N idx q))
  = (csc_matrix m n data idx ptr)^T *m vec m b.
Proof.
  move=> [_ Hok]. apply/matrixP => i k. rewrite !mxE.
  rewrite (@regroup _ _ m (nth 0 data) (nth 0%N idx) (nth 0 b)); last first.
  { move=> q Hq. by have [] := Hok i q (ltn_ord i) Hq. }
  apply: eq_bigr => j _. by rewrite !mxE.
Qed.

Lemma csr_matvec_ok data idx ptr b m n c :
  compressed_ok m n data idx ptr -> (n <= size b)%N -> (m <= size c)%N ->
  writes c (csr_matrix m n data idx ptr *m vec n b) (csr_matvec data idx ptr b m c).
Proof.
  move=> Hok Hb Hc. rewrite -csr_mulE //. apply: store_loop => // i.
  rewrite mxE. exact: gather_ok Hok Hb (ltn_ord i).
Qed.

Lemma csr_matvec_plus_ok data idx ptr b alpha m n c :
  compressed_ok m n data idx ptr -> (n <= size b)%N -> (m <= size c)%N ->
  writes c (vec m c + alpha *: (csr_matrix m n data idx ptr *m vec n b))
    (csr_matvec_plus data idx ptr b alpha m c).
Proof.
  move=> Hok Hb Hc. rewrite /csr_matvec_plus. case: eqP => [->|_].
  - apply: writes_refl. by rewrite scale0r addr0.
  - rewrite -csr_mulE //. apply: scaled_accumulate_loop => // i.
    rewrite mxE. exact: gather_ok Hok Hb (ltn_ord i).
Qed.

Lemma csc_transposed_matvec_ok data idx ptr b m n c :
  compressed_ok n m data idx ptr -> (m <= size b)%N -> (n <= size c)%N ->
  writes c ((csc_matrix m n data idx ptr)^T *m vec m b)
    (csc_transposed_matvec data idx ptr b n c).
Proof.
  move=> Hok Hb Hc. rewrite -csc_tmulE //. apply: store_loop => // i.
  rewrite mxE. exact: gather_ok Hok Hb (ltn_ord i).
Qed.

Lemma csc_transposed_matvec_plus_ok data idx ptr b alpha m n c :
  compressed_ok n m data idx ptr -> (m <= size b)%N -> (n <= size c)%N ->
  writes c (vec n c + alpha *: ((csc_matrix m n data idx ptr)^T *m vec m b))
    (csc_transposed_matvec_plus data idx ptr b alpha n c).
Proof.
  move=> Hok Hb Hc. rewrite /csc_transposed_matvec_plus. case: eqP => [->|_].
  - apply: writes_refl. by rewrite scale0r addr0.
  - rewrite -csc_tmulE //. apply: scaled_accumulate_loop => // i.
    rewrite mxE. exact: gather_ok Hok Hb (ltn_ord i).
Qed.

(** Scatter: the contribution of the lines processed so far. *)
Definition scattered data idx ptr b alpha (lines k : nat) : R :=
  \sum_(0 <= i < lines)
    (\sum_(nth 0%N ptr i <= q < nth 0%N ptr i.+1 | nth 0%N idx q == k) alpha * data`_q * b`_i).

Lemma scatter_ok data idx ptr b alpha lines width i c :
  compressed_ok lines width data idx ptr -> (lines <= size b)%N -> (width <= size c)%N ->
  (i < lines)%N ->
  exists2 c', scatter data idx ptr b alpha i c = Some c' &
    size c' = size c /\
    forall k, c'`_k = c`_k +
      \sum_(nth 0%N ptr i <= q < nth 0%N ptr i.+1 | nth 0%N idx q == k) alpha * data`_q * b`_i.
Proof.
  move=> [Hp Hok] Hb Hc Hi. rewrite /scatter (rdE 0%N (ltn_trans Hi Hp)) /=.
  rewrite (rdE 0%N (leq_ltn_trans Hi Hp : i.+1 < size ptr)%N) /=.
  case: (leqP (nth 0%N ptr i.+1) (nth 0%N ptr i)) => Hle.
  { exists c; first by rewrite for_empty. split => // k. by rewrite big_geq // addr0. }
  pose I e (c' : seq R) := size c' = size c /\
    forall k, c'`_k = c`_k +
      \sum_(nth 0%N ptr i <= q < e | nth 0%N idx q == k) alpha * data`_q * b`_i.
  apply: (@for1_inv _ I); [exact: ltnW | by split => // k; rewrite big_geq // addr0 |].
  move=> q c' Hq [Hs Hc']. have [H1 H2 H3] := Hok i q Hi Hq.
  rewrite (rdE 0%N H2) /= (rdE 0 H1) /= (rdE 0) /=; last exact: leq_trans Hb.
  have Hk : (nth 0%N idx q < size c')%N by rewrite Hs; apply: leq_trans Hc.
  rewrite /accumulate (rdE 0) //=.
  set v := _ + _. have E : wr c' (nth 0%N idx q) v = Some (set_nth v c' (nth 0%N idx q) v) by rewrite wrE.
  rewrite E. eexists; first reflexivity. split; first by rewrite (size_wr E).
  move=> k. rewrite (nth_wr 0 k E) /v !Hc'.
  have Hlo : (nth 0%N ptr i <= q)%N by case/andP: Hq.
  rewrite [in RHS]big_mkcond [in RHS]big_nat_recr //= -big_mkcond /=.
  rewrite eq_sym. case: eqP => [->|_]; by rewrite ?addrA ?addr0.
Qed.

Lemma scatter_loop data idx ptr b alpha lines width c :
  compressed_ok lines width data idx ptr -> (lines <= size b)%N -> (width <= size c)%N ->
  exists2 c', for_ 0 lines 1 (fun i c => scatter data idx ptr b alpha i c) c = Some c' &
    size c' = size c /\
    forall k, c'`_k = c`_k + scattered data idx ptr b alpha lines k.
Proof.
  move=> Hok Hb Hc.
  pose I e (c' : seq R) := size c' = size c /\
    forall k, c'`_k = c`_k + scattered data idx ptr b alpha e k.
  apply: (@for1_inv _ I); [exact: leq0n | by split => // k; rewrite /scattered big_geq // addr0 |].
  move=> i c' /andP [_ Hi] [Hs Hc'].
  have Hc2 : (width <= size c')%N by rewrite Hs.
  have [c'' E [Hs' H]] := scatter_ok alpha Hok Hb Hc2 Hi.
  exists c'' => //. split; first by rewrite Hs'.
  move=> k. by rewrite H Hc' /scattered big_nat_recr //= addrA.
Qed.

Lemma zero_fill_ok n c : (n <= size c)%N ->
  exists2 c', zero_fill n c = Some c' &
    size c' = size c /\ forall k, c'`_k = if (k < n)%N then 0 else c`_k.
Proof. move=> Hn. exact: (write_loop (v := fun _ _ => 0) Hn). Qed.

Lemma scattered_high data idx ptr b alpha lines width k :
  compressed_ok lines width data idx ptr -> (width <= k)%N ->
  scattered data idx ptr b alpha lines k = 0.
Proof.
  move=> [_ Hok] Hk. rewrite /scattered big_nat big1 // => i /andP [_ Hi].
  rewrite big_nat_cond big1 // => q /andP [Hq /eqP E].
  have [_ _ Hw] := Hok i q Hi Hq. by rewrite E ltnNge Hk in Hw.
Qed.

Lemma csr_scattered data idx ptr b alpha m n :
  \col_(k < n) scattered data idx ptr b alpha m k =
  alpha *: ((csr_matrix m n data idx ptr)^T *m vec m b).
Proof.
  apply/matrixP => k o. rewrite !mxE /scattered big_mkord mulr_sumr. apply: eq_bigr => i _.
  rewrite !mxE mulr_suml mulr_sumr. apply: eq_bigr => q _. by rewrite mulrA.
Qed.

Lemma csc_scattered data idx ptr b alpha m n :
  \col_(k < m) scattered data idx ptr b alpha n k =
  alpha *: (csc_matrix m n data idx ptr *m vec n b).
Proof.
  apply/matrixP => k o. rewrite !mxE /scattered big_mkord mulr_sumr. apply: eq_bigr => i _.
  rewrite !mxE mulr_suml mulr_sumr. apply: eq_bigr => q _. by rewrite mulrA.
Qed.

Lemma scatter_plus data idx ptr b alpha lines width c :
  compressed_ok lines width data idx ptr -> (lines <= size b)%N -> (width <= size c)%N ->
  writes c (vec width c + \col_(k < width) scattered data idx ptr b alpha lines k)
    (for_ 0 lines 1 (fun i c => scatter data idx ptr b alpha i c) c).
Proof.
  move=> Hok Hb Hc. have [c' E [Hs H]] := scatter_loop alpha Hok Hb Hc.
  exists c'; split => //.
  - apply/matrixP => i j. by rewrite !mxE H.
  - move=> k Hk. by rewrite H (scattered_high _ _ Hok Hk) addr0.
Qed.

Lemma zero_then_scatter data idx ptr b lines width c :
  compressed_ok lines width data idx ptr -> (lines <= size b)%N -> (width <= size c)%N ->
  writes c (\col_(k < width) scattered data idx ptr b 1 lines k)
    (do c <- zero_fill width c;
     for_ 0 lines 1 (fun i c => scatter data idx ptr b 1 i c) c).
Proof.
  move=> Hok Hb Hc. have [c1 E1 [Hs1 H1]] := zero_fill_ok Hc. rewrite E1 /=.
  have Hc1 : (width <= size c1)%N by rewrite Hs1.
  have [c' E [Hs H]] := scatter_loop 1 Hok Hb Hc1.
  exists c'; split => //; first 2 last.
  - move=> k Hk. by rewrite H (scattered_high _ _ Hok Hk) addr0 H1 ltnNge Hk.
  - apply/matrixP => i j. by rewrite !mxE H H1 ltn_ord add0r.
  - by rewrite Hs Hs1.
Qed.

Lemma csr_transposed_matvec_ok data idx ptr b m n c :
  compressed_ok m n data idx ptr -> (m <= size b)%N -> (n <= size c)%N ->
  writes c ((csr_matrix m n data idx ptr)^T *m vec m b)
    (csr_transposed_matvec data idx ptr b m n c).
Proof.
  move=> Hok Hb Hc. rewrite -[_ *m _]scale1r -csr_scattered. exact: zero_then_scatter.
Qed.

Lemma csr_transposed_matvec_plus_ok data idx ptr b alpha m n c :
  compressed_ok m n data idx ptr -> (m <= size b)%N -> (n <= size c)%N ->
  writes c (vec n c + alpha *: ((csr_matrix m n data idx ptr)^T *m vec m b))
    (csr_transposed_matvec_plus data idx ptr b alpha m c).
Proof.
  move=> Hok Hb Hc. rewrite /csr_transposed_matvec_plus. case: eqP => [->|_].
  - apply: writes_refl. by rewrite scale0r addr0.
  - rewrite -csr_scattered. exact: scatter_plus.
Qed.

Lemma csc_matvec_ok data idx ptr b m n c :
  compressed_ok n m data idx ptr -> (n <= size b)%N -> (m <= size c)%N ->
  writes c (csc_matrix m n data idx ptr *m vec n b) (csc_matvec data idx ptr b m n c).
Proof.
  move=> Hok Hb Hc. rewrite -[_ *m _]scale1r -csc_scattered. exact: zero_then_scatter.
Qed.

Lemma csc_matvec_plus_ok data idx ptr b alpha m n c :
  compressed_ok n m data idx ptr -> (n <= size b)%N -> (m <= size c)%N ->
  writes c (vec m c + alpha *: (csc_matrix m n data idx ptr *m vec n b))
    (csc_matvec_plus data idx ptr b alpha n c).
Proof.
  move=> Hok Hb Hc. rewrite /csc_matvec_plus. case: eqP => [->|_].
  - apply: writes_refl. by rewrite scale0r addr0.
  - rewrite -csc_scattered. exact: scatter_plus.
Qed.

(** ** Vector operations *)

Lemma copy_vector_ok (x y : seq R) n : (n <= size x)%N -> (n <= size y)%N ->
  writes y (vec n x) (copy_vector x n y).
Proof.
  move=> Hx Hy. rewrite /copy_vector /vec. apply: store_loop => // i.
  rewrite mxE. apply: rdE. exact: leq_trans Hx.
Qed.

Lemma copy_scaled_vector_ok (x y : seq R) n a : (n <= size x)%N -> (n <= size y)%N ->
  writes y (a *: vec n x) (copy_scaled_vector x n a y).
Proof.
  move=> Hx Hy.
  have -> : a *: vec n x = \col_(i < n) (a * x`_i) by apply/matrixP => i j; rewrite !mxE.
  have Hb : forall i c', (i < n)%N -> size c' = size y ->
      (do v <- rd x i; wr c' i (a * v)) = wr c' i ((fun i _ => a * x`_i) i c'`_i).
  { move=> i c' Hi _. rewrite (rdE 0) //. exact: leq_trans Hx. }
  have [c' E [Hs Hc]] := write_loop (v := fun i _ => a * x`_i) Hy Hb.
  exists c'; split => //.
  + apply/matrixP => i j. by rewrite !mxE Hc ltn_ord.
  + move=> k Hk. by rewrite Hc ltnNge Hk.
Qed.

Lemma subtract_scaled_vector_ok (x y : seq R) n a : (n <= size x)%N -> (n <= size y)%N ->
  writes y (vec n y - a *: vec n x) (subtract_scaled_vector x n a y).
Proof.
  move=> Hx Hy. rewrite /subtract_scaled_vector. case: eqP => [->|_].
  { apply: writes_refl. by rewrite scale0r subr0. }
  have Hb : forall i c', (i < n)%N -> size c' = size y ->
      (do u <- rd x i; do v <- rd c' i; wr c' i (v - a * u))
      = wr c' i ((fun i v => v - a * x`_i) i c'`_i).
  { move=> i c' Hi Hs. have Hi' : (i < size c')%N by rewrite Hs; apply: leq_trans Hy.
    by rewrite (rdE 0 (leq_trans Hi Hx)) /= (rdE 0 Hi'). }
  have [c' E [Hs Hc]] := write_loop (v := fun i v => v - a * x`_i) Hy Hb.
  exists c'; split => //.
  + apply/matrixP => i j. by rewrite !mxE Hc ltn_ord.
  + move=> k Hk. by rewrite Hc ltnNge Hk.
Qed.

Definition dot n (x y : seq R) : R := \sum_(i < n) x`_i * y`_i.

Lemma inner_product_ok (x y : seq R) n : (n <= size x)%N -> (n <= size y)%N ->
  inner_product x y n = Some (\sum_(i < n) x`_i * y`_i).
Proof.
  move=> Hx Hy. rewrite -(big_mkord xpredT (fun i => x`_i * y`_i)).
  apply: (@unrolled_sum x y id) => // j Hj. exact: leq_trans Hx.
Qed.

(** ** Band matrix *)

Definition entry (mat : seq (seq R)) (i j : nat) : R := (nth [::] mat i)`_j.

Lemma wr2_ok mat i j (v : R) n : (i < n)%N -> (j < n)%N -> (n <= size mat)%N ->
  (forall r, (r < n)%N -> (n <= size (nth [::] mat r))%N) ->
  exists2 mat', wr2 mat i j v = Some mat' &
    [/\ size mat' = size mat,
        (forall r, size (nth [::] mat' r) = size (nth [::] mat r)) &
        forall r s, entry mat' r s = if (r == i) && (s == j) then v else entry mat r s].
Proof.
  move=> Hi Hj Hn Hrow. rewrite /wr2 (rdE [::]) /=; last exact: leq_trans Hn.
  set row := nth [::] mat i.
  have Hjr : (j < size row)%N by apply: leq_trans (Hrow i Hi).
  have Er : wr row j v = Some (set_nth v row j v) by rewrite wrE.
  rewrite Er /=. set row' := set_nth v row j v.
  have Him : (i < size mat)%N by apply: leq_trans Hn.
  have Em : wr mat i row' = Some (set_nth row' mat i row') by rewrite wrE.
  rewrite Em. eexists; first reflexivity. split.
  - by rewrite (size_wr Em).
  - move=> r. rewrite (nth_wr [::] r Em). case: eqP => // ->. by rewrite (size_wr Er).
  - move=> r s. rewrite /entry (nth_wr [::] r Em). case: eqP => [->|] //=.
    by rewrite (nth_wr 0 s Er).
Qed.

(** What the finished band matrix must contain. *)
Definition band_entry diag sup n (tri : bool) (old : R) (i j : nat) : R :=
  if (i < n)%N && (j == i) then diag`_i
  else if (i.+1 < n)%N && (j == i.+1) then sup`_i
  else if tri && (j.+1 < n)%N && (i == j.+1) then sup`_j
  else old.

Lemma create_band_matrix_ok diag sup n tri mat :
  (n <= size diag)%N -> (n.-1 <= size sup)%N -> (n <= size mat)%N ->
  (forall r, (r < n)%N -> (n <= size (nth [::] mat r))%N) ->
  exists2 mat', create_band_matrix diag sup n tri mat = Some mat' &
    forall i j, entry mat' i j = band_entry diag sup n tri (entry mat i j) i j.
Proof.
  move=> Hd Hs Hm Hr.
  (* entries written by the first k iterations *)
  pose E k i j : R :=
    if (i < k)%N && (j == i) then diag`_i
    else if (i < k)%N && (i.+1 < n)%N && (j == i.+1) then sup`_i
    else if [&& tri, (j < k)%N, (j.+1 < n)%N & i == j.+1] then sup`_j
    else entry mat i j.
  pose I k (m : seq (seq R)) := [/\ size m = size mat,
     (forall r, size (nth [::] m r) = size (nth [::] mat r)) &
     forall i j, entry m i j = E k i j].
  have [m' E' [_ _ HE]] : exists2 m', create_band_matrix diag sup n tri mat = Some m' & I n m'.
  { apply: for1_inv => //.
    - split => // i j. by rewrite /E /= andbF.
    - move=> k m /andP [_ Hk] [S1 S2 S3].
      have Hrm : forall m0 : seq (seq R),
          (forall r, size (nth [::] m0 r) = size (nth [::] mat r)) ->
          forall r, (r < n)%N -> (n <= size (nth [::] m0 r))%N.
      { move=> m0 H0 r Hrn. by rewrite H0 Hr. }
      have Hm0 : (n <= size m)%N by rewrite S1.
      rewrite (rdE 0 (leq_trans Hk Hd)) /=.
      have [m1 -> [T1 T2 T3]] := wr2_ok diag`_k Hk Hk Hm0 (Hrm _ S2).
      have Hlast : (k < n - 1)%N = (k.+1 < n)%N by rewrite ltn_subRL add1n.
      rewrite /= Hlast. case: (ltnP k.+1 n) => Hk1; last first.
      { exists m1 => //. split => [|r|i j]; rewrite ?T1 ?T2 // T3 S3 /E.
        cases_lia. }
      have Hks : (k < size sup)%N by lia.
      rewrite (rdE 0 Hks) /=.
      have U2 : forall r, size (nth [::] m1 r) = size (nth [::] mat r) by move=> r; rewrite T2.
      have Hm1 : (n <= size m1)%N by rewrite T1.
      have [m2 -> [V1 V2 V3]] := wr2_ok sup`_k Hk Hk1 Hm1 (Hrm _ U2).
      have W2 : forall r, size (nth [::] m2 r) = size (nth [::] mat r) by move=> r; rewrite V2.
      have Hm2 : (n <= size m2)%N by rewrite V1.
      rewrite /=. case Et : tri; last first.
      { exists m2 => //. split => [|r|i j]; rewrite ?V1 ?V2 ?T1 ?T2 // V3 T3 S3 /E Et.
        cases_lia. }
      have [m3 -> [X1 X2 X3]] := wr2_ok sup`_k Hk1 Hk Hm2 (Hrm _ W2).
      exists m3 => //. split => [|r|i j]; rewrite ?X1 ?X2 ?V1 ?V2 ?T1 ?T2 // X3 V3 T3 S3 /E Et.
      cases_lia. }
  exists m' => // i j. rewrite HE /E /band_entry. cases_lia.
Qed.

End Proofs.

Section NormProofs.
Variable R : rcfType.
Implicit Types x y : seq R.

Definition norm2 n x : R := Num.sqrt (\sum_(i < n) x`_i ^+ 2).

Lemma euclidean_norm_ok x n : (n <= size x)%N ->
  euclidean_norm x n = Some (Num.sqrt (\sum_(i < n) x`_i ^+ 2)).
Proof.
  move=> Hx. have := @inner_product_ok _ x x n Hx Hx.
  rewrite /inner_product /euclidean_norm.
  case: (for_ 0 _ 5 _ _) => [s|] //=.
  case: (for_ _ n 1 _ s) => [s'|] //= [->].
  by congr (Some (Num.sqrt _)); apply: eq_bigr => i _; rewrite expr2.
Qed.

Lemma divide_loop x n (nrm : R) : (n <= size x)%N ->
  writes x (nrm^-1 *: vec n x) (for_ 0 n 1 (fun i x => do a <- rd x i; wr x i (a / nrm)) x).
Proof.
  move=> Hx.
  have Hb : forall i c', (i < n)%N -> size c' = size x ->
      (do a <- rd c' i; wr c' i (a / nrm)) = wr c' i ((fun _ v => v / nrm) i c'`_i).
  { move=> i c' Hi Hs. by rewrite (rdE 0) //= Hs; apply: leq_trans Hx. }
  have [c' E [Hs Hc]] := write_loop (v := fun _ v => v / nrm) Hx Hb.
  exists c'; split => //.
  + apply/matrixP => i j. by rewrite !mxE Hc ltn_ord mulrC.
  + move=> k Hk. by rewrite Hc ltnNge Hk.
Qed.

Lemma divide_copy_loop x y n (nrm : R) : (n <= size x)%N -> (n <= size y)%N ->
  writes y (nrm^-1 *: vec n x) (for_ 0 n 1 (fun i y => do a <- rd x i; wr y i (a / nrm)) y).
Proof.
  move=> Hx Hy.
  have Hb : forall i c', (i < n)%N -> size c' = size y ->
      (do a <- rd x i; wr c' i (a / nrm)) = wr c' i ((fun i _ => x`_i / nrm) i c'`_i).
  { move=> i c' Hi Hs. by rewrite (rdE 0 (leq_trans Hi Hx)). }
  have [c' E [Hs Hc]] := write_loop (v := fun i _ => x`_i / nrm) Hy Hb.
  exists c'; split => //.
  + apply/matrixP => i j. by rewrite !mxE Hc ltn_ord mulrC.
  + move=> k Hk. by rewrite Hc ltnNge Hk.
Qed.

Lemma norm2_ge0 n x : 0 <= norm2 n x. Proof. exact: sqrtr_ge0. Qed.

Lemma sqr_norm2 n x : norm2 n x ^+ 2 = \sum_(i < n) x`_i ^+ 2.
Proof. apply: sqr_sqrtr. apply: sumr_ge0 => i _. exact: sqr_ge0. Qed.

Lemma norm2_gt0 n x : vec n x != 0 -> 0 < norm2 n x.
Proof.
  move=> H. rewrite lt_def norm2_ge0 andbT. apply/negP => /eqP E.
  case/eqP: H. have := sqr_norm2 n x. rewrite E expr0n /= => /esym Hs.
  have Hz := psumr_eq0P (fun i _ => sqr_ge0 _) Hs.
  apply/matrixP => i j. rewrite !mxE. apply/eqP. by rewrite -sqrf_eq0 Hz.
Qed.

Lemma normalised n x x' (v := vec n x) : v != 0 ->
  vec n x' = (norm2 n x)^-1 *: v -> \sum_(i < n) x'`_i ^+ 2 = 1.
Proof.
  move=> Hv E. have Hp := norm2_gt0 Hv.
  have Hi : forall i : 'I_n, x'`_i = (norm2 n x)^-1 * x`_i.
  { move=> i. have := congr1 (fun M : 'cV_n => M i 0) E. by rewrite !mxE. }
  under eq_bigr do rewrite Hi exprMn.
  rewrite -mulr_sumr -sqr_norm2 -exprMn mulVf ?expr1n //. by rewrite gt_eqF.
Qed.

Lemma normalize_in_place_ok x n : (n <= size x)%N ->
  exists x', normalize_vector_in_place x n = Some (norm2 n x, x') /\
    [/\ vec n x' = (norm2 n x)^-1 *: vec n x, size x' = size x
      & forall k, (n <= k)%N -> x'`_k = x`_k].
Proof.
  move=> Hx. rewrite /normalize_vector_in_place euclidean_norm_ok //= -/(norm2 n x).
  have [x' [-> H1 H2 H3]] := @divide_loop x n (norm2 n x) Hx.
  by exists x'.
Qed.

Lemma normalize_and_copy_ok x y n : (n <= size x)%N -> (n <= size y)%N ->
  exists y', normalize_vector_and_copy x n y = Some (norm2 n x, y') /\
    [/\ vec n y' = (norm2 n x)^-1 *: vec n x, size y' = size y
      & forall k, (n <= k)%N -> y'`_k = y`_k].
Proof.
  move=> Hx Hy. rewrite /normalize_vector_and_copy euclidean_norm_ok //= -/(norm2 n x).
  have [x' [-> H1 H2 H3]] := @divide_copy_loop x y n (norm2 n x) Hx Hy.
  by exists x'.
Qed.

End NormProofs.
