(** * Values delivered to a run of the stochastic Lanczos quadrature *)
From Coq Require Import ZArith NArith.
From mathcomp Require Import all_ssreflect all_algebra.
From mathcomp Require Import zify.
From Verif Require Import Mem KernelModel KernelSpec OperatorModel OperatorSpec OperatorProofs.
From Verif Require Import LanczosModel LanczosSpec LanczosMath LanczosProofs GolubKahnProofs.
From Verif Require Import Spectral SlqModel SlqSpec SlqProofs ExactProofs PropSlq.
From Verif Require Import ConvModel ConvSpec RngModel SlqRunModel SlqRunSpec SlqRunProofs.
Set Implicit Arguments.
Unset Strict Implicit.
Unset Printing Implicit Defensive.
Import Order.TTheory GRing.Theory Num.Theory.
Local Open Scope ring_scope.

Section Values.
Variable R : rcfType.
Variable eps : R.
Hypothesis eps_gt0 : 0 < eps.
Variable alloc : nat -> seq R.
Hypothesis size_alloc : forall k, size (alloc k) = k.
Variable eigh svd : nat -> seq R -> seq R -> option (seq R * seq R).
Hypothesis eigh_ok : eigh_contract eigh.
Hypothesis svd_ok : svd_contract svd.
Variable pw f : R -> R.
Variable n' m : nat.
Notation n := n'.+1.
Hypothesis m_gt0 : (0 < m)%N.
Variable tol : R.
Hypothesis tol_gt0 : 0 < tol.
Variable orth : int.

Notation slq_matrix := (slq_matrix eps alloc eigh svd pw f n m tol orth).
Notation slq_affine := (slq_affine eps alloc eigh svd pw f n m tol orth).

Lemma matrix_delivers gram (A : storage R) params q : (0 < q)%N -> well_formed A n n ->
  (if gram then forall x : 'cV_n, denotes A n n *m x = 0 -> x = 0
   else (denotes A n n)^T = denotes A n n) ->
  delivers q false (fun w (_ : nat) x => value_of (n' := n') (fun _ => denotes A n n) pw f m tol gram [::] w x)
    (slq_matrix gram A params q).
Proof.
  move=> Hq HA Hadm conv v Sc Sv Hv.
  have [||||est [H1 H2 H3 H4 _]] := @matrix_each R eps eps_gt0 alloc size_alloc eigh svd eigh_ok svd_ok pw f n' m
    m_gt0 tol tol_gt0 orth gram A params conv v (nseq q 0) q Hq HA Hadm.
  - by rewrite Sc.
  - by rewrite size_nseq.
  - by rewrite Sv.
  - exact: Hv.
  exists est. split; [exact: H1|by rewrite H2 size_nseq|].
  move=> j Hj Hc. exact: H4.
Qed.

Section Affine.
Variables (A : storage R) (B : option (storage R)) (op : affine R) (ts : seq R).
Hypothesis A_wf : well_formed A n n.
Hypothesis B_wf : forall s, B = Some s -> well_formed s n n /\ denotes s n n <> 0.
Hypothesis op_ok : affine_object n' A B op.
Hypothesis ts_gt0 : (0 < size ts)%N.
Let Mat (p : seq R) := denotes A n n + p`_0 *: matrix_of_B B n n.

Lemma affine_each_delivers gram : ~~ (eigenvalue_relation_known op && (1 < size ts)%N) ->
  (forall t, t \in ts -> admissible Mat gram [:: t]) ->
  delivers (size ts) false (fun w j x => value_of (n' := n') Mat pw f m tol gram [:: ts`_j] w x)
    (slq_affine gram op ts (size ts)).
Proof.
  move=> Hk Had conv v Sc Sv Hv. have [Hg _] := object_good A_wf B_wf op_ok.
  have Edrop : forall j, (drop (j * 1) ts)`_0 = ts`_j by move=> j; rewrite muln1 nth_drop addn0.
  have Had' : forall j, (j < size ts)%N -> admissible Mat gram (drop (j * 1) ts).
  { move=> j Hj. have := Had _ (mem_nth 0 Hj). by rewrite /admissible /Mat Edrop. }
  have [|||||||est [H1 H2 H3 H4 _]] := @aff_each R eps eps_gt0 alloc size_alloc eigh svd eigh_ok svd_ok pw f n' m m_gt0
    tol tol_gt0 orth A B gram op ts (size ts) conv v (nseq (size ts) 0) ts_gt0 Hg.
  - by rewrite muln1.
  - by rewrite Sc.
  - by rewrite size_nseq.
  - exact: Had'.
  - by rewrite Sv.
  - exact: Hv.
  - exact: Hk.
  exists est. split; [exact: H1|by rewrite H2 size_nseq|].
  move=> j Hj Hc. have := value_take0 (H4 j Hj Hc). by rewrite Edrop.
Qed.

Lemma affine_delivers : (forall t, t \in ts -> (Mat [:: t])^T = Mat [:: t]) ->
  delivers (size ts) (eigenvalue_relation_known op && (1 < size ts)%N)
    (fun w j x => value_of (n' := n') Mat pw f m tol false [:: ts`_j] w x)
    (slq_affine false op ts (size ts)).
Proof.
  move=> Hsym. case: (boolP (eigenvalue_relation_known op && (1 < size ts)%N)) => Hk; last first.
    exact: affine_each_delivers.
  move=> conv v Sc Sv Hv. have [Hg Hid] := object_good A_wf B_wf op_ok.
  case/andP: Hk => Hk Hn.
  have Edrop : forall j, (drop (j * 1) ts)`_0 = ts`_j by move=> j; rewrite muln1 nth_drop addn0.
  have Had : forall j, (j < size ts)%N -> admissible Mat false (drop (j * 1) ts).
  { move=> j Hj. have := Hsym _ (mem_nth 0 Hj). by rewrite /admissible /Mat Edrop. }
  pose sh j := ts`_j - ts`_0.
  have Hsh : forall j x, (0 < j < size ts)%N ->
    get_eigenvalue ts x (drop (j * 1) ts) = Some (x + sh j).
  { move=> j x /andP [_ Hj]. rewrite /get_eigenvalue.
    have Hd : (0 < size (drop (j * 1) ts))%N by rewrite size_drop muln1 subn_gt0.
    rewrite (rdE 0 ts_gt0) (rdE 0 Hd) /= Edrop /sh. by rewrite -addrA (addrC (- _)). }
  have Hsh0 : sh 0%N = 0 by rewrite /sh subrr.
  have [||||conv' [est [k [Q [d [E H2 [S1 S2] [Hst Hsp] He]]]]]] :=
    @aff_shifted R eps eps_gt0 alloc size_alloc eigh svd eigh_ok svd_ok pw f n' m m_gt0
    tol tol_gt0 orth A B false op ts (size ts) conv v (nseq (size ts) 0) ts_gt0 Hg _ _ _ Had _ Hv sh Hk Hn Hsh Hsh0.
  - by rewrite muln1.
  - by rewrite Sc.
  - by rewrite size_nseq.
  - by rewrite Sv.
  have Ec : conv' = nseq (size ts) false.
  { apply: (@eq_from_nth _ false); first by rewrite S1 Sc size_nseq.
    move=> j. rewrite S1 Sc => Hj. by rewrite (S2 j Hj) nth_nseq Hj. }
  exists est. split; [by rewrite -Ec; exact: E|by rewrite H2 size_nseq|].
  move=> j Hj _. rewrite (He j Hj).
  have HM : Mat [:: ts`_j] = Mat ts + (sh j)%:M.
  { rewrite /Mat (Hid Hk) /= -addrA. congr (_ + _).
    by rewrite /sh !scalemx1 -raddfD /= addrC subrK. }
  have H0 : (Mat ts)^T = Mat ts by have := Had 0%N ts_gt0; rewrite /admissible mul0n drop0.
  exact: (value_shift pw f tol_gt0 H0 Hv HM Hst Hsp).
Qed.
End Affine.

(** ** Values lie between the extreme values of the function *)
Lemma tr_mulE a b c (W : 'M[R]_(a, b)) (N : 'M[R]_(a, c)) i j : (W^T *m N) i j = ip (col i W) (col j N).
Proof. rewrite mxE. by apply: eq_bigr => l _; rewrite !mxE. Qed.

Lemma ritz_bounds k (M : 'M[R]_n) (V : 'M[R]_(n, k)) (T P : 'M[R]_k) d lo hi : orthonormal V ->
  V^T *m M *m V = T -> spectral T P d ->
  (forall x : 'cV_n, lo * ip x x <= ip x (M *m x) <= hi * ip x x) -> forall i, lo <= d 0 i <= hi.
Proof.
  move=> HV HT [HP E] Hb i. pose W := V *m P.
  have HW : W^T *m W = 1%:M.
  { by rewrite /W trmx_mul -mulmxA (mulmxA V^T) HV mul1mx. }
  have HD : W^T *m (M *m W) = diag_mx d.
  { rewrite /W trmx_mul -mulmxA (mulmxA M) (mulmxA V^T) (mulmxA V^T) HT E -!mulmxA HP mulmx1 mulmxA HP.
    by rewrite mul1mx. }
  have := Hb (col i W). have -> : M *m col i W = col i (M *m W) by rewrite !colE mulmxA.
  rewrite -!tr_mulE HW HD !mxE eqxx !mulr1n !mulr1. by [].
Qed.

Lemma function_bounds k (P : 'M[R]_k.+1) (d : 'rV[R]_k.+1) (g : R -> R) lo hi : orthonormal P ->
  (forall i, lo <= g (d 0 i) <= hi) -> lo <= matrix_function g P d 0 0 <= hi.
Proof.
  move=> HP Hb. have Hs : \sum_i P 0 i * P 0 i = 1.
  { have := mulmx1C HP => /matrixP /(_ 0 0). rewrite !mxE eqxx mulr1n => <-.
    by apply: eq_bigr => i _; rewrite !mxE. }
  have -> : matrix_function g P d 0 0 = \sum_i (P 0 i * P 0 i) * g (d 0 i).
  { rewrite /matrix_function mxE. apply: eq_bigr => i _. rewrite mxE (bigD1 i) //= big1 ?addr0.
    - by rewrite !mxE eqxx mulr1n mulrAC.
    - move=> l Hl. by rewrite !mxE (negbTE Hl) mulr0n mulr0. }
  apply/andP; split.
  - rewrite -[lo]mul1r -Hs mulr_suml. apply: ler_sum => i _. apply: ler_wpmul2l; first by rewrite -expr2 sqr_ge0.
    by case/andP: (Hb i).
  - rewrite -[hi]mul1r -Hs mulr_suml. apply: ler_sum => i _. apply: ler_wpmul2l; first by rewrite -expr2 sqr_ge0.
    by case/andP: (Hb i).
Qed.

(** The matrix the function is applied to. *)
Definition target (gram : bool) (M : 'M[R]_n) : 'M[R]_n := if gram then M^T *m M else M.

Lemma value_bounds (Mat : seq R -> 'M[R]_n) gram p w x a b lo hi : admissible Mat gram p -> w != 0 ->
  value_of Mat pw f m tol gram p w x ->
  (forall y : 'cV_n, a * ip y y <= ip y (target gram (Mat p) *m y) <= b * ip y y) ->
  (forall t, a <= t <= b -> lo <= f (pw t) <= hi) ->
  n%:R * lo <= x <= n%:R * hi.
Proof.
  move=> Had Hw [k [Q [d [Hs Hsp ->]]]] Hab Hg.
  suff H : lo <= matrix_function (fun x => f (pw x)) Q d 0 0 <= hi.
  { case/andP: H => H1 H2. by rewrite !ler_wpmul2l // ler0n. }
  apply: function_bounds; first exact: Hsp.1. move=> i. apply: Hg.
  case: gram Had Hs Hsp Hab => Had Hs Hsp Hab.
  - rewrite /offdiag in Hs. rewrite /projected in Hsp. case: Hs => H1 H2 H3.
    have Hal := stops_gkalive tol_gt0 Hw Had H2.
    have Ha : gka (Mat p) w k != 0 by exact: gk_injective.
    have [_ HV _ _ [HB _ _]] := golub_kahn_result_ok Hw Hal Ha.
    exact: (ritz_bounds HV (esym HB) Hsp Hab).
  - rewrite /offdiag in Hs. rewrite /projected in Hsp.
    have Hal := stops_alive tol_gt0 Hs.
    have [HV _ [HT _] _ _] := lanczos_result_ok Hw Had Hal.
    exact: (ritz_bounds HV HT Hsp Hab).
Qed.
End Values.
