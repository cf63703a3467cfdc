(** How lanczos_degree and lanczos_tol bound the error of the log-determinant: C86. *)
Require Import Reals Lra.
From mathcomp Require Import all_ssreflect all_algebra.
From mathcomp Require Import zify.
From Verif Require Import RealField LogMath.
From Verif Require Import Mem KernelModel KernelSpec OperatorModel OperatorSpec OperatorProofs.
From Verif Require Import LanczosModel LanczosSpec LanczosMath LanczosProofs GolubKahnProofs.
From Verif Require Import Spectral SlqModel SlqSpec SlqProofs ExactProofs PropSlq SlqRunValues.
From Verif Require Import VarianceSpec PropVariance AccuracySpec AccuracyProofs PropAccuracy LogSpec LogProofs.
From Verif Require PropAgree FunModel.
Set Implicit Arguments.
Unset Strict Implicit.
Unset Printing Implicit Defensive.
Import GRing.Theory Num.Theory Order.TTheory.
Local Open Scope ring_scope.

Lemma ln_product (T : finType) (x : T -> R) : (forall i, 0 < x i) -> ln (\prod_i x i) = \sum_i ln (x i).
Proof.
move=> H. suff [_ ->] : 0 < \prod_i x i /\ ln (\prod_i x i) = \sum_i ln (x i) by [].
apply: (big_ind2 (fun p s => 0 < p /\ ln p = s)); first by split; [exact: ltr01|exact: ln_1].
- move=> p s p' s' [H1 <-] [H2 <-]. split; first exact: mulr_gt0. by apply: ln_mult; apply/RltP.
- move=> i _. by split.
Qed.

Lemma logdet_trace n (N P : 'M[R]_n.+1) e : spectral N P e -> (forall i, 0 < e 0 i) ->
  \tr (matrix_function ln P e) = ln (\det N).
Proof.
move=> [HP ->] He. rewrite /matrix_function mxtrace_mulC mulmxA HP mul1mx mxtrace_diag.
rewrite !det_mulmx mulrC mulrA -det_mulmx HP det1 mul1r det_diag ln_product //.
by apply: eq_bigr => i _; rewrite mxE.
Qed.

Section Scaled.
Variable F : rcfType.
Lemma mf_scaled n (P : 'M[F]_n) (d : 'rV[F]_n) c (h g : F -> F) : (forall i, g (d 0 i) = c * h (d 0 i)) ->
  matrix_function g P d = c *: matrix_function h P d.
Proof.
move=> H. rewrite /matrix_function scalemxAl scalemxAr. congr (_ *m _ *m _).
apply/matrixP => i j. by rewrite !mxE H mulrnAr.
Qed.

Lemma rayleigh_scaled n (M : 'M[F]_n) c w : rayleigh (c *: M) w = c * rayleigh M w.
Proof. by rewrite /rayleigh -scalemxAl ipZr mulrA. Qed.
End Scaled.

Section Slq.
Variable eps : R.
Hypothesis eps_gt0 : 0 < eps.
Variable alloc : nat -> seq R.
Hypothesis size_alloc : forall k, size (alloc k) = k.
Variable eigh svd : nat -> seq R -> seq R -> option (seq R * seq R).
Hypothesis eigh_ok : eigh_contract (R := R_rcfType) eigh.
Hypothesis svd_ok : svd_contract (R := R_rcfType) svd.
Variable pw f : R -> R.
Variable n' m : nat.
Notation n := n'.+1.
Hypothesis m_gt0 : (0 < m)%N.
Variable tol : R.
Hypothesis tol_gt0 : 0 < tol.
Variable orth : int.
Notation slq_matrix := (slq_matrix (R := R_rcfType) eps alloc eigh svd pw f n m tol orth).
Notation slq_affine := (slq_affine (R := R_rcfType) eps alloc eigh svd pw f n m tol orth).
Notation subject gram M := (if gram then M^T *m M else M).
Notation usable gram M := (if gram then forall x : 'cV_n, M *m x = 0 -> x = 0 else M^T = M).

Lemma value_log (Mat : seq R -> 'M[R]_n) gram p w x lo hi c P e : admissible Mat gram p -> w != 0 ->
  0 < lo -> range_in (target gram (Mat p)) lo hi -> (forall y, lo <= y <= hi -> f (pw y) = c * ln y) ->
  spectral (target gram (Mat p)) P e -> value_of (R := R_rcfType) Mat pw f m tol gram p w x ->
  `|x - n%:R * rayleigh (c *: matrix_function ln P e) w| <= `|c| * log_bound n lo hi (rest n tol gram hi) m.
Proof.
move=> Had Hw Hlo Hr Hf HP Hval.
have Hsym : (target gram (Mat p))^T = target gram (Mat p) by exact: target_sym.
have [k [V [T [r [Q [d [Hk Hlz Hsp Hstop [-> Hex]]]]]]]] := value_lanczos tol_gt0 Had Hw Hr Hval.
have Hd : forall i, lo <= d 0 i <= hi by case: Hlz => HV _ [HT _] _ _; exact: ritz_bounds HV HT Hsp Hr.
rewrite (@mf_scaled R_rcfType _ Q d c ln); last by move=> i; exact: Hf.
have -> : (c *: matrix_function ln Q d) 0 0 = c * matrix_function ln Q d 0 0 by rewrite mxE.
rewrite rayleigh_scaled -mulrBr -mulrBr normrM ger0_norm ?ler0n // normrM /log_bound mulrCA.
rewrite ler_wpmul2l // ler_wpmul2l ?ler0n // le_maxr. case: (ltnP k.+1 m) => Hkm; apply/orP; [right|left].
- apply: le_trans (log_perturbed Hw Hsym Hlo Hr Hlz Hsp HP) _.
  rewrite ler_pmul2r ?invr_gt0 //. exact: ltW (Hstop Hkm).
- have Ekm : k.+1 = m by apply/eqP; rewrite eqn_leq Hk Hkm.
  apply: log_degree Hw Hlo Hr Hlz Hsp HP m_gt0 _ => q Hq. apply: Hex. left. by rewrite Ekm.
Qed.

(** C86, one sample. *)
Theorem C86_sample : forall gram (A : storage R_rcfType) (v est params : seq R) lo hi c P e,
  let N := subject gram (denotes A n n) in
  well_formed A n n -> usable gram (denotes A n n) -> 0 < lo -> range_in N lo hi ->
  (forall y, lo <= y <= hi -> f (pw y) = c * ln y) -> spectral N P e ->
  (n <= size v)%N -> vec n v != 0 -> (0 < size est)%N ->
  exists est', slq_matrix gram A params 1 [:: false] v est = Some ([:: false], est') /\
    `|est'`_0 - n%:R * rayleigh (c *: matrix_function ln P e) (vec n v)| <=
      `|c| * log_bound n lo hi (rest n tol gram hi) m.
Proof.
move=> gram A v est params lo hi c P e N HA Hus Hlo Hr Hf HP Sv Hv Se.
have [est' [E _ _ Hval _]] := matrix_each eps_gt0 size_alloc eigh_ok svd_ok pw f m_gt0 tol_gt0 orth
  (gram := gram) params (conv := [:: false]) (num := 1) isT HA Hus isT Se Sv Hv.
exists est'. split=> //.
exact: (@value_log (fun _ => denotes A n n) gram [::] (vec n v) _ lo hi c P e Hus Hv Hlo Hr Hf HP (Hval 0%N isT isT)).
Qed.

(** C86, the samples for all parameters of A + t B at once. *)
Theorem C86_affine : forall (A : storage R_rcfType) B (op : affine R_rcfType) (ts v : seq R) lo hi c,
  let N t := denotes A n n + t *: matrix_of_B B n n in
  well_formed A n n -> (forall s, B = Some s -> well_formed s n n /\ denotes s n n <> 0) ->
  affine_object n' A B op -> (0 < size ts)%N ->
  (forall t, t \in ts -> (N t)^T = N t /\ range_in (N t) lo hi) -> 0 < lo ->
  (forall y, lo <= y <= hi -> f (pw y) = c * ln y) ->
  size v = n -> vec n v != 0 ->
  exists est, slq_affine false op ts (size ts) (nseq (size ts) false) v (nseq (size ts) 0) =
      Some (nseq (size ts) false, est) /\ size est = size ts /\
    forall j P e, (j < size ts)%N -> spectral (N ts`_j) P e ->
      `|est`_j - n%:R * rayleigh (c *: matrix_function ln P e) (vec n v)| <=
        `|c| * log_bound n lo hi (rest n tol false hi) m.
Proof.
move=> A B op ts v lo hi c N HA HB Hop Hts HN Hlo Hf Sv Hv.
have Hd := @affine_delivers R_rcfType eps eps_gt0 alloc size_alloc eigh svd eigh_ok svd_ok pw f n' m m_gt0 tol tol_gt0 orth
  A B op ts HA HB Hop Hts (fun t Ht => (HN t Ht).1).
have [est [E S H]] := Hd (nseq (size ts) false) v (size_nseq _ _) Sv Hv.
exists est. split; first by move: E; rewrite if_same. split=> // j P e Hj HP.
have [Hsym Hr] := HN _ (mem_nth 0 Hj).
apply: (@value_log (fun p => denotes A n n + p`_0 *: matrix_of_B B n n) false [:: ts`_j]
  (vec n v) _ lo hi c P e Hsym Hv Hlo Hr Hf HP).
apply: H => //. by rewrite nth_nseq Hj orbT.
Qed.

(** C86, the estimate: [F] is the matrix whose quadratic forms are sampled, and
    its trace is the log-determinant (times c, the exponent). *)
Theorem C86_logdet : forall gram (A : storage R_rcfType) lo hi c,
  let N := subject gram (denotes A n n) in
  well_formed A n n -> usable gram (denotes A n n) -> 0 < lo -> range_in N lo hi ->
  (forall y, lo <= y <= hi -> f (pw y) = c * ln y) ->
  exists (sample : n.-tuple bool -> R) (F : 'M[R]_n),
    [/\ forall s, slq_matrix gram A [::] 1 [:: false] (signs R_rcfType s) [:: 0] = Some ([:: false], [:: sample s]),
        \tr F = c * ln (\det N), forall P e, spectral N P e -> F = c *: matrix_function ln P e &
        concentrated_within (R := R_rcfType) F (`|c| * log_bound n lo hi (rest n tol gram hi) m) sample].
Proof.
move=> gram A lo hi c N HA Hus Hlo Hr Hf.
have Hsym : N^T = N by exact: (@target_sym R_rcfType n' gram).
have [P [e HP]] := spectral_theorem Hsym.
pose sample (s : n.-tuple bool) := (odflt ([::], [::]) (slq_matrix gram A [::] 1 [:: false] (signs R_rcfType s) [:: 0])).2`_0.
have Hs (s : n.-tuple bool) :
  slq_matrix gram A [::] 1 [:: false] (signs R_rcfType s) [:: 0] = Some ([:: false], [:: sample s]) /\
  `|sample s - ip (vec n (signs R_rcfType s)) ((c *: matrix_function ln P e) *m vec n (signs R_rcfType s))| <=
  `|c| * log_bound n lo hi (rest n tol gram hi) m.
{ have Hsz : (n <= size (signs R_rcfType s))%N by rewrite size_map size_tuple.
  have [est' [E Se _ Hval _]] := matrix_each eps_gt0 size_alloc eigh_ok svd_ok pw f m_gt0 tol_gt0 orth
    (gram := gram) [::] (conv := [:: false]) (est := [:: 0]) (num := 1) isT HA Hus isT isT Hsz (signs_nz R_rcfType s).
  have := @value_log (fun _ => denotes A n n) gram [::] _ _ lo hi c P e Hus (signs_nz R_rcfType s) Hlo Hr Hf HP
    (Hval 0%N isT isT).
  rewrite signs_form /sample => H. case: est' Se E {Hval} H => [|x [|]] //= _ E H. by rewrite E. }
exists sample, (c *: matrix_function ln P e). split.
- move=> s. exact: (Hs s).1.
- rewrite mxtraceZ (logdet_trace HP) // => i. have /andP [H _] := spectral_range HP Hr i. exact: lt_le_trans H.
- move=> P' e' HP'. by rewrite (matrix_function_unique ln HP HP').
- apply: within => s. exact: (Hs s).2.
Qed.
End Slq.

Lemma odd_pos m : (0 < m)%N -> (0 < 2 * m - 1)%N. Proof. lia. Qed.
Lemma odd_le m m' : (m <= m')%N -> (2 * m - 1 <= 2 * m' - 1)%N. Proof. lia. Qed.

(** The bound decreases with lanczos_degree and with lanczos_tol. *)
Theorem C86_monotone (F : rcfType) n gram (lo hi tol tol' : F) m m' : 0 < lo -> lo <= hi -> (0 < m <= m')%N -> 0 < tol' <= tol ->
  log_bound n lo hi (rest n tol' gram hi) m' <= log_bound n lo hi (rest n tol gram hi) m.
Proof.
move=> Hlo Hhi /andP [Hm0 Hm] /andP [Ht' Ht]. have Hh : 0 < hi by exact: lt_le_trans Hhi.
have Hs : 0 < hi + lo by exact: addr_gt0.
rewrite /log_bound ler_wpmul2l ?ler0n // le_maxl !le_maxr; apply/andP; split; apply/orP; [left|right].
- have Hl' := ltW Hlo. have Hs' := ltW Hs.
  have H0 : 0 <= (hi - lo) / (hi + lo) by rewrite divr_ge0 ?subr_ge0.
  have H1 : (hi - lo) / (hi + lo) <= 1 by rewrite ler_pdivr_mulr // mul1r ler_add2l -subr_ge0 opprK addr_ge0.
  have H2 : (2 * m <= 2 * m')%N by rewrite leq_mul2l.
  have P1 := odd_pos Hm0. have P2 := odd_pos (leq_trans Hm0 Hm).
  apply: ler_pmul.
  + by rewrite divr_ge0 // mulr_ge0 ?ler0n.
  + exact: exprn_ge0.
  + rewrite ler_pmul2l // lef_pinv ?posrE ?mulr_gt0 ?ltr0n // ler_pmul2l // ler_nat. exact: odd_le.
  + exact: (ler_wiexpn2l H0 H1 H2).
- rewrite ler_pmul2r ?invr_gt0 // /rest ler_wpmul2l //; last by rewrite ler_wpmul2r ?sqrtr_ge0.
  by case: gram; rewrite ?sqrtr_ge0 ?ler01.
Qed.

(** The functions of the code meet the hypothesis on f and pw: the logarithm after
    pow( . , p), and for C85 the inverse after pow( . , 1). *)
Theorem C86_code_function (p : R) (f : R -> R) : (forall x y, FunModel.logarithm x = Some y -> f x = y) ->
  forall y, 0 < y -> f (Rpower y p) = p * ln y.
Proof.
move=> Hf y /RltP Hy. apply: Hf. rewrite /FunModel.logarithm /Rpower.
case: Rlt_dec => [_|H]; last by case: H; exact: exp_pos. by rewrite ln_exp.
Qed.

Theorem C85_code_function (f : R -> R) : (forall x y, FunModel.inverse x = Some y -> f x = y) ->
  forall y, 0 < y -> f (Rpower y 1) = y^-1.
Proof.
move=> Hf y Hy. have Hn := lt0r_neq0 Hy. rewrite Rpower_1; last exact/RltP. apply: Hf.
rewrite /FunModel.inverse /FunModel.divide. case: Req_EM_T => [H|_]; first by rewrite H eqxx in Hn.
congr Some. by rewrite -RdivE // div1r.
Qed.

(** With one step all samples of the log-determinant of diag(1, 3) are ln 4, while
    it is ln 3. *)
Theorem C86_one_step_biased : forall (eps : R) alloc eigh svd (tol : R) (orth : int),
  0 < eps -> (forall k, size (alloc k) = k) -> eigh_contract (R := R_rcfType) eigh -> svd_contract (R := R_rcfType) svd ->
  0 < tol ->
  (forall s : 2.-tuple bool,
    slq_matrix (R := R_rcfType) eps alloc eigh svd id ln 2 1 tol orth false (diag13 R_rcfType) [::] 1 [:: false]
      (signs R_rcfType s) [:: 0] = Some ([:: false], [:: ln 4%:R])) /\
  ln (\det (denotes (diag13 R_rcfType) 2 2)) = ln 3%:R.
Proof.
move=> eps alloc eigh svd tol orth He Hal Hei Hsv Ht. split.
- move=> s. have Hsz : (2 <= size (signs R_rcfType s))%N by rewrite size_map size_tuple.
  have [est' [E Se _ Hval _]] := @matrix_each R_rcfType eps He alloc Hal eigh svd Hei Hsv id ln 1 1 isT tol Ht orth
    false (diag13 R_rcfType) [::] [:: false] (signs R_rcfType s) [:: 0] 1 isT isT (diag13_sym R_rcfType) isT isT Hsz (signs_nz R_rcfType s).
  have := PropAgree.one_step (diag13_sym R_rcfType) (signs_nz R_rcfType s) Ht (Hval 0%N isT isT).
  have -> : rayleigh (denotes (diag13 R_rcfType) 2 2) (vec 2 (signs R_rcfType s)) = 2%:R.
  { rewrite /rayleigh signs_norm diag13_form !big_ord_recl big_ord0 addr0 !signsE !sign_sqr !mulr1 /=.
    by rewrite -(natrD _ 1 3) (natrM _ 2 2) mulfK // pnatr_eq0. }
  have -> : 2%:R * ln (id 2%:R) = ln 4%:R.
  { have H2 : (0 < 2%:R :> R)%R by rewrite ltr0n. rewrite (natrM _ 2 2) mulr_natl mulr2n.
    apply: esym. by apply: ln_mult; apply/RltP. }
  move=> E1. rewrite E. by case: est' Se E1 {E Hval} => [|x [|]] //= _ ->.
- congr ln. have -> : denotes (diag13 R_rcfType) 2 2 = diag_mx (\row_i (if i == 0 then 1 else 3%:R)) :> 'M[R]_2.
  { apply/matrixP => i j. by rewrite diag13_entry !mxE. }
  by rewrite det_diag !big_ord_recl big_ord0 !mxE /= mul1r mulr1.
Qed.

Definition C86_assumptions := (@C86_sample, @C86_affine, @C86_logdet, @C86_monotone, @C86_code_function,
  @C85_code_function, @C86_one_step_biased).
Print Assumptions C86_assumptions.

(** The hypotheses are met by diag(1, 3): five steps are good for
    2 max(4 / 9 / 1024, sqrt 2 tol) up to the deviation of the random vectors. *)
Example C86_case : exists eigh svd sample F,
  [/\ forall s : 2.-tuple bool, slq_matrix (R := R_rcfType) 1 (fun k => nseq k 0) eigh svd id ln 2 5 (2%:R^-1 ^+ 12) (-1) false
        (diag13 R_rcfType) [::] 1 [:: false] (signs R_rcfType s) [:: 0] = Some ([:: false], [:: sample s]),
      \tr F = ln 3%:R &
      concentrated_within (R := R_rcfType) F (log_bound 2 1 3%:R (rest 2 (2%:R^-1 ^+ 12) false 3%:R) 5) sample].
Proof.
have [eigh He] := eigh_contract_met R_rcfType. have [svd Hs] := svd_contract_met R_rcfType.
have Hal : forall k, size (nseq k (0 : R)) = k by move=> k; rewrite size_nseq.
have H2 : 0 < (2%:R^-1 : R) ^+ 12 by rewrite exprn_gt0 // invr_gt0 ltr0n.
have Hln : forall y : R, 1 <= y <= 3%:R -> ln (id y) = 1 * ln y by move=> y _; rewrite mul1r.
have [sample [F [H1 H3 _ H4]]] := @C86_logdet 1 ltr01 _ Hal eigh svd He Hs id ln 1 5 isT _ H2 (-1) false
  (diag13 R_rcfType) 1 3%:R 1 isT (diag13_sym R_rcfType) ltr01 (@diag13_range R_rcfType) Hln.
exists eigh, svd, sample, F. split=> //.
- rewrite H3 mul1r.
  by have [_ ->] := @C86_one_step_biased 1 (fun k => nseq k 0) eigh svd 1 (-1) ltr01 Hal He Hs ltr01.
- move: H4. by rewrite normr1 mul1r.
Qed.
