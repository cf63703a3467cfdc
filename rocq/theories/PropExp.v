(** How lanczos_degree and lanczos_tol bound the error of trexp: C88. *)
Require Import Reals Lra.
From mathcomp Require Import all_ssreflect all_algebra.
From mathcomp Require Import zify.
From Verif Require Import RealField ExpMath.
From Verif Require Import Mem KernelModel KernelSpec OperatorModel OperatorSpec OperatorProofs.
From Verif Require Import LanczosModel LanczosSpec LanczosMath LanczosProofs GolubKahnProofs.
From Verif Require Import Spectral SlqModel SlqSpec SlqProofs ExactProofs PropSlq SlqRunValues.
From Verif Require Import VarianceSpec PropVariance AccuracySpec AccuracyProofs PropAccuracy ExpSpec ExpProofs.
From Verif Require PropAgree FunModel.
Set Implicit Arguments.
Unset Strict Implicit.
Unset Printing Implicit Defensive.
Import GRing.Theory Num.Theory Order.TTheory.
Local Open Scope ring_scope.

Section Slq.
Variable eps : R.
Hypothesis eps_gt0 : 0 < eps.
Variable alloc : nat -> seq R.
Hypothesis size_alloc : forall k, size (alloc k) = k.
Variable eigh svd : nat -> seq R -> seq R -> option (seq R * seq R).
Hypothesis eigh_ok : eigh_contract (R := R_rcfType) eigh.
Hypothesis svd_ok : svd_contract (R := R_rcfType) svd.
Variable pw f : R -> R.
Variable n' m : nat.
Notation n := n'.+1.
Hypothesis m_gt0 : (0 < m)%N.
Variable tol : R.
Hypothesis tol_gt0 : 0 < tol.
Variable orth : int.
Notation slq_matrix := (slq_matrix (R := R_rcfType) eps alloc eigh svd pw f n m tol orth).
Notation slq_affine := (slq_affine (R := R_rcfType) eps alloc eigh svd pw f n m tol orth).
Notation subject gram M := (if gram then M^T *m M else M).
Notation usable gram M := (if gram then forall x : 'cV_n, M *m x = 0 -> x = 0 else M^T = M).

Lemma value_exp (Mat : seq R -> 'M[R]_n) gram p w x lo hi c P e : admissible Mat gram p -> w != 0 ->
  range_in (target gram (Mat p)) lo hi -> (forall y, lo <= y <= hi -> f (pw y) = exp (c * y)) ->
  spectral (target gram (Mat p)) P e -> value_of (R := R_rcfType) Mat pw f m tol gram p w x ->
  `|x - n%:R * rayleigh (matrix_function (fun y => exp (c * y)) P e) w| <=
    exp_bound n lo hi c (rest n tol gram hi) m.
Proof.
move=> Had Hw Hr Hf HP Hval.
have [k [V [T [r [Q [d [Hk Hlz Hsp Hstop [-> Hex]]]]]]]] := value_lanczos tol_gt0 Had Hw Hr Hval.
have Hd : forall i, lo <= d 0 i <= hi by case: Hlz => HV _ [HT _] _ _; exact: ritz_bounds HV HT Hsp Hr.
rewrite (@mf_ext R_rcfType _ Q d _ (fun y => exp (c * y))); last by move=> i; exact: Hf.
rewrite -mulrBr normrM ger0_norm ?ler0n // /exp_bound ler_wpmul2l ?ler0n //.
have He : 0 <= exp (Num.max (c * lo) (c * hi)) by apply/RleP; left; exact: exp_pos.
case: (ltnP k.+1 m) => Hkm.
- apply: le_trans (exp_perturbed Hw Hr Hlz Hsp HP c) _. apply: (ler_wpmul2l He).
  rewrite le_maxr. apply/orP; right. apply: (ler_wpmul2l (normr_ge0 c)). exact: ltW (Hstop Hkm).
- have Ekm : k.+1 = m by apply/eqP; rewrite eqn_leq Hk Hkm.
  apply: le_trans (exp_degree Hw Hr Hlz Hsp HP c (D := 2 * m) _) _.
    by move=> q Hq; apply: Hex; left; rewrite Ekm.
  apply: (ler_wpmul2l He). by rewrite le_maxr lexx.
Qed.

(** C88, one sample. *)
Theorem C88_sample : forall gram (A : storage R_rcfType) (v est params : seq R) lo hi c P e,
  let N := subject gram (denotes A n n) in
  well_formed A n n -> usable gram (denotes A n n) -> range_in N lo hi ->
  (forall y, lo <= y <= hi -> f (pw y) = exp (c * y)) -> spectral N P e ->
  (n <= size v)%N -> vec n v != 0 -> (0 < size est)%N ->
  exists est', slq_matrix gram A params 1 [:: false] v est = Some ([:: false], est') /\
    `|est'`_0 - n%:R * rayleigh (matrix_function (fun y => exp (c * y)) P e) (vec n v)| <=
      exp_bound n lo hi c (rest n tol gram hi) m.
Proof.
move=> gram A v est params lo hi c P e N HA Hus Hr Hf HP Sv Hv Se.
have [est' [E _ _ Hval _]] := matrix_each eps_gt0 size_alloc eigh_ok svd_ok pw f m_gt0 tol_gt0 orth
  (gram := gram) params (conv := [:: false]) (num := 1) isT HA Hus isT Se Sv Hv.
exists est'. split=> //.
exact: (@value_exp (fun _ => denotes A n n) gram [::] (vec n v) _ lo hi c P e Hus Hv Hr Hf HP (Hval 0%N isT isT)).
Qed.

(** C88, the samples for all parameters of A + t B at once. *)
Theorem C88_affine : forall (A : storage R_rcfType) B (op : affine R_rcfType) (ts v : seq R) lo hi c,
  let N t := denotes A n n + t *: matrix_of_B B n n in
  well_formed A n n -> (forall s, B = Some s -> well_formed s n n /\ denotes s n n <> 0) ->
  affine_object n' A B op -> (0 < size ts)%N ->
  (forall t, t \in ts -> (N t)^T = N t /\ range_in (N t) lo hi) ->
  (forall y, lo <= y <= hi -> f (pw y) = exp (c * y)) ->
  size v = n -> vec n v != 0 ->
  exists est, slq_affine false op ts (size ts) (nseq (size ts) false) v (nseq (size ts) 0) =
      Some (nseq (size ts) false, est) /\ size est = size ts /\
    forall j P e, (j < size ts)%N -> spectral (N ts`_j) P e ->
      `|est`_j - n%:R * rayleigh (matrix_function (fun y => exp (c * y)) P e) (vec n v)| <=
        exp_bound n lo hi c (rest n tol false hi) m.
Proof.
move=> A B op ts v lo hi c N HA HB Hop Hts HN Hf Sv Hv.
have Hd := @affine_delivers R_rcfType eps eps_gt0 alloc size_alloc eigh svd eigh_ok svd_ok pw f n' m m_gt0 tol tol_gt0 orth
  A B op ts HA HB Hop Hts (fun t Ht => (HN t Ht).1).
have [est [E S H]] := Hd (nseq (size ts) false) v (size_nseq _ _) Sv Hv.
exists est. split; first by move: E; rewrite if_same. split=> // j P e Hj HP.
have [Hsym Hr] := HN _ (mem_nth 0 Hj).
apply: (@value_exp (fun p => denotes A n n + p`_0 *: matrix_of_B B n n) false [:: ts`_j]
  (vec n v) _ lo hi c P e Hsym Hv Hr Hf HP).
apply: H => //. by rewrite nth_nseq Hj orbT.
Qed.

(** C88, the mean over random sign vectors. *)
Theorem C88_trexp : forall gram (A : storage R_rcfType) lo hi c,
  let N := subject gram (denotes A n n) in
  well_formed A n n -> usable gram (denotes A n n) -> range_in N lo hi ->
  (forall y, lo <= y <= hi -> f (pw y) = exp (c * y)) ->
  exists (sample : n.-tuple bool -> R) (F : 'M[R]_n),
    [/\ forall s, slq_matrix gram A [::] 1 [:: false] (signs R_rcfType s) [:: 0] = Some ([:: false], [:: sample s]),
        forall P e, spectral N P e -> F = matrix_function (fun y => exp (c * y)) P e,
        forall P e, spectral N P e -> \tr F = \sum_i exp (c * e 0 i) &
        concentrated_within (R := R_rcfType) F (exp_bound n lo hi c (rest n tol gram hi) m) sample].
Proof.
move=> gram A lo hi c N HA Hus Hr Hf.
have Hsym : N^T = N by exact: (@target_sym R_rcfType n' gram).
have [P [e HP]] := spectral_theorem Hsym. set g := fun y => exp (c * y).
pose sample (s : n.-tuple bool) := (odflt ([::], [::]) (slq_matrix gram A [::] 1 [:: false] (signs R_rcfType s) [:: 0])).2`_0.
have Hs (s : n.-tuple bool) :
  slq_matrix gram A [::] 1 [:: false] (signs R_rcfType s) [:: 0] = Some ([:: false], [:: sample s]) /\
  `|sample s - ip (vec n (signs R_rcfType s)) (matrix_function g P e *m vec n (signs R_rcfType s))| <=
  exp_bound n lo hi c (rest n tol gram hi) m.
{ have Hsz : (n <= size (signs R_rcfType s))%N by rewrite size_map size_tuple.
  have [est' [E Se _ Hval _]] := matrix_each eps_gt0 size_alloc eigh_ok svd_ok pw f m_gt0 tol_gt0 orth
    (gram := gram) [::] (conv := [:: false]) (est := [:: 0]) (num := 1) isT HA Hus isT isT Hsz (signs_nz R_rcfType s).
  have := @value_exp (fun _ => denotes A n n) gram [::] _ _ lo hi c P e Hus (signs_nz R_rcfType s) Hr Hf HP
    (Hval 0%N isT isT).
  rewrite signs_form /sample => H. case: est' Se E {Hval} H => [|x [|]] //= _ E H. by rewrite E. }
have HF P' e' : spectral N P' e' -> matrix_function g P e = matrix_function g P' e'.
{ move=> HP'. by rewrite (matrix_function_unique g HP HP'). }
exists sample, (matrix_function g P e). split=> //.
- move=> s. exact: (Hs s).1.
- move=> P' e' HP'. rewrite (HF _ _ HP') /matrix_function mxtrace_mulC mulmxA HP'.1 mul1mx mxtrace_diag.
  by apply: eq_bigr => i _; rewrite mxE.
- apply: within => s. exact: (Hs s).2.
Qed.
End Slq.

(** For every accuracy there is a degree from which on the error is below it, up to
    the tolerance. *)
Theorem C88_degree n (lo hi c rest b : R) : 0 <= rest -> 0 < b ->
  exists m0, forall m, (m0 <= m)%N ->
    exp_bound n lo hi c rest m < n%:R * (exp (Num.max (c * lo) (c * hi)) * (`|c| * rest)) + b.
Proof.
move=> Hrest Hb. set E := exp _. have HE : 0 < E by apply/RltP; exact: exp_pos.
have Hn : 0 < n%:R + 1 :> R by rewrite ltr_paddl ?ler0n ?ltr01.
pose delta := b / (2%:R * (n%:R + 1) * E).
have Hp : 0 < delta by rewrite divr_gt0 ?mulr_gt0 ?ltr0n.
have Eb : (n%:R + 1) * (E * (2%:R * delta)) = b.
{ rewrite mulrA mulrCA mulrA [2%:R * _]mulrA /delta mulrC mulfVK // gt_eqF // !mulr_gt0 ?ltr0n //. }
pose x : R := (`|c| * ((hi - lo) / 2%:R))%R.
have [M HM] : exists M, forall N, (M <= N)%coq_nat -> Rlt (Rabs (eterm x N)) delta.
{ apply: term_small. exact/RltP. }
exists M => m Hm. rewrite /exp_bound -/E termE -/x. set u := `|c| * rest.
have Hu : 0 <= u by rewrite mulr_ge0.
have H : eterm x (2 * m) <= delta.
{ apply: le_trans (ler_norm _) _. apply/ltW/RltP. apply: HM. apply/ssrnat.leP. by apply: leq_trans Hm _; rewrite leq_pmull. }
have Hmax : Num.max (2%:R * eterm x (2 * m)) u <= u + 2%:R * delta.
{ have H2 : 0 <= 2%:R * delta by rewrite mulr_ge0 ?ler0n // ltW.
  rewrite le_maxl ler_addl H2 andbT. apply: le_trans (ler_wpmul2l _ H) _; first exact: ler0n.
  by rewrite ler_addr. }
apply: le_lt_trans (ler_wpmul2l (ler0n _ _) (ler_wpmul2l (ltW HE) Hmax)) _.
have H2 : 0 < E * (2%:R * delta) by apply: mulr_gt0 => //; apply: mulr_gt0 => //; rewrite ltr0n.
by rewrite mulrDr mulrDr ltr_add2l -[X in _ < X]Eb mulrDl mul1r ltr_addl.
Qed.

(** The function of the code with exponent 1 meets the hypothesis on f and pw. *)
Theorem C88_code_function (coeff : R) (pw : R -> R) : (forall y, 0 < y -> pw y = Rpower y 1) ->
  forall y, 0 < y -> FunModel.exponential coeff (pw y) = exp (coeff * y).
Proof.
move=> Hpw y Hy. rewrite Hpw // Rpower_1; last exact/RltP. by rewrite /FunModel.exponential Rmult_comm.
Qed.

(** With one step all samples for diag(1, 3) are 2 exp 2, while the trace is
    exp 1 + exp 3, which is more. *)
Theorem C88_one_step_biased : forall (eps : R) alloc eigh svd (tol : R) (orth : int),
  0 < eps -> (forall k, size (alloc k) = k) -> eigh_contract (R := R_rcfType) eigh -> svd_contract (R := R_rcfType) svd ->
  0 < tol ->
  (forall s : 2.-tuple bool,
    slq_matrix (R := R_rcfType) eps alloc eigh svd id exp 2 1 tol orth false (diag13 R_rcfType) [::] 1 [:: false]
      (signs R_rcfType s) [:: 0] = Some ([:: false], [:: 2%:R * exp 2%:R])) /\
  2%:R * exp 2%:R < exp 1 + exp 3%:R.
Proof.
move=> eps alloc eigh svd tol orth He Hal Hei Hsv Ht. split.
- move=> s. have Hsz : (2 <= size (signs R_rcfType s))%N by rewrite size_map size_tuple.
  have [est' [E Se _ Hval _]] := @matrix_each R_rcfType eps He alloc Hal eigh svd Hei Hsv id exp 1 1 isT tol Ht orth
    false (diag13 R_rcfType) [::] [:: false] (signs R_rcfType s) [:: 0] 1 isT isT (diag13_sym R_rcfType) isT isT Hsz (signs_nz R_rcfType s).
  have := PropAgree.one_step (diag13_sym R_rcfType) (signs_nz R_rcfType s) Ht (Hval 0%N isT isT).
  have -> : rayleigh (denotes (diag13 R_rcfType) 2 2) (vec 2 (signs R_rcfType s)) = 2%:R.
  { rewrite /rayleigh signs_norm diag13_form !big_ord_recl big_ord0 addr0 !signsE !sign_sqr !mulr1 /=.
    by rewrite -(natrD _ 1 3) (natrM _ 2 2) mulfK // pnatr_eq0. }
  move=> E1. rewrite E. by case: est' Se E1 {E Hval} => [|x [|]] //= _ ->.
- apply/RltP. have E2 : (2%:R : R) = Rplus (IZR 1) (IZR 1) by [].
  have E3 : (3%:R : R) = Rplus (IZR 1) (Rplus (IZR 1) (IZR 1)) by [].
  rewrite E3 E2.
  change (Rlt (Rmult (Rplus (IZR 1) (IZR 1)) (exp (Rplus (IZR 1) (IZR 1))))
    (Rplus (exp (IZR 1)) (exp (Rplus (IZR 1) (Rplus (IZR 1) (IZR 1)))))).
  rewrite !exp_plus. have H1 := exp_ineq1 1 R1_neq_R0. set z := exp (IZR 1) in H1 *. nra.
Qed.

Definition C88_assumptions := (@C88_sample, @C88_affine, @C88_trexp, @C88_degree, @C88_code_function, @C88_one_step_biased).
Print Assumptions C88_assumptions.

(** The hypotheses are met by diag(1, 3): five steps are good for
    2 exp 3 max(2 / 10!, sqrt 2 tol) up to the deviation of the random vectors. *)
Example C88_case : exists eigh svd sample F,
  [/\ forall s : 2.-tuple bool, slq_matrix (R := R_rcfType) 1 (fun k => nseq k 0) eigh svd id exp 2 5 (2%:R^-1 ^+ 12) (-1) false
        (diag13 R_rcfType) [::] 1 [:: false] (signs R_rcfType s) [:: 0] = Some ([:: false], [:: sample s]),
      forall P e, spectral (R := R_rcfType) (denotes (diag13 R_rcfType) 2 2) P e -> \tr F = \sum_i exp (1 * e 0 i) &
      concentrated_within (R := R_rcfType) F (exp_bound 2 1 3%:R 1 (rest 2 (2%:R^-1 ^+ 12) false 3%:R) 5) sample].
Proof.
have [eigh He] := eigh_contract_met R_rcfType. have [svd Hs] := svd_contract_met R_rcfType.
have Hal : forall k, size (nseq k (0 : R)) = k by move=> k; rewrite size_nseq.
have H2 : 0 < (2%:R^-1 : R) ^+ 12 by rewrite exprn_gt0 // invr_gt0 ltr0n.
have Hexp : forall y : R, 1 <= y <= 3%:R -> exp (id y) = exp (1 * y) by move=> y _; rewrite Rmult_1_l.
have [sample [F [H1 _ H3 H4]]] := @C88_trexp 1 ltr01 _ Hal eigh svd He Hs id exp 1 5 isT _ H2 (-1) false
  (diag13 R_rcfType) 1 3%:R 1 isT (diag13_sym R_rcfType) (@diag13_range R_rcfType) Hexp.
by exists eigh, svd, sample, F.
Qed.
