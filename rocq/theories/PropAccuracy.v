(** How lanczos_degree and lanczos_tol bound the error of the samples: C85. *)
From Coq Require Import ZArith NArith.
From mathcomp Require Import all_ssreflect all_algebra.
From mathcomp Require Import zify.
From mathcomp.real_closed Require Import realalg.
From Verif Require Import Mem KernelModel KernelSpec OperatorModel OperatorSpec OperatorProofs.
From Verif Require Import LanczosModel LanczosSpec LanczosMath LanczosProofs GolubKahnProofs.
From Verif Require SlqRunProofs.
From Verif Require Import Spectral SlqModel SlqSpec SlqProofs ExactProofs PropSlq SlqRunValues.
From Verif Require Import VarianceSpec PropVariance AccuracySpec AccuracyProofs.
From Verif Require PropAgree.
Set Implicit Arguments.
Unset Strict Implicit.
Unset Printing Implicit Defensive.
Import GRing.Theory Num.Theory Order.TTheory.
Local Open Scope ring_scope.

Section Slq.
Variable R : rcfType.
Variable eps : R.
Hypothesis eps_gt0 : 0 < eps.
Variable alloc : nat -> seq R.
Hypothesis size_alloc : forall k, size (alloc k) = k.
Variable eigh svd : nat -> seq R -> seq R -> option (seq R * seq R).
Hypothesis eigh_ok : eigh_contract eigh.
Hypothesis svd_ok : svd_contract svd.
Variable pw f : R -> R.
Variable n' m : nat.
Notation n := n'.+1.
Hypothesis m_gt0 : (0 < m)%N.
Variable tol : R.
Hypothesis tol_gt0 : 0 < tol.
Variable orth : int.
Notation g := (fun x => f (pw x)).
Notation slq_matrix := (slq_matrix eps alloc eigh svd pw f n m tol orth).
Notation slq_affine := (slq_affine eps alloc eigh svd pw f n m tol orth).

(** What the samples are of: A, or A^T A with gram. *)
Notation subject gram M := (if gram then M^T *m M else M).
Notation usable gram M := (if gram then forall x : 'cV_n, M *m x = 0 -> x = 0 else M^T = M).

(** C85, any function: a sample after k + 1 steps is off by no more than twice n
    times the distance of the function to any polynomial of degree below
    2 (k + 1), on an interval that holds the eigenvalues; and fewer steps than
    lanczos_degree are done only if the remainder is below the tolerance. *)
Theorem C85_function : forall gram (A : storage R) (v est params : seq R) lo hi,
  let N := subject gram (denotes A n n) in
  well_formed A n n -> usable gram (denotes A n n) -> range_in N lo hi ->
  (n <= size v)%N -> vec n v != 0 -> (0 < size est)%N ->
  exists est', slq_matrix gram A params 1 [:: false] v est = Some ([:: false], est') /\
  exists k (V : 'M[R]_(n, k.+1)) T r,
    [/\ (k < m)%N, lanczos_result N (vec n v) V T r, ((k.+1 < m)%N -> nrm r < rest n tol gram hi) &
        forall (q : {poly R}) delta P e, (size q <= 2 * k.+1)%N \/ r = 0 -> approximates g q lo hi delta -> spectral N P e ->
          `|est'`_0 - n%:R * rayleigh (matrix_function g P e) (vec n v)| <= n%:R * (2%:R * delta)].
Proof.
move=> gram A v est params lo hi N HA Hus Hr Sv Hv Se.
have [est' [E _ _ Hval _]] := matrix_each eps_gt0 size_alloc eigh_ok svd_ok pw f m_gt0 tol_gt0 orth
  (gram := gram) params (conv := [:: false]) (num := 1) isT HA Hus isT Se Sv Hv.
exists est'. split=> //.
have [k [V [T [r [Q [d [Hk Hlz Hsp Hstop [Ex Hex]]]]]]]] :=
  @value_lanczos R pw f n' m tol tol_gt0 (fun _ => denotes A n n) gram [::] (vec n v) _ lo hi Hus Hv Hr (Hval 0%N isT isT).
exists k, V, T, r. split=> // q delta P e Hq Happ HP.
rewrite Ex -mulrBr normrM ger0_norm ?ler0n // ler_wpmul2l ?ler0n // mulr_natl.
exact: quadrature_error Hv Hlz Hsp Hr (Hex q Hq) Happ HP.
Qed.

(** C85, the inverse. *)
Theorem C85_inverse : forall gram (A : storage R) (v est params : seq R) lo hi,
  let N := subject gram (denotes A n n) in
  well_formed A n n -> usable gram (denotes A n n) -> 0 < lo -> range_in N lo hi ->
  (forall y, lo <= y <= hi -> f (pw y) = y^-1) ->
  (n <= size v)%N -> vec n v != 0 -> (0 < size est)%N ->
  exists est', slq_matrix gram A params 1 [:: false] v est = Some ([:: false], est') /\
    `|est'`_0 - n%:R * rayleigh (invmx N) (vec n v)| <= inverse_bound n lo hi (rest n tol gram hi) m.
Proof.
move=> gram A v est params lo hi N HA Hus Hlo Hr Hf Sv Hv Se.
have [est' [E _ _ Hval _]] := matrix_each eps_gt0 size_alloc eigh_ok svd_ok pw f m_gt0 tol_gt0 orth
  (gram := gram) params (conv := [:: false]) (num := 1) isT HA Hus isT Se Sv Hv.
exists est'. split=> //.
exact: (@value_inverse R pw f n' m tol tol_gt0 (fun _ => denotes A n n) gram [::] (vec n v) _ lo hi Hus Hv Hlo Hr Hf
  (Hval 0%N isT isT)).
Qed.

(** The same for all parameters of A + t B at once. *)
Theorem C85_inverse_affine : forall (A : storage R) B (op : affine R) (ts v : seq R) lo hi,
  let N t := denotes A n n + t *: matrix_of_B B n n in
  well_formed A n n -> (forall s, B = Some s -> well_formed s n n /\ denotes s n n <> 0) ->
  affine_object n' A B op -> (0 < size ts)%N ->
  (forall t, t \in ts -> (N t)^T = N t /\ range_in (N t) lo hi) -> 0 < lo ->
  (forall y, lo <= y <= hi -> f (pw y) = y^-1) ->
  size v = n -> vec n v != 0 ->
  exists est, slq_affine false op ts (size ts) (nseq (size ts) false) v (nseq (size ts) 0) =
      Some (nseq (size ts) false, est) /\ size est = size ts /\
    forall j, (j < size ts)%N ->
      `|est`_j - n%:R * rayleigh (invmx (N ts`_j)) (vec n v)| <= inverse_bound n lo hi (rest n tol false hi) m.
Proof.
move=> A B op ts v lo hi N HA HB Hop Hts HN Hlo Hf Sv Hv.
have Hd := @affine_delivers R eps eps_gt0 alloc size_alloc eigh svd eigh_ok svd_ok pw f n' m m_gt0 tol tol_gt0 orth
  A B op ts HA HB Hop Hts (fun t Ht => (HN t Ht).1).
have [est [E S H]] := Hd (nseq (size ts) false) v (size_nseq _ _) Sv Hv.
exists est. split; first by move: E; rewrite if_same. split=> // j Hj.
have [Hsym Hr] := HN _ (mem_nth 0 Hj).
apply: (@value_inverse R pw f n' m tol tol_gt0 (fun p => denotes A n n + p`_0 *: matrix_of_B B n n) false [:: ts`_j]
  (vec n v) _ lo hi Hsym Hv Hlo Hr Hf).
apply: H => //. by rewrite nth_nseq Hj orbT.
Qed.

Lemma signs_norm (s : n.-tuple bool) : ip (vec n (signs R s)) (vec n (signs R s)) = n%:R.
Proof. rewrite /ip. under eq_bigr do rewrite signsE sign_sqr. by rewrite sumr_const card_ord. Qed.

Lemma signs_nz (s : n.-tuple bool) : vec n (signs R s) != 0.
Proof. by rewrite -ip_eq0 signs_norm pnatr_eq0. Qed.

Lemma signs_form (F : 'M[R]_n) (s : n.-tuple bool) :
  n%:R * rayleigh F (vec n (signs R s)) = ip (vec n (signs R s)) (F *m vec n (signs R s)).
Proof. by rewrite /rayleigh signs_norm mulrC divfK // pnatr_eq0. Qed.

(** C85, the estimate: the mean of the samples of the trace of the inverse, on
    average and for all but few choices of the vectors. *)
Theorem C85_traceinv : forall gram (A : storage R) lo hi,
  let N := subject gram (denotes A n n) in
  well_formed A n n -> usable gram (denotes A n n) -> 0 < lo -> range_in N lo hi ->
  (forall y, lo <= y <= hi -> f (pw y) = y^-1) ->
  exists sample : n.-tuple bool -> R,
    (forall s, slq_matrix gram A [::] 1 [:: false] (signs R s) [:: 0] = Some ([:: false], [:: sample s])) /\
    concentrated_within (invmx N) (inverse_bound n lo hi (rest n tol gram hi) m) sample.
Proof.
move=> gram A lo hi N HA Hus Hlo Hr Hf.
have Hex (s : n.-tuple bool) : exists x, slq_matrix gram A [::] 1 [:: false] (signs R s) [:: 0] = Some ([:: false], [:: x]) /\
  `|x - ip (vec n (signs R s)) (invmx N *m vec n (signs R s))| <= inverse_bound n lo hi (rest n tol gram hi) m.
{ have Hsz : (n <= size (signs R s))%N by rewrite size_map size_tuple.
  have [est' [E Se _ Hval _]] := matrix_each eps_gt0 size_alloc eigh_ok svd_ok pw f m_gt0 tol_gt0 orth
    (gram := gram) [::] (conv := [:: false]) (est := [:: 0]) (num := 1) isT HA Hus isT isT Hsz (signs_nz s).
  have := @value_inverse R pw f n' m tol tol_gt0 (fun _ => denotes A n n) gram [::] _ _ lo hi Hus (signs_nz s) Hlo Hr Hf
    (Hval 0%N isT isT).
  rewrite signs_form => H. case: est' Se E {Hval} H => [|x [|]] //= _ E H. by exists x. }
pose sample (s : n.-tuple bool) := (odflt ([::], [::]) (slq_matrix gram A [::] 1 [:: false] (signs R s) [:: 0])).2`_0.
have Hs (s : n.-tuple bool) : slq_matrix gram A [::] 1 [:: false] (signs R s) [:: 0] = Some ([:: false], [:: sample s]) /\
  `|sample s - ip (vec n (signs R s)) (invmx N *m vec n (signs R s))| <= inverse_bound n lo hi (rest n tol gram hi) m.
{ have [x [E H]] := Hex s. by rewrite /sample E. }
exists sample. split=> [s|]; first exact: (Hs s).1.
apply: within => s. exact: (Hs s).2.
Qed.

(** C85, any function, the estimate: when no run stops early, or stops only
    without a remainder. *)
Theorem C85_trace : forall gram (A : storage R) lo hi (q : {poly R}) delta P e,
  let N := subject gram (denotes A n n) in
  well_formed A n n -> usable gram (denotes A n n) -> range_in N lo hi ->
  approximates g q lo hi delta -> spectral N P e -> (size q <= 2 * m)%N ->
  (size q <= 2)%N \/
  (forall (s : n.-tuple bool) k (V : 'M_(n, k.+1)) T r, (k.+1 < m)%N ->
    lanczos_result N (vec n (signs R s)) V T r -> nrm r < rest n tol gram hi -> r = 0) ->
  exists sample : n.-tuple bool -> R,
    (forall s, slq_matrix gram A [::] 1 [:: false] (signs R s) [:: 0] = Some ([:: false], [:: sample s])) /\
    concentrated_within (matrix_function g P e) (n%:R * (2%:R * delta)) sample.
Proof.
move=> gram A lo hi q delta P e N HA Hus Hr Happ HP Hq Hearly.
pose sample (s : n.-tuple bool) := (odflt ([::], [::]) (slq_matrix gram A [::] 1 [:: false] (signs R s) [:: 0])).2`_0.
have Hs (s : n.-tuple bool) : slq_matrix gram A [::] 1 [:: false] (signs R s) [:: 0] = Some ([:: false], [:: sample s]) /\
  `|sample s - ip (vec n (signs R s)) (matrix_function g P e *m vec n (signs R s))| <= n%:R * (2%:R * delta).
{ have Hsz : (n <= size (signs R s))%N by rewrite size_map size_tuple.
  have [est' [E Se _ Hval _]] := matrix_each eps_gt0 size_alloc eigh_ok svd_ok pw f m_gt0 tol_gt0 orth
    (gram := gram) [::] (conv := [:: false]) (est := [:: 0]) (num := 1) isT HA Hus isT isT Hsz (signs_nz s).
  have [k [V [T [r [Q [d [Hk Hlz Hsp Hstop [Ex Hex]]]]]]]] :=
    @value_lanczos R pw f n' m tol tol_gt0 (fun _ => denotes A n n) gram [::] _ _ lo hi Hus (signs_nz s) Hr (Hval 0%N isT isT).
  have Hcase : (size q <= 2 * k.+1)%N \/ r = 0.
  { case: Hearly => [Hle|H0]; first by left; lia.
    case: (ltnP k.+1 m) => Hkm; last by left; lia.
    right. exact: (H0 s k V T r Hkm Hlz (Hstop Hkm)). }
  rewrite /sample E /= -signs_form.
  case: est' Se E {Hval} Ex => [|x [|]] //= _ E Ex. split=> //.
  rewrite Ex -mulrBr normrM ger0_norm ?ler0n // ler_wpmul2l ?ler0n // mulr_natl.
  exact: quadrature_error (signs_nz s) Hlz Hsp Hr (Hex q Hcase) Happ HP. }
exists sample. split=> [s|]; first exact: (Hs s).1.
apply: within => s. exact: (Hs s).2.
Qed.
End Slq.

(** The bound decreases with lanczos_degree and with lanczos_tol. *)
Theorem C85_monotone (R : rcfType) n gram (lo hi tol tol' : R) m m' : 0 < lo -> lo <= hi -> (m <= m')%N -> 0 < tol' <= tol ->
  inverse_bound n lo hi (rest n tol' gram hi) m' <= inverse_bound n lo hi (rest n tol gram hi) m.
Proof.
move=> Hlo Hhi Hm /andP [Ht' Ht]. have Hh : 0 < hi by exact: lt_le_trans Hhi.
have Hs : 0 < hi + lo by exact: addr_gt0.
rewrite /inverse_bound ler_wpmul2l ?ler0n // le_maxl !le_maxr; apply/andP; split; apply/orP; [left|right].
- have Hl' := ltW Hlo. have Hs' := ltW Hs. have Hh' := ltW Hh. rewrite ler_wpmul2l ?divr_ge0 ?ler0n //.
  have H0 : 0 <= (hi - lo) / (hi + lo) by rewrite divr_ge0 ?subr_ge0.
  have H1 : (hi - lo) / (hi + lo) <= 1 by rewrite ler_pdivr_mulr // mul1r ler_add2l -subr_ge0 opprK addr_ge0.
  have H2 : (2 * m <= 2 * m')%N by rewrite leq_mul2l.
  exact: (ler_wiexpn2l H0 H1 H2).
- rewrite ler_pmul2r ?invr_gt0 ?exprn_gt0 // /rest ler_wpmul2l //; last by rewrite ler_wpmul2r ?sqrtr_ge0.
  by case: gram; rewrite ?sqrtr_ge0 ?ler01.
Qed.

(** Without the allowance for lanczos_degree the claim is false: with one step all
    samples of the trace of the inverse of diag(1, 3) are 1, and so is the mean of
    any number of them, while the trace is 4 / 3. *)
Section Biased.
Variable R : rcfType.
Definition diag13 : storage R := Dense true [:: 1; 0; 0; 3%:R].

Lemma diag13_entry i j : denotes diag13 2 2 i j = (if i == 0 then 1 else 3%:R) *+ (i == j) :> R.
Proof. rewrite !mxE. by case: i => [[|[|//]] Hi]; case: j => [[|[|//]] Hj]. Qed.

Lemma diag13_sym : (denotes diag13 2 2)^T = denotes diag13 2 2.
Proof. apply/matrixP => i j. rewrite mxE !diag13_entry [j == i]eq_sym. by have [->|] := eqVneq i j. Qed.

Lemma diag13_form (y : 'cV[R]_2) :
  ip y (denotes diag13 2 2 *m y) = \sum_i (if i == 0 then 1 else 3%:R) * (y i 0 * y i 0).
Proof.
apply: eq_bigr => i _. rewrite mxE (bigD1 i) //= big1 ?addr0.
- by rewrite diag13_entry eqxx mulr1n mulrCA.
- move=> k Hk. by rewrite diag13_entry [i == k]eq_sym (negbTE Hk) mulr0n mul0r.
Qed.

Lemma diag13_range : range_in (denotes diag13 2 2) 1 (3%:R : R).
Proof.
move=> y. rewrite diag13_form /ip !mulr_sumr. apply/andP; split; apply: ler_sum => i _; apply: ler_wpmul2r;
  rewrite -?expr2 ?sqr_ge0 //; case: ifP => _ //; by rewrite ler1n.
Qed.

Lemma diag13_inv : \tr (invmx (denotes diag13 2 2)) = 1 + 3%:R^-1 :> R.
Proof.
have E : denotes diag13 2 2 = diag_mx (\row_i (if i == 0 then 1 else 3%:R)) :> 'M[R]_2.
{ apply/matrixP => i j. by rewrite diag13_entry !mxE. }
have EI : denotes diag13 2 2 *m diag_mx (\row_i (if i == 0 then 1 else 3%:R^-1)) = 1%:M :> 'M[R]_2.
{ rewrite E. apply/matrixP => i j. rewrite mul_diag_mx !mxE.
  have [->|] := eqVneq i j; last by rewrite !mulr0n mulr0. rewrite !mulr1n.
  by case: ifP => _; rewrite ?mulr1 // mulfV // pnatr_eq0. }
have [HU _] := mulmx1_unit EI. have -> : invmx (denotes diag13 2 2) = diag_mx (\row_i (if i == 0 then 1 else 3%:R^-1)) :> 'M[R]_2.
{ by rewrite -[LHS]mulmx1 -EI mulKmx. }
by rewrite mxtrace_diag !big_ord_recl big_ord0 !mxE /= addr0.
Qed.

Theorem C85_one_step_biased : forall (eps : R) alloc eigh svd (tol : R) (orth : int),
  0 < eps -> (forall k, size (alloc k) = k) -> eigh_contract eigh -> svd_contract svd -> 0 < tol ->
  (forall s : 2.-tuple bool,
    slq_matrix eps alloc eigh svd id GRing.inv 2 1 tol orth false diag13 [::] 1 [:: false] (signs R s) [:: 0] =
    Some ([:: false], [:: 1])) /\
  \tr (invmx (denotes diag13 2 2)) = 1 + 3%:R^-1 :> R.
Proof.
move=> eps alloc eigh svd tol orth He Hal Hei Hsv Ht. split; last exact: diag13_inv. move=> s.
have Hsz : (2 <= size (signs R s))%N by rewrite size_map size_tuple.
have [est' [E Se _ Hval _]] := @matrix_each R eps He alloc Hal eigh svd Hei Hsv id GRing.inv 1 1 isT tol Ht orth
  false diag13 [::] [:: false] (signs R s) [:: 0] 1 isT isT diag13_sym isT isT Hsz (signs_nz R s).
have := PropAgree.one_step diag13_sym (signs_nz R s) Ht (Hval 0%N isT isT).
have -> : rayleigh (denotes diag13 2 2) (vec 2 (signs R s)) = 2%:R.
{ rewrite /rayleigh signs_norm diag13_form !big_ord_recl big_ord0 addr0 !signsE !sign_sqr !mulr1 /=.
  by rewrite -(natrD _ 1 3) (natrM _ 2 2) mulfK // pnatr_eq0. }
rewrite /= mulfV ?pnatr_eq0 // => E1. rewrite E.
by case: est' Se E1 {E Hval} => [|x [|]] //= _ ->.
Qed.
End Biased.

Definition C85_assumptions := (@C85_function, @C85_inverse, @C85_inverse_affine, @C85_traceinv, @C85_trace, @C85_monotone,
  @C85_one_step_biased).
Print Assumptions C85_assumptions.

(** The hypotheses are met by diag(1, 3), where one step is off by 1 / 3 and the
    bound is 1 (its second part is as small as lanczos_tol wishes), and five steps
    would do with a bound of 1 / 256. *)
Section Examples.
Let RA := [rcfType of realalg].
Notation M := (denotes (diag13 RA) 2 2).

Lemma bound_value m (t : RA) : 0 < t -> Num.sqrt 2%:R * t <= 2%:R * (2%:R^-1) ^+ (2 * m) ->
  inverse_bound 2 (1 : RA) 3%:R (rest 2 t false 3%:R) m = 2%:R * (2%:R * (2%:R^-1) ^+ (2 * m)).
Proof.
move=> Ht H. rewrite /inverse_bound /rest. congr (_ * _).
have -> : (3%:R - 1) / (3%:R + 1) = 2%:R^-1 :> RA.
{ have -> : 3%:R - 1 = 2%:R :> RA by rewrite -(natrB _ (isT : (1 <= 3)%N)).
  have -> : 3%:R + 1 = 2%:R * 2%:R :> RA by rewrite -natrM -(natrD _ 3 1).
  by rewrite invfM mulrA mulfV ?mul1r // pnatr_eq0. }
rewrite divr1 expr1n divr1 mul1r. apply: max_idPl. by rewrite mulrC.
Qed.

Lemma root2 : Num.sqrt 2%:R <= 2%:R :> RA.
Proof.
have -> : 2%:R = Num.sqrt (2%:R ^+ 2) :> RA by rewrite sqrtr_sqr ger0_norm // ler0n.
apply: ler_wsqrtr. rewrite sqrtr_sqr ger0_norm ?ler0n // -natrX ler_nat. by [].
Qed.

Example C85_case : exists eigh svd sample,
  (forall s : 2.-tuple bool, slq_matrix (1 : RA) (fun k => nseq k 0) eigh svd id GRing.inv 2 5 (2%:R^-1 ^+ 10) (-1) false
     (diag13 RA) [::] 1 [:: false] (signs RA s) [:: 0] = Some ([:: false], [:: sample s])) /\
  concentrated_within (invmx M) (256%:R^-1) sample.
Proof.
have [eigh He] := eigh_contract_met RA. have [svd Hs] := svd_contract_met RA.
have Hal : forall k, size (nseq k (0 : RA)) = k by move=> k; rewrite size_nseq.
have H2 : 0 < (2%:R^-1 : RA) ^+ 10 by rewrite exprn_gt0 // invr_gt0 ltr0n.
have [sample [H1 H3]] := @C85_traceinv RA 1 ltr01 _ Hal eigh svd He Hs id GRing.inv 1 5 isT _ H2 (-1) false
  (diag13 RA) 1 3%:R isT (diag13_sym RA) ltr01 (@diag13_range RA) (fun _ _ => erefl).
exists eigh, svd, sample. split=> //. move: H3. rewrite bound_value //; last first.
{ apply: ler_wpmul2r; [exact: ltW|exact: root2]. }
congr concentrated_within. rewrite exprVn mulrA -natrM -(natrX _ 2 10).
have -> : (2 ^ 10)%:R = 4%:R * 256%:R :> RA by rewrite -natrM.
by rewrite invfM mulrA mulfV ?mul1r // pnatr_eq0.
Qed.
End Examples.
