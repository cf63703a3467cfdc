(** How lanczos_degree and lanczos_tol bound the error of the samples of trlinfrac: C89. *)
From Coq Require Import ZArith NArith.
Require Import Reals.
From mathcomp Require Import all_ssreflect all_algebra.
From mathcomp Require Import zify.
From mathcomp.real_closed Require Import realalg.
From Verif Require Import RealField.
From Verif Require Import Mem KernelModel KernelSpec OperatorModel OperatorSpec OperatorProofs.
From Verif Require Import LanczosModel LanczosSpec LanczosMath LanczosProofs GolubKahnProofs.
From Verif Require SlqRunProofs.
From Verif Require Import Spectral SlqModel SlqSpec SlqProofs ExactProofs PropSlq SlqRunValues.
From Verif Require Import VarianceSpec PropVariance AccuracySpec AccuracyProofs PropAccuracy LinfracSpec LinfracProofs.
From Verif Require PropAgree FunModel.
Set Implicit Arguments.
Unset Strict Implicit.
Unset Printing Implicit Defensive.
Import GRing.Theory Num.Theory Order.TTheory.
Local Open Scope ring_scope.

Section Fractions.
Variable R : rcfType.

Lemma mfM n (P : 'M[R]_n) e (g h : R -> R) : orthonormal P ->
  matrix_function g P e *m matrix_function h P e = matrix_function (fun y => g y * h y) P e.
Proof.
move=> HP. rewrite /matrix_function -!mulmxA (mulmxA P^T P) HP mul1mx (mulmxA (diag_mx _)). congr (_ *m (_ *m _)).
apply/matrixP => i j. rewrite mul_diag_mx !mxE. by rewrite mulrnAr.
Qed.

Lemma mf_linear n (M P : 'M[R]_n.+1) e c d : spectral M P e ->
  matrix_function (fun y => c * y + d) P e = c *: M + d%:M.
Proof.
move=> HP. rewrite (matrix_function_poly (p := c *: 'X + d%:P) HP); last by move=> i; rewrite !hornerE.
by rewrite rmorphD /= linearZ /= horner_mx_X horner_mx_C.
Qed.

Lemma mf_fraction n (M P : 'M[R]_n.+1) e a b c d : spectral M P e -> (forall i, c * e 0 i + d != 0) ->
  c *: M + d%:M \in unitmx /\
  matrix_function (fun y => (a * y + b) / (c * y + d)) P e = (a *: M + b%:M) *m invmx (c *: M + d%:M).
Proof.
move=> HM He. have HP := HM.1. set D := c *: M + d%:M.
have E1 : D *m matrix_function (fun y => (c * y + d)^-1) P e = 1%:M.
{ rewrite /D -(mf_linear c d HM) mfM // (@mf_ext R _ P e _ (fun=> 1)); last by move=> i; rewrite mulfV.
  rewrite /matrix_function. have -> : diag_mx (map_mx (fun=> 1) e) = 1%:M :> 'M[R]_n.+1.
  { apply/matrixP => i j. by rewrite !mxE. }
  by rewrite mulmx1 (mulmx1C HP). }
have [HU _] := mulmx1_unit E1. split=> //.
have -> : invmx D = matrix_function (fun y => (c * y + d)^-1) P e by rewrite -[LHS]mulmx1 -E1 mulKmx.
by rewrite -(mf_linear a b HM) mfM.
Qed.

Lemma gap_affine n k (Q : 'M[R]_k.+1) (d : 'rV[R]_k.+1) (P : 'M[R]_n.+1) (e : 'rV[R]_n.+1) (w : 'cV[R]_n.+1) (g h : R -> R) x y : w != 0 ->
  orthonormal Q -> orthonormal P -> (forall i, g (d 0 i) = x + y * h (d 0 i)) -> (forall i, g (e 0 i) = x + y * h (e 0 i)) ->
  matrix_function g Q d 0 0 - rayleigh (matrix_function g P e) w =
  y * (matrix_function h Q d 0 0 - rayleigh (matrix_function h P e) w).
Proof.
move=> Hw HQ HP Hd He. rewrite !mf_weights !rayleigh_weights mulrBr !mulr_sumr.
have E (I : finType) (p z : I -> R) : \sum_i p i = 1 -> \sum_i p i * (x + y * z i) = x + \sum_i y * (p i * z i).
{ move=> H. under eq_bigr do rewrite mulrDr mulrCA. by rewrite big_split /= -mulr_suml H mul1r. }
under eq_bigr do rewrite Hd. rewrite E ?weights_one //.
under [X in _ - X]eq_bigr do rewrite He. rewrite E ?weights_one' //.
by rewrite opprD addrACA subrr add0r.
Qed.

Lemma fraction_split (a b c d y : R) : c != 0 -> c * y + d != 0 ->
  (a * y + b) / (c * y + d) = a / c + (b * c - a * d) / c ^+ 2 * (y + d / c)^-1.
Proof.
move=> Hc Hy. have E : y + d / c = (c * y + d) / c by rewrite mulrDl mulrAC mulfV // mul1r.
rewrite E invf_div expr2 invfM. have -> : (b * c - a * d) * (c^-1 * c^-1) * (c / (c * y + d)) = (b * c - a * d) / c / (c * y + d).
{ by rewrite -!mulrA; congr (_ * (_ * _)); rewrite mulKf. }
have EN : a * y + b = a / c * (c * y + d) + (b * c - a * d) / c.
{ have E1 : a / c * (c * y + d) = a * y + a * d / c.
  { by rewrite mulrDr -!mulrA mulKf // [c^-1 * d]mulrC. }
  have E2 : (b * c - a * d) / c = b - a * d / c by rewrite mulrBl mulfK.
  by rewrite E1 E2 -addrA [a * d / c + _]addrC subrK. }
by rewrite EN mulrDl mulfK.
Qed.

Lemma pole_nonzero (c d lo hi delta y : R) : c != 0 -> pole_distance c d lo hi delta -> lo <= y <= hi ->
  c * y + d != 0.
Proof.
move=> Hc [Hp Hd] /andP [H1 H2]. apply/negP => /eqP E.
have Ey : y = - d / c by rewrite -[LHS](mulKf Hc) mulrC; congr (_ / _); apply/eqP; rewrite -addr_eq0 E.
case: Hd => Hd; move: Hp; rewrite Hd subr_gt0 -Ey ltNge ?H1 ?H2 //.
Qed.
End Fractions.

Section Slq.
Variable R : rcfType.
Variable eps : R.
Hypothesis eps_gt0 : 0 < eps.
Variable alloc : nat -> seq R.
Hypothesis size_alloc : forall k, size (alloc k) = k.
Variable eigh svd : nat -> seq R -> seq R -> option (seq R * seq R).
Hypothesis eigh_ok : eigh_contract eigh.
Hypothesis svd_ok : svd_contract svd.
Variable pw f : R -> R.
Variable n' m : nat.
Notation n := n'.+1.
Hypothesis m_gt0 : (0 < m)%N.
Variable tol : R.
Hypothesis tol_gt0 : 0 < tol.
Variable orth : int.
Notation slq_matrix := (slq_matrix eps alloc eigh svd pw f n m tol orth).
Notation slq_affine := (slq_affine eps alloc eigh svd pw f n m tol orth).
Notation subject gram M := (if gram then M^T *m M else M).
Notation usable gram M := (if gram then forall x : 'cV_n, M *m x = 0 -> x = 0 else M^T = M).

Lemma value_linfrac (Mat : seq R -> 'M[R]_n) gram p w x lo hi a b c d delta : admissible Mat gram p -> w != 0 ->
  c != 0 -> pole_distance c d lo hi delta ->
  range_in (target gram (Mat p)) lo hi -> (forall y, lo <= y <= hi -> f (pw y) = (a * y + b) / (c * y + d)) ->
  value_of Mat pw f m tol gram p w x ->
  `|x - n%:R * rayleigh ((a *: target gram (Mat p) + b%:M) *m invmx (c *: target gram (Mat p) + d%:M)) w| <=
    linfrac_bound n a b c d lo hi delta (rest n tol gram hi) m.
Proof.
move=> Had Hw Hc Hpole Hr Hf Hval.
have Hsym : (target gram (Mat p))^T = target gram (Mat p) by exact: target_sym.
have [k [V [T [r [Q [ds [Hk Hlz Hsp Hstop [-> Hex]]]]]]]] := value_lanczos tol_gt0 Had Hw Hr Hval.
have [P [e HP]] := spectral_theorem Hsym.
have Hd : forall i, lo <= ds 0 i <= hi by case: Hlz => HV _ [HT _] _ _; exact: ritz_bounds HV HT Hsp Hr.
have He : forall i, lo <= e 0 i <= hi by exact: spectral_range HP Hr.
have [_ <-] := mf_fraction a b HP (fun i => pole_nonzero Hc Hpole (He i)).
rewrite (@mf_ext R _ Q ds _ (fun y => (a * y + b) / (c * y + d))); last by move=> i; exact: Hf.
rewrite -mulrBr normrM ger0_norm ?ler0n // /linfrac_bound ler_wpmul2l ?ler0n //.
rewrite (@gap_affine R _ _ Q ds P e w _ (fun y => (y + d / c)^-1) (a / c) ((b * c - a * d) / c ^+ 2) Hw Hsp.1 HP.1); first last.
- move=> i. apply: fraction_split => //. exact: (pole_nonzero Hc Hpole (He i)).
- move=> i. apply: fraction_split => //. exact: (pole_nonzero Hc Hpole (Hd i)).
have Hc2 : 0 < c ^+ 2 by rewrite lt_neqAle sqr_ge0 andbT eq_sym expf_neq0.
rewrite normrM normrM normfV (gtr0_norm Hc2). apply: ler_wpmul2l; first by rewrite divr_ge0 ?normr_ge0 ?sqr_ge0.
case: Hpole => Hp Hdelta. have Hdelta' : delta = lo + d / c \/ delta = - (hi + d / c).
{ case: Hdelta => ->; [left|right]; first by rewrite mulNr opprK. by rewrite mulNr opprD addrC. }
rewrite le_maxr. case: (ltnP k.+1 m) => Hkm; apply/orP; [right|left].
- apply: le_trans (resolvent_stop Hw Hsym Hp Hdelta' Hr Hlz Hsp HP) _.
  have H2 : 0 < delta ^+ 2 by exact: exprn_gt0. rewrite ler_pmul2r ?invr_gt0 //. exact: ltW (Hstop Hkm).
- have Ekm : k.+1 = m by apply/eqP; rewrite eqn_leq Hk Hkm.
  apply: (resolvent_steps Hw Hp Hdelta' Hr Hlz Hsp HP) => q Hq. apply: Hex. left. by rewrite Ekm.
Qed.

(** C89, one sample. *)
Theorem C89_sample : forall gram (A : storage R) (v est params : seq R) lo hi a b c d delta,
  let N := subject gram (denotes A n n) in
  well_formed A n n -> usable gram (denotes A n n) -> c != 0 -> pole_distance c d lo hi delta -> range_in N lo hi ->
  (forall y, lo <= y <= hi -> f (pw y) = (a * y + b) / (c * y + d)) ->
  (n <= size v)%N -> vec n v != 0 -> (0 < size est)%N ->
  exists est', slq_matrix gram A params 1 [:: false] v est = Some ([:: false], est') /\
    `|est'`_0 - n%:R * rayleigh ((a *: N + b%:M) *m invmx (c *: N + d%:M)) (vec n v)| <= linfrac_bound n a b c d lo hi delta (rest n tol gram hi) m.
Proof.
move=> gram A v est params lo hi a b c d delta N HA Hus Hc Hp Hr Hf Sv Hv Se.
have [est' [E _ _ Hval _]] := matrix_each eps_gt0 size_alloc eigh_ok svd_ok pw f m_gt0 tol_gt0 orth
  (gram := gram) params (conv := [:: false]) (num := 1) isT HA Hus isT Se Sv Hv.
exists est'. split=> //.
exact: (@value_linfrac (fun _ => denotes A n n) gram [::] (vec n v) _ lo hi a b c d delta Hus Hv Hc Hp Hr Hf
  (Hval 0%N isT isT)).
Qed.

(** C89, the samples for all parameters of A + t B at once. *)
Theorem C89_affine : forall (A : storage R) B (op : affine R) (ts v : seq R) lo hi a b c d delta,
  let N t := denotes A n n + t *: matrix_of_B B n n in
  well_formed A n n -> (forall s, B = Some s -> well_formed s n n /\ denotes s n n <> 0) ->
  affine_object n' A B op -> (0 < size ts)%N ->
  (forall t, t \in ts -> (N t)^T = N t /\ range_in (N t) lo hi) -> c != 0 -> pole_distance c d lo hi delta ->
  (forall y, lo <= y <= hi -> f (pw y) = (a * y + b) / (c * y + d)) ->
  size v = n -> vec n v != 0 ->
  exists est, slq_affine false op ts (size ts) (nseq (size ts) false) v (nseq (size ts) 0) =
      Some (nseq (size ts) false, est) /\ size est = size ts /\
    forall j, (j < size ts)%N ->
      `|est`_j - n%:R * rayleigh ((a *: N ts`_j + b%:M) *m invmx (c *: N ts`_j + d%:M)) (vec n v)| <= linfrac_bound n a b c d lo hi delta (rest n tol false hi) m.
Proof.
move=> A B op ts v lo hi a b c d delta N HA HB Hop Hts HN Hc Hp Hf Sv Hv.
have Hd := @affine_delivers R eps eps_gt0 alloc size_alloc eigh svd eigh_ok svd_ok pw f n' m m_gt0 tol tol_gt0 orth
  A B op ts HA HB Hop Hts (fun t Ht => (HN t Ht).1).
have [est [E S H]] := Hd (nseq (size ts) false) v (size_nseq _ _) Sv Hv.
exists est. split; first by move: E; rewrite if_same. split=> // j Hj.
have [Hsym Hr] := HN _ (mem_nth 0 Hj).
apply: (@value_linfrac (fun p => denotes A n n + p`_0 *: matrix_of_B B n n) false [:: ts`_j]
  (vec n v) _ lo hi a b c d delta Hsym Hv Hc Hp Hr Hf).
apply: H => //. by rewrite nth_nseq Hj orbT.
Qed.

(** C89, the mean over random sign vectors. *)
Theorem C89_trlinfrac : forall gram (A : storage R) lo hi a b c d delta,
  let N := subject gram (denotes A n n) in
  well_formed A n n -> usable gram (denotes A n n) -> c != 0 -> pole_distance c d lo hi delta -> range_in N lo hi ->
  (forall y, lo <= y <= hi -> f (pw y) = (a * y + b) / (c * y + d)) ->
  exists sample : n.-tuple bool -> R,
    (forall s, slq_matrix gram A [::] 1 [:: false] (signs R s) [:: 0] = Some ([:: false], [:: sample s])) /\
    concentrated_within ((a *: N + b%:M) *m invmx (c *: N + d%:M)) (linfrac_bound n a b c d lo hi delta (rest n tol gram hi) m) sample.
Proof.
move=> gram A lo hi a b c d delta N HA Hus Hc Hp Hr Hf.
have Hex (s : n.-tuple bool) : exists x, slq_matrix gram A [::] 1 [:: false] (signs R s) [:: 0] = Some ([:: false], [:: x]) /\
  `|x - ip (vec n (signs R s)) ((a *: N + b%:M) *m invmx (c *: N + d%:M) *m vec n (signs R s))| <= linfrac_bound n a b c d lo hi delta (rest n tol gram hi) m.
{ have Hsz : (n <= size (signs R s))%N by rewrite size_map size_tuple.
  have [est' [E Se _ Hval _]] := matrix_each eps_gt0 size_alloc eigh_ok svd_ok pw f m_gt0 tol_gt0 orth
    (gram := gram) [::] (conv := [:: false]) (est := [:: 0]) (num := 1) isT HA Hus isT isT Hsz (signs_nz R s).
  have := @value_linfrac (fun _ => denotes A n n) gram [::] _ _ lo hi a b c d delta Hus (signs_nz R s) Hc Hp Hr Hf
    (Hval 0%N isT isT).
  rewrite signs_form => H. case: est' Se E {Hval} H => [|x [|]] //= _ E H. by exists x. }
pose sample (s : n.-tuple bool) := (odflt ([::], [::]) (slq_matrix gram A [::] 1 [:: false] (signs R s) [:: 0])).2`_0.
have Hs (s : n.-tuple bool) : slq_matrix gram A [::] 1 [:: false] (signs R s) [:: 0] = Some ([:: false], [:: sample s]) /\
  `|sample s - ip (vec n (signs R s)) ((a *: N + b%:M) *m invmx (c *: N + d%:M) *m vec n (signs R s))| <= linfrac_bound n a b c d lo hi delta (rest n tol gram hi) m.
{ have [x [E H]] := Hex s. by rewrite /sample E. }
exists sample. split=> [s|]; first exact: (Hs s).1.
apply: within => s. exact: (Hs s).2.
Qed.

(** C89, c = 0: the samples are exact for every lanczos_degree, also when the
    iteration stops early. *)
Theorem C89_linear : forall gram (A : storage R) (v est params : seq R) lo hi a b d,
  let N := subject gram (denotes A n n) in
  well_formed A n n -> usable gram (denotes A n n) -> range_in N lo hi ->
  (forall y, lo <= y <= hi -> f (pw y) = (a * y + b) / d) ->
  (n <= size v)%N -> vec n v != 0 -> (0 < size est)%N ->
  exists est', slq_matrix gram A params 1 [:: false] v est = Some ([:: false], est') /\
    est'`_0 = n%:R * rayleigh (d^-1 *: (a *: N + b%:M)) (vec n v).
Proof.
move=> gram A v est params lo hi a b d N HA Hus Hr Hf Sv Hv Se.
have [est' [E _ _ Hval _]] := matrix_each eps_gt0 size_alloc eigh_ok svd_ok pw f m_gt0 tol_gt0 orth
  (gram := gram) params (conv := [:: false]) (num := 1) isT HA Hus isT Se Sv Hv.
exists est'. split=> //.
have [k [V [T [r [Q [ds [Hk Hlz Hsp Hstop [-> Hex]]]]]]]] :=
  @value_lanczos R pw f n' m tol tol_gt0 (fun _ => denotes A n n) gram [::] _ _ lo hi Hus Hv Hr (Hval 0%N isT isT).
pose q : {poly R} := d^-1 *: (a *: 'X + b%:P).
have Hd : forall i, lo <= ds 0 i <= hi by case: Hlz => HV _ [HT _] _ _; exact: ritz_bounds HV HT Hsp Hr.
congr (_ * _). rewrite (@mf_ext R _ Q ds _ (horner q)); last by move=> i; rewrite Hf // /q !hornerE mulrC.
rewrite Hex /q; last first.
{ left. apply: leq_trans (size_scale_leq _ _) _. apply: leq_trans (size_add _ _) _. rewrite geq_max; apply/andP; split.
  - apply: leq_trans (size_scale_leq _ _) _. by rewrite size_polyX mulnS leq_addr.
  - apply: leq_trans (size_polyC_leq1 _) _. by rewrite mulnS. }
by rewrite linearZ /= rmorphD /= linearZ /= horner_mx_X horner_mx_C.
Qed.
End Slq.

(** What the samples estimate is there: when the pole is outside the range, c N + d I
    is invertible, and the trace is the sum of the function at the eigenvalues. *)
Theorem C89_target (R : rcfType) n (N P : 'M[R]_n.+1) e a b c d lo hi delta : spectral N P e -> range_in N lo hi ->
  c != 0 -> pole_distance c d lo hi delta ->
  c *: N + d%:M \in unitmx /\
  \tr ((a *: N + b%:M) *m invmx (c *: N + d%:M)) = \sum_i (a * e 0 i + b) / (c * e 0 i + d).
Proof.
move=> HP Hr Hc Hp. have He : forall i, lo <= e 0 i <= hi by exact: spectral_range HP Hr.
have [HU <-] := mf_fraction a b HP (fun i => pole_nonzero Hc Hp (He i)). split=> //.
rewrite /matrix_function mxtrace_mulC mulmxA HP.1 mul1mx mxtrace_diag. by apply: eq_bigr => i _; rewrite mxE.
Qed.

(** The bound decreases with lanczos_degree and with lanczos_tol. *)
Theorem C89_monotone (R : rcfType) n gram (a b c d lo hi delta tol tol' : R) m m' : lo <= hi -> 0 <= hi ->
  pole_distance c d lo hi delta -> (m <= m')%N -> 0 < tol' <= tol ->
  linfrac_bound n a b c d lo hi delta (rest n tol' gram hi) m' <= linfrac_bound n a b c d lo hi delta (rest n tol gram hi) m.
Proof.
move=> Hhi H0 [Hd _] Hm /andP [Ht' Ht].
have Hw : 0 <= hi - lo by rewrite subr_ge0. have H2d : 0 < 2%:R * delta by rewrite mulr_gt0 ?ltr0n.
have Hs : 0 < hi - lo + 2%:R * delta by exact: ltr_paddl.
rewrite /linfrac_bound ler_wpmul2l ?ler0n // ler_wpmul2l ?divr_ge0 ?normr_ge0 ?sqr_ge0 //.
rewrite le_maxl !le_maxr; apply/andP; split; apply/orP; [left|right].
- have Hd' := ltW Hd. have Hs' := ltW Hs. rewrite ler_wpmul2l ?divr_ge0 ?ler0n //.
  have H1 : 0 <= (hi - lo) / (hi - lo + 2%:R * delta) by exact: divr_ge0.
  have H2 : (hi - lo) / (hi - lo + 2%:R * delta) <= 1 by rewrite ler_pdivr_mulr // mul1r ler_addl ltW.
  have H3 : (2 * m <= 2 * m')%N by rewrite leq_mul2l.
  exact: (ler_wiexpn2l H1 H2 H3).
- rewrite ler_pmul2r ?invr_gt0 ?exprn_gt0 // /rest ler_wpmul2l //; last by rewrite ler_wpmul2r ?sqrtr_ge0.
  by case: gram; rewrite ?sqrtr_ge0 ?ler01.
Qed.

Lemma diag13_spectral (R : rcfType) :
  spectral (denotes (diag13 R) 2 2) 1%:M (\row_i (if i == 0 then 1 else 3%:R)).
Proof.
split; first by rewrite /orthonormal trmx1 mul1mx.
rewrite trmx1 mul1mx mulmx1. apply/matrixP => i j. by rewrite diag13_entry !mxE.
Qed.

Lemma diag13_pole (R : rcfType) : pole_distance 1 1 1 3%:R (2%:R : R).
Proof. split; first by rewrite ltr0n. left. by rewrite divr1 opprK. Qed.

(** Without the allowance for lanczos_degree the claim is false: with one step all
    samples of the trace of M (M + I)^-1 for M = diag(1, 3) are 4 / 3, while the
    trace is 1 / 2 + 3 / 4. *)
Theorem C89_one_step_biased (R : rcfType) : forall (eps : R) alloc eigh svd (tol : R) (orth : int),
  0 < eps -> (forall k, size (alloc k) = k) -> eigh_contract eigh -> svd_contract svd -> 0 < tol ->
  (forall s : 2.-tuple bool,
    slq_matrix eps alloc eigh svd id (fun y => (1 * y + 0) / (1 * y + 1)) 2 1 tol orth false (diag13 R) [::] 1 [:: false]
      (signs R s) [:: 0] = Some ([:: false], [:: 4%:R / 3%:R])) /\
  \tr ((1 *: denotes (diag13 R) 2 2 + 0%:M) *m invmx (1 *: denotes (diag13 R) 2 2 + 1%:M)) = 1 / 2%:R + 3%:R / 4%:R /\
  1 / 2%:R + 3%:R / 4%:R < 4%:R / 3%:R :> R.
Proof.
move=> eps alloc eigh svd tol orth He Hal Hei Hsv Ht. split.
- move=> s. have Hsz : (2 <= size (signs R s))%N by rewrite size_map size_tuple.
  have [est' [E Se _ Hval _]] := @matrix_each R eps He alloc Hal eigh svd Hei Hsv id (fun y => (1 * y + 0) / (1 * y + 1)) 1 1 isT tol Ht orth
    false (diag13 R) [::] [:: false] (signs R s) [:: 0] 1 isT isT (diag13_sym R) isT isT Hsz (signs_nz R s).
  have := PropAgree.one_step (diag13_sym R) (signs_nz R s) Ht (Hval 0%N isT isT).
  have -> : rayleigh (denotes (diag13 R) 2 2) (vec 2 (signs R s)) = 2%:R.
  { rewrite /rayleigh signs_norm diag13_form !big_ord_recl big_ord0 addr0 !signsE !sign_sqr !mulr1 /=.
    by rewrite -(natrD _ 1 3) (natrM _ 2 2) mulfK // pnatr_eq0. }
  rewrite /= addr0 !mul1r -(natrD _ 2 1) mulrA -natrM => E1. rewrite E.
  by case: est' Se E1 {E Hval} => [|x [|]] //= _ ->.
- split.
  + have [_ ->] := C89_target 1 0 (diag13_spectral R) (@diag13_range R) (oner_neq0 R) (diag13_pole R).
    rewrite !big_ord_recl big_ord0 !mxE /= !mul1r !addr0.
    have -> : 3%:R + 1 = 4%:R :> R by rewrite -(natrD _ 3 1). by rewrite -(natrD _ 1 1) mul1r.
  rewrite -subr_gt0. have -> : 4%:R / 3%:R - (1 / 2%:R + 3%:R / 4%:R) = 12%:R^-1 :> R.
  { have H12 : 12%:R != 0 :> R by rewrite pnatr_eq0.
    have Hq (p q k : nat) : (k * q)%N = 12%N -> (0 < q)%N -> p%:R / q%:R = (p * k)%:R / 12%:R :> R.
    { move=> Hk Hq0. have Hk0 : k != 0%N by apply/eqP => Ek; move: Hk; rewrite Ek.
      rewrite -Hk !natrM invfM mulrA mulfK // pnatr_eq0 //. }
    rewrite (Hq 4%N 3%N 4%N) // (Hq 1%N 2%N 6%N) // (Hq 3%N 4%N 3%N) // -mulrDl -mulrBl -natrD -natrB //.
    by rewrite mul1r. }
  by rewrite invr_gt0 ltr0n.
Qed.

(** The function of the code with exponent 1 meets the hypothesis on f and pw. *)
Theorem C89_code_function (a b c d lo hi delta : R) (f pw : R -> R) :
  (forall x y, FunModel.homographic a b c d x = Some y -> f x = y) -> (forall y, 0 < y -> pw y = Rpower y 1) ->
  0 < lo -> c != 0 -> pole_distance (R := R_rcfType) c d lo hi delta ->
  forall y, lo <= y <= hi -> f (pw y) = (a * y + b) / (c * y + d).
Proof.
move=> Hf Hpw Hlo Hc Hp y Hy. have Hy0 : 0 < y by case/andP: Hy => H _; exact: lt_le_trans H.
rewrite Hpw // Rpower_1; last exact/RltP. apply: Hf. rewrite /FunModel.homographic /FunModel.divide.
have H := @pole_nonzero R_rcfType c d lo hi delta y Hc Hp Hy.
case: Req_EM_T => [E|_]; last by rewrite RdivE.
by case/eqP: H.
Qed.

Definition C89_assumptions := (@C89_sample, @C89_affine, @C89_trlinfrac, @C89_linear, @C89_target, @C89_monotone,
  @C89_one_step_biased, @C89_code_function).
Print Assumptions C89_assumptions.

(** The hypotheses are met by diag(1, 3) and y / (y + 1), whose pole is at distance 2:
    five steps are good for 2 (1 / 3)^10 up to the deviation of the random vectors. *)
Section Examples.
Let RA := [rcfType of realalg].
Notation M := (denotes (diag13 RA) 2 2).

Example C89_case : exists eigh svd sample,
  (forall s : 2.-tuple bool, slq_matrix (1 : RA) (fun k => nseq k 0) eigh svd id (fun y => (1 * y + 0) / (1 * y + 1)) 2 5
     (3%:R^-1 ^+ 10) (-1) false (diag13 RA) [::] 1 [:: false] (signs RA s) [:: 0] = Some ([:: false], [:: sample s])) /\
  concentrated_within ((1 *: M + 0%:M) *m invmx (1 *: M + 1%:M)) (2%:R * 3%:R^-1 ^+ 10) sample.
Proof.
have [eigh He] := eigh_contract_met RA. have [svd Hs] := svd_contract_met RA.
have Hal : forall k, size (nseq k (0 : RA)) = k by move=> k; rewrite size_nseq.
have H3 : 0 < (3%:R^-1 : RA) ^+ 10 by rewrite exprn_gt0 // invr_gt0 ltr0n.
have [sample [H1 H2]] := @C89_trlinfrac RA 1 ltr01 _ Hal eigh svd He Hs id (fun y => (1 * y + 0) / (1 * y + 1)) 1 5 isT _ H3 (-1) false
  (diag13 RA) 1 3%:R 1 0 1 1 2%:R isT (diag13_sym RA) (oner_neq0 _) (diag13_pole RA) (@diag13_range RA) (fun _ _ => erefl).
exists eigh, svd, sample. split=> //. move: H2. congr concentrated_within. rewrite /linfrac_bound /rest. congr (_ * _).
rewrite mul0r sub0r mulr1 normrN normr1 expr1n divr1 !mul1r mulfV ?pnatr_eq0 // mul1r.
have -> : 3%:R - 1 = 2%:R :> RA by rewrite -(natrB _ (isT : (1 <= 3)%N)).
have -> : 2%:R / (2%:R + 2%:R * 2%:R) = 3%:R^-1 :> RA.
{ have -> : 2%:R + 2%:R * 2%:R = 2%:R * 3%:R :> RA by rewrite -!natrM -natrD. by rewrite invfM mulrA mulfV ?mul1r // pnatr_eq0. }
apply: max_idPl. rewrite -mulrA. apply: ler_pimulr; first exact: ltW. rewrite ler_pdivr_mulr ?exprn_gt0 ?ltr0n // mul1r.
apply: le_trans root2 _. rewrite -natrX ler_nat. by [].
Qed.
End Examples.
