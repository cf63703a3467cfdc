(** Errors of the quadrature for functions that are not polynomials. *)
From mathcomp Require Import all_ssreflect all_algebra.
From mathcomp Require Import zify.
From Verif Require Import Mem KernelModel KernelSpec LanczosModel LanczosSpec LanczosMath.
From Verif Require Import LanczosProofs GolubKahnProofs Spectral SlqModel SlqSpec SlqProofs ExactProofs PropSlq.
From Verif Require Import SlqRunValues PropSolver VarianceSpec PropVariance AccuracySpec.
Set Implicit Arguments.
Unset Strict Implicit.
Unset Printing Implicit Defensive.
Import GRing.Theory Num.Theory Order.TTheory.
Local Open Scope ring_scope.

Section Forms.
Variable R : rcfType.

Lemma nrm_orth N (P : 'M[R]_N) (x : 'cV[R]_N) : orthonormal P -> nrm (P^T *m x) = nrm x.
Proof.
move=> HP. congr Num.sqrt. rewrite -ip_adj mulmxA. by rewrite (mulmx1C HP) mul1mx.
Qed.

Lemma form_bound N (P : 'M[R]_N.+1) (d : 'rV[R]_N.+1) (h : R -> R) c x y : orthonormal P -> (forall i, `|h (d 0 i)| <= c) ->
  `|ip x (matrix_function h P d *m y)| <= c * nrm x * nrm y.
Proof.
move=> HP Hh. have Hc : 0 <= c by apply: le_trans (Hh 0).
rewrite /matrix_function -!mulmxA ip_adj. apply: le_trans (ip_abs _ _) _.
rewrite nrm_orth // [c * _]mulrC -mulrA ler_wpmul2l ?nrm_ge0 // -(nrm_orth y HP).
move: (P^T *m y) => z. rewrite -(@ler_pexpn2r _ 2) ?nnegrE ?mulr_ge0 ?nrm_ge0 //.
rewrite exprMn !nrm_sqr /ip mulr_sumr. apply: ler_sum => i _.
have -> : (diag_mx (map_mx h d) *m z) i 0 = h (d 0 i) * z i 0 by rewrite mul_diag_mx !mxE.
rewrite -!expr2 exprMn ler_wpmul2r ?sqr_ge0 //.
by rewrite -[X in X <= _]real_normK ?num_real // ler_expn2r // nnegrE.
Qed.

Lemma mfB N (P : 'M[R]_N) (d : 'rV[R]_N) (g h : R -> R) :
  matrix_function g P d - matrix_function h P d = matrix_function (fun y => g y - h y) P d.
Proof.
rewrite /matrix_function -mulmxBl -mulmxBr. congr (_ *m _ *m _).
apply/matrixP => i j. by rewrite !mxE -mulrnBl.
Qed.

Lemma rayleighB n (F G : 'M[R]_n) w : rayleigh F w - rayleigh G w = rayleigh (F - G) w.
Proof. by rewrite /rayleigh -mulrBl mulmxBl ipBr. Qed.

Lemma rayleigh_bound n (P : 'M[R]_n.+1) (d : 'rV[R]_n.+1) (h : R -> R) c w : w != 0 -> orthonormal P ->
  (forall i, `|h (d 0 i)| <= c) -> `|rayleigh (matrix_function h P d) w| <= c.
Proof.
move=> Hw HP Hh. have Hp : 0 < ip w w by rewrite lt_neqAle eq_sym ip_eq0 Hw ip_ge0.
rewrite /rayleigh normrM normfV (gtr0_norm Hp) ler_pdivr_mulr //.
by rewrite -nrm_sqr expr2 mulrA form_bound.
Qed.

Lemma spectral_range n (M P : 'M[R]_n.+1) (e : 'rV[R]_n.+1) lo hi : spectral M P e -> range_in M lo hi ->
  forall i, lo <= e 0 i <= hi.
Proof.
move=> HM Hr. apply: (@ritz_bounds R n n.+1 M 1%:M M P e lo hi) => //.
- by rewrite /orthonormal trmx1 mulmx1.
- by rewrite trmx1 mul1mx mulmx1.
Qed.

(** ** The inverse *)
Lemma mf_inv n (M P : 'M[R]_n.+1) (e : 'rV[R]_n.+1) : spectral M P e -> (forall i, e 0 i != 0) ->
  M \in unitmx /\ invmx M = matrix_function GRing.inv P e.
Proof.
move=> [HP HM] He. have E : M *m matrix_function GRing.inv P e = 1%:M.
{ rewrite HM /matrix_function -!mulmxA (mulmxA P^T) HP mul1mx (mulmxA (diag_mx e)).
  have -> : diag_mx e *m diag_mx (map_mx GRing.inv e) = 1%:M.
  { apply/matrixP => i j. rewrite mul_diag_mx !mxE. have [->|] := eqVneq i j; last by rewrite !mulr0n mulr0.
    by rewrite !mulr1n mulfV. }
  by rewrite mul1mx (mulmx1C HP). }
have [HU _] := mulmx1_unit E. split=> //. by rewrite -[LHS]mulmx1 -E mulKmx.
Qed.

(** ** A remainder of the last step *)
Lemma inverse_perturbed n k (N : 'M[R]_n.+1) w (V : 'M[R]_(n.+1, k.+1)) T r Q d lo hi : w != 0 -> N^T = N ->
  0 < lo -> range_in N lo hi -> lanczos_result N w V T r -> spectral T Q d ->
  `|matrix_function GRing.inv Q d 0 0 - rayleigh (invmx N) w| <= nrm r / lo ^+ 2.
Proof.
move=> Hw Hsym Hlo Hr [HV HV0 [HT _] HVr HNV] Hsp.
have [P [e HP]] : exists P e, spectral N P e by exact: spectral_theorem.
have Hd : forall i, lo <= d 0 i <= hi by exact: ritz_bounds HV HT Hsp Hr.
have He : forall i, lo <= e 0 i <= hi by exact: spectral_range HP Hr.
have Hpos (y : R) : lo <= y <= hi -> y != 0 /\ `|y^-1| <= lo^-1.
{ move=> /andP [H _]. have Hy : 0 < y by exact: lt_le_trans H.
  split; first by rewrite gt_eqF. by rewrite normfV gtr0_norm // lef_pinv ?posrE. }
have [HTu HTi] := mf_inv Hsp (fun i => (Hpos _ (Hd i)).1).
have [HNu HNi] := mf_inv HP (fun i => (Hpos _ (He i)).1).
rewrite -HTi. set q0 := (nrm w)^-1 *: w. pose e0 : 'cV[R]_k.+1 := delta_mx 0 0.
have Eq : q0 = V *m e0 by rewrite /q0 -HV0 colE.
have Hq : nrm q0 = 1 by rewrite /nrm ip_normalised // sqrtr1.
have EX : invmx N *m V = V *m invmx T - (invmx N *m r) *m (delta_mx 0 ord_max *m invmx T).
{ rewrite -[LHS](mulmxK HTu) [X in _ - X]mulmxA -mulmxBl. congr (_ *m _).
  have : invmx N *m (N *m V) = invmx N *m (V *m T + r *m delta_mx 0 ord_max) by rewrite HNV.
  rewrite mulKmx // mulmxDr mulmxA => E. rewrite [in RHS]E -mulmxA. 
  by rewrite [invmx N *m (r *m _)]mulmxA addrK mulmxA. }
have -> : rayleigh (invmx N) w = (invmx T) 0 0 - (invmx T) ord_max 0 * ip q0 (invmx N *m r).
{ rewrite -ip_q0 -/q0. have -> : invmx N *m q0 = invmx N *m V *m e0 by rewrite Eq mulmxA.
  rewrite EX mulmxBl ipBr. congr (_ - _).
  - rewrite ipE Eq trmx_mul -mulmxA (mulmxA V^T) (mulmxA V^T) HV mul1mx.
    by rewrite /e0 trmx_delta -colE -rowE !mxE.
  - rewrite -[X in ip _ X]mulmxA [delta_mx 0 ord_max *m _ *m _]mx11_scalar mul_mx_scalar ipZr. congr (_ * _).
    by rewrite -rowE -colE !mxE. }
rewrite opprB addrC subrK normrM.
have H1 : `|(invmx T) ord_max 0| <= lo^-1.
{ have -> : (invmx T) ord_max 0 = ip (delta_mx ord_max 0) (invmx T *m e0).
  { by rewrite ipE trmx_delta -colE -rowE !mxE. }
  have N1 (j : 'I_k.+1) : nrm (delta_mx j 0 : 'cV[R]_k.+1) = 1.
  { rewrite /nrm ipE trmx_delta mul_delta_mx !mxE eqxx. exact: sqrtr1. }
  rewrite HTi. have := @form_bound _ Q d GRing.inv lo^-1 (delta_mx ord_max 0) e0 Hsp.1
    (fun i => (Hpos _ (Hd i)).2). by rewrite !N1 !mulr1. }
have H2 : `|ip q0 (invmx N *m r)| <= lo^-1 * nrm r.
{ rewrite HNi. have := @form_bound _ P e GRing.inv lo^-1 q0 r HP.1 (fun i => (Hpos _ (He i)).2).
  by rewrite Hq mulr1. }
apply: le_trans (ler_pmul _ _ H1 H2) _ => //. by rewrite mulrA -expr2 exprVn mulrC.
Qed.

(** ** A polynomial close to the inverse *)
Definition inverse_poly (c : R) D : {poly R} := c^-1 *: \sum_(j < D) (1 - c^-1 *: 'X) ^+ j.

Lemma size_inverse_poly c D : (size (inverse_poly c D) <= D)%N.
Proof.
apply: leq_trans (size_scale_leq _ _) _. apply: leq_trans (size_sum _ _ _) _.
apply/bigmax_leqP => j _. apply: leq_trans (size_exp_leq _ _) _.
set q : {poly R} := (1 - c^-1 *: 'X)%R. have H : (size q <= 2)%N.
{ apply: leq_trans (size_add _ _) _. rewrite geq_max size_poly1 size_opp /=.
  apply: leq_trans (size_scale_leq _ _) _. by rewrite size_polyX. }
have Hj := ltn_ord j. have H1 : ((size q).-1 <= 1)%N by lia.
apply: leq_ltn_trans Hj. by apply: leq_trans (leq_mul H1 (leqnn j)) _; rewrite mul1n.
Qed.

Lemma inverse_polyE c D y : c != 0 -> y != 0 -> y^-1 - (inverse_poly c D).[y] = (1 - y / c) ^+ D / y.
Proof.
move=> Hc Hy. rewrite /inverse_poly hornerZ horner_sum.
under eq_bigr do rewrite horner_exp !hornerE.
set u := 1 - y / c. have -> : \sum_(j < D) (1 - c^-1 * y) ^+ j = \sum_(j < D) u ^+ j.
{ by apply: eq_bigr => j _; rewrite /u [y / c]mulrC. }
have E : c^-1 * (\sum_(j < D) u ^+ j) = (1 - u ^+ D) / y.
{ apply: (mulIf Hy). rewrite mulfVK // -opprB subrX1 -mulNr opprB.
  have -> : 1 - u = y / c by rewrite /u opprB addrC subrK.
  by rewrite mulrAC [y / c]mulrC. }
by rewrite E mulrBl mul1r opprB addrC subrK.
Qed.

Lemma inverse_approximated (g : R -> R) lo hi D : 0 < lo -> (forall y, lo <= y <= hi -> g y = y^-1) ->
  approximates g (inverse_poly ((lo + hi) / 2%:R) D) lo hi (lo^-1 * ((hi - lo) / (hi + lo)) ^+ D).
Proof.
move=> Hlo Hg y Hy. have [H1 H2] := andP Hy. have Hy0 : 0 < y by exact: lt_le_trans H1.
have Hhi : 0 < hi by exact: lt_le_trans H2. have Hs : 0 < lo + hi by exact: addr_gt0.
have H2p : 0 < 2%:R :> R by rewrite ltr0n.
set c := _ / _. have Hc : 0 < c by rewrite divr_gt0.
rewrite Hg // inverse_polyE ?gt_eqF // normrM normrX mulrC. apply: ler_pmul => //.
- by rewrite exprn_ge0.
- by rewrite normfV gtr0_norm // lef_pinv ?posrE.
apply: ler_expn2r; rewrite ?nnegrE //.
{ apply: divr_ge0; last by rewrite addrC ltW. by rewrite subr_ge0 (le_trans H1). }
have -> : 1 - y / c = (lo + hi - y *+ 2) / (hi + lo).
{ have -> : 1 = (lo + hi) / (hi + lo) by rewrite addrC mulfV // gt_eqF // addrC.
  rewrite -[X in _ - X](_ : (y *+ 2) / (hi + lo) = y / c) ?mulrBl //.
  by rewrite /c invfM invrK [lo + hi]addrC mulrA [in RHS]mulrAC mulr_natr. }
rewrite normrM normfV [`|hi + lo|]gtr0_norm ?[hi + lo]addrC // ler_pmul2r ?invr_gt0 //.
rewrite ler_norml opprB mulr2n. 
have A1 : lo + hi - (y + y) = (lo - y) + (hi - y) by rewrite opprD addrACA.
rewrite A1. have B1 : 0 <= y - lo by rewrite subr_ge0. have B2 : 0 <= hi - y by rewrite subr_ge0.
have -> : lo - hi = (lo - y) - (hi - y) by rewrite opprB addrA subrK.
have -> : hi - lo = (hi - y) - (lo - y) by rewrite opprB addrA subrK.
rewrite ler_add2l -subr_ge0 opprK addr_ge0 //= [X in X <= _]addrC ler_add2l -subr_ge0.
by rewrite -opprD oppr_ge0 -[lo - y]opprB -opprD oppr_le0 addr_ge0.
Qed.
End Forms.

(** ** Values delivered by the quadrature *)
Section Values.
Variable R : rcfType.
Variable pw f : R -> R.
Variable n' m : nat.
Notation n := n'.+1.
Variable tol : R.
Hypothesis tol_gt0 : 0 < tol.
Notation g := (fun x => f (pw x)).

Notation rest := (rest n tol).

Lemma target_sym gram (M : 'M[R]_n) : (if gram then forall y : 'cV_n, M *m y = 0 -> y = 0 else M^T = M) ->
  (target gram M)^T = target gram M.
Proof. case: gram => //= _. by rewrite trmx_mul trmxK. Qed.

Lemma diagonal_bound k (M : 'M[R]_n) w (U V : 'M[R]_(n, k.+1)) B y hi : golub_kahn_result M w U V B y ->
  (forall x : 'cV_n, ip x (M^T *m M *m x) <= hi * ip x x) -> forall i, `|B i i| <= Num.sqrt hi.
Proof.
move=> [_ HV _ _ [HB _ _]] Hhi i. rewrite -sqrtr_sqr. apply: ler_wsqrtr.
have : (B^T *m B) i i <= hi.
{ rewrite HB -mulmxA tr_mulE. have -> : col i (M^T *m M *m V) = M^T *m M *m col i V by rewrite !colE mulmxA.
  apply: le_trans (Hhi _) _. by rewrite -tr_mulE HV mxE eqxx mulr1. }
apply: le_trans. rewrite mxE (bigD1 i) //= mxE -expr2 ler_addl.
by apply: sumr_ge0 => j _; rewrite mxE -expr2 sqr_ge0.
Qed.

Lemma value_lanczos (Mat : seq R -> 'M[R]_n) gram p w x lo hi : admissible Mat gram p -> w != 0 ->
  range_in (target gram (Mat p)) lo hi -> value_of Mat pw f m tol gram p w x ->
  exists k (V : 'M[R]_(n, k.+1)) T r Q d,
    [/\ (k < m)%N, lanczos_result (target gram (Mat p)) w V T r, spectral T Q d,
        ((k.+1 < m)%N -> nrm r < rest gram hi) &
        x = n%:R * matrix_function g Q d 0 0 /\
        (forall q : {poly R}, (size q <= 2 * k.+1)%N \/ r = 0 ->
           matrix_function (horner q) Q d 0 0 = rayleigh (horner_mx (target gram (Mat p)) q) w)].
Proof.
move=> Had Hw Hr [k [Q [d [Hs Hsp ->]]]]. case: gram Had Hs Hsp Hr => Had Hs Hsp Hr.
- rewrite /offdiag in Hs. rewrite /projected in Hsp. case: Hs => H1 H2 H3. set M := Mat p in Had H2 H3 Hsp Hr *.
  have Hal := stops_gkalive tol_gt0 Hw Had H2. have Ha : gka M w k != 0 by exact: gk_injective.
  have Hlal := gk_lz_alive Hw Hal. have Hs := ata_sym M. move: Hsp. rewrite (gk_Tm Hw Hal Ha) => Hsp.
  have Hgk := golub_kahn_result_ok Hw Hal Ha.
  have Hlz := lanczos_result_ok Hw Hs Hlal.
  exists k, (basis (M^T *m M) w k), (Tm (M^T *m M) w k), (lzr (M^T *m M) w k), Q, d.
  split=> //; last first.
  { split=> // q Hq. rewrite (exact_poly Hw Hs Hlal (p := q) (g := horner q) Hsp) //. }
  move=> Hk. rewrite (gk_lzr Hw Hal Ha) nrmZ.
  have Hhi : `|gka M w k| <= Num.sqrt hi.
  { have -> : gka M w k = gkB M w k ord_max ord_max by rewrite mxE eqxx.
    apply: (diagonal_bound Hgk). move=> y. by have /andP [] := Hr y. }
  rewrite /rest. have H3' : nrm (gky M w k) < tol * Num.sqrt n%:R := H3 Hk.
  apply: le_lt_trans (ler_wpmul2r (nrm_ge0 _) Hhi) _. rewrite ltr_pmul2l //.
  apply: lt_le_trans Hhi. by rewrite normr_gt0.
- rewrite /offdiag in Hs. rewrite /projected in Hsp. set M := Mat p in Had Hs Hsp Hr *.
  have Hal := stops_alive tol_gt0 Hs. case: Hs => H1 H2 H3.
  exists k, (basis M w k), (Tm M w k), (lzr M w k), Q, d. split=> //.
  + exact: lanczos_result_ok.
  + move=> Hk. rewrite /rest mul1r. exact: H3.
  + split=> // q Hq. by rewrite (exact_poly Hw Had Hal (p := q) (g := horner q) Hsp).
Qed.

Lemma quadrature_error k (N : 'M[R]_n) w (V : 'M[R]_(n, k.+1)) T r Q d lo hi (h : R -> R) (q : {poly R}) delta P e :
  w != 0 -> lanczos_result N w V T r -> spectral T Q d -> range_in N lo hi ->
  matrix_function (horner q) Q d 0 0 = rayleigh (horner_mx N q) w ->
  approximates h q lo hi delta -> spectral N P e ->
  `|matrix_function h Q d 0 0 - rayleigh (matrix_function h P e) w| <= delta *+ 2.
Proof.
move=> Hw [HV _ [HT _] _ _] Hsp Hr Hq Happ HP.
have Hd : forall i, lo <= d 0 i <= hi by exact: ritz_bounds HV HT Hsp Hr.
have He : forall i, lo <= e 0 i <= hi by exact: spectral_range HP Hr.
have E1 : `|matrix_function h Q d 0 0 - matrix_function (horner q) Q d 0 0| <= delta.
{ have -> : matrix_function h Q d 0 0 - matrix_function (horner q) Q d 0 0 =
    (matrix_function h Q d - matrix_function (horner q) Q d) 0 0 by rewrite [in RHS]mxE [X in _ = _ + X]mxE.
  rewrite mfB ler_norml. apply: function_bounds; first exact: Hsp.1.
  move=> i. rewrite -ler_norml. exact: Happ. }
have E2 : `|rayleigh (matrix_function (horner q) P e) w - rayleigh (matrix_function h P e) w| <= delta.
{ rewrite distrC rayleighB mfB. apply: rayleigh_bound => //; first exact: HP.1.
  move=> i. exact: Happ. }
rewrite Hq -(matrix_function_poly (g := horner q) HP) // in E1.
rewrite -[X in `|X|](subrKA (rayleigh (matrix_function (horner q) P e) w)) mulr2n.
exact: le_trans (ler_norm_add _ _) (ler_add E1 E2).
Qed.

Lemma mf_ext N (P : 'M[R]_N) (d : 'rV[R]_N) (h h' : R -> R) : (forall i, h (d 0 i) = h' (d 0 i)) ->
  matrix_function h P d = matrix_function h' P d.
Proof.
move=> H. rewrite /matrix_function. congr (_ *m diag_mx _ *m _). apply/rowP => i. by rewrite !mxE.
Qed.

Lemma value_inverse (Mat : seq R -> 'M[R]_n) gram p w x lo hi : admissible Mat gram p -> w != 0 ->
  0 < lo -> range_in (target gram (Mat p)) lo hi -> (forall y, lo <= y <= hi -> f (pw y) = y^-1) ->
  value_of Mat pw f m tol gram p w x ->
  `|x - n%:R * rayleigh (invmx (target gram (Mat p))) w| <= inverse_bound n lo hi (rest gram hi) m.
Proof.
move=> Had Hw Hlo Hr Hf Hval.
have Hsym : (target gram (Mat p))^T = target gram (Mat p) by exact: target_sym.
have [k [V [T [r [Q [d [Hk Hlz Hsp Hstop [-> Hex]]]]]]]] := value_lanczos Had Hw Hr Hval.
rewrite -mulrBr normrM ger0_norm ?ler0n // /inverse_bound ler_wpmul2l ?ler0n //.
have [P [e HP]] := spectral_theorem Hsym.
have Hd : forall i, lo <= d 0 i <= hi by case: Hlz => HV _ [HT _] _ _; exact: ritz_bounds HV HT Hsp Hr.
have He : forall i, lo <= e 0 i <= hi by exact: spectral_range HP Hr.
have [_ EI] := mf_inv HP (fun i => lt0r_neq0 (lt_le_trans Hlo (proj1 (andP (He i))))).
rewrite le_maxr. case: (ltnP k.+1 m) => Hkm.
- apply/orP; right. rewrite (@mf_ext _ Q d (fun x => f (pw x)) GRing.inv); last by move=> i; exact: Hf.
  apply: le_trans (inverse_perturbed Hw Hsym Hlo Hr Hlz Hsp) _.
  have H2 : 0 < lo ^+ 2 by exact: exprn_gt0.
  rewrite ler_pmul2r ?invr_gt0 //. exact: ltW (Hstop Hkm).
- apply/orP; left. have Ekm : k.+1 = m by apply/eqP; rewrite eqn_leq Hk Hkm.
  rewrite EI -(@mf_ext _ P e (fun x => f (pw x)) GRing.inv); last by move=> i; exact: Hf.
  apply: le_trans (quadrature_error Hw Hlz Hsp Hr _ (inverse_approximated (2 * m) Hlo Hf) HP) _.
  + apply: Hex. left. rewrite Ekm. exact: size_inverse_poly.
  + by rewrite -[X in X <= _]mulr_natl mulrA.
Qed.
End Values.

(** ** Samples that are off by at most b *)
Section Within.
Variable R : rcfType.

Lemma within n' (F : 'M[R]_n'.+1) (sample : n'.+1.-tuple bool -> R) b :
  (forall s, `|sample s - ip (vec n'.+1 (signs R s)) (F *m vec n'.+1 (signs R s))| <= b) ->
  concentrated_within F b sample.
Proof.
move=> Hs. set ideal := fun s : n'.+1.-tuple bool => ip (vec n'.+1 (signs R s)) (F *m vec n'.+1 (signs R s)).
have [I1 [_ [_ I4]]] := quadratic_concentrated F. rewrite -/ideal in I1 I4.
have Hb : 0 <= b by apply: le_trans (Hs [tuple of nseq n'.+1 false]).
have mean_close (I : finType) (a c : I -> R) : (0 < #|I|)%N -> (forall i, `|a i - c i| <= b) ->
  `|#|I|%:R^-1 * (\sum_i a i) - #|I|%:R^-1 * (\sum_i c i)| <= b.
{ move=> HI H. have HN : 0 < #|I|%:R :> R by rewrite ltr0n.
  rewrite -mulrBr -sumrB normrM normfV gtr0_norm // ler_pdivr_mull //.
  apply: le_trans (ler_norm_sum _ _ _) _. apply: le_trans (ler_sum _ (fun i _ => H i)) _.
  by rewrite sumr_const mulr_natl. }
split.
- rewrite -I1. apply: mean_close => //. by rewrite card_signs expn_gt0.
- move=> K e HK He. apply: le_trans _ (I4 K e HK He). rewrite ler_nat. apply: subset_leq_card.
  apply/subsetP => S. rewrite !inE => H.
  have H1 : `|sample_mean sample S - sample_mean ideal S| <= b.
  { rewrite /sample_mean. have := mean_close [finType of 'I_K] (fun k => sample (S k)) (fun k => ideal (S k)).
    rewrite card_ord. apply=> // k. exact: Hs. }
  rewrite -(ler_add2r b). apply: le_trans H _.
  rewrite -[X in `|X|](subrKA (sample_mean ideal S)) addrC [X in _ <= X]addrC.
  apply: le_trans (ler_norm_add _ _) _. rewrite addrC ler_add //.
Qed.
End Within.

(** ** Resolvents: the inverse of N + s, with the quantities of N *)
Section Resolvent.
Variable R : rcfType.

Lemma spectral_shifted n (M P : 'M[R]_n) e s : spectral M P e -> spectral (M + s%:M) P (\row_i (e 0 i + s)).
Proof.
move=> [HP HM]. split=> //.
have -> : diag_mx (\row_i (e 0 i + s)) = diag_mx e + s%:M.
{ apply/matrixP => i j. rewrite !mxE. by rewrite -mulrnDl. }
by rewrite mulmxDr mulmxDl -HM mul_mx_scalar -scalemxAl (mulmx1C HP) scalemx1.
Qed.

Lemma mf_shifted n (P : 'M[R]_n) (e : 'rV[R]_n) s :
  matrix_function (fun y => (y + s)^-1) P e = matrix_function GRing.inv P (\row_i (e 0 i + s)).
Proof. rewrite /matrix_function. congr (_ *m diag_mx _ *m _). apply/rowP => i. by rewrite !mxE. Qed.

Lemma range_shifted n (M : 'M[R]_n) lo hi s : range_in M lo hi -> range_in (M + s%:M) (lo + s) (hi + s).
Proof.
move=> H y. rewrite mulmxDl mul_scalar_mx ipDr ipZr !mulrDl !ler_add2r. exact: H.
Qed.

Lemma lanczos_shifted n k (N : 'M[R]_n) w (V : 'M[R]_(n, k.+1)) T r s :
  lanczos_result N w V T r -> lanczos_result (N + s%:M) w V (T + s%:M) r.
Proof.
move=> [HV H0 [HT [a [b Eab]]] Hr HN]. split=> //.
- split; first by rewrite mulmxDr mulmxDl HT mul_mx_scalar -scalemxAl HV scalemx1.
  exists (fun i => a i + s), b. rewrite Eab. apply/matrixP => i j. rewrite !mxE -(inj_eq val_inj).
  case: ifP => [/eqP ->|_]; last by rewrite mulr0n addr0. by rewrite mulr1n.
- by rewrite mulmxDl HN mul_scalar_mx mulmxDr mul_mx_scalar addrAC.
Qed.

Lemma resolvent_perturbed n k (N : 'M[R]_n.+1) w (V : 'M[R]_(n.+1, k.+1)) T r Q d P e lo hi s : w != 0 -> N^T = N ->
  0 < lo -> 0 <= s -> range_in N lo hi -> lanczos_result N w V T r -> spectral T Q d -> spectral N P e ->
  `|matrix_function (fun y => (y + s)^-1) Q d 0 0 - rayleigh (matrix_function (fun y => (y + s)^-1) P e) w| <=
  nrm r / (lo + s) ^+ 2.
Proof.
move=> Hw Hsym Hlo Hs Hr Hlz HT HP. rewrite !mf_shifted.
have Hls : 0 < lo + s by rewrite ltr_paddr.
have HrS := range_shifted s Hr. have HPS := spectral_shifted s HP.
have [_ <-] := mf_inv HPS (fun i => lt0r_neq0 (lt_le_trans Hls (proj1 (andP (spectral_range HPS HrS i))))).
have HsymS : (N + s%:M)^T = N + s%:M by rewrite linearD /= Hsym tr_scalar_mx.
exact: inverse_perturbed Hw HsymS Hls HrS (lanczos_shifted s Hlz) (spectral_shifted s HT).
Qed.

Lemma resolvent_degree n k m (N : 'M[R]_n.+1) w (V : 'M[R]_(n.+1, k.+1)) T r Q d P e lo hi s : w != 0 ->
  0 < lo -> 0 <= s -> range_in N lo hi -> lanczos_result N w V T r -> spectral T Q d -> spectral N P e ->
  (forall q : {poly R}, (size q <= 2 * m)%N ->
     matrix_function (horner q) Q d 0 0 = rayleigh (horner_mx N q) w) ->
  `|matrix_function (fun y => (y + s)^-1) Q d 0 0 - rayleigh (matrix_function (fun y => (y + s)^-1) P e) w| <=
  2%:R / (lo + s) * ((hi - lo) / (hi + lo + s *+ 2)) ^+ (2 * m).
Proof.
move=> Hw Hlo Hs Hr Hlz HT HP Hex.
have Hls : 0 < lo + s by rewrite ltr_paddr.
have := @inverse_approximated R GRing.inv (lo + s) (hi + s) (2 * m) Hls (fun _ _ => erefl).
set q0 := inverse_poly _ _. pose q := q0 \Po ('X + s%:P).
have Hq : (size q <= 2 * m)%N.
{ rewrite /q size_comp_poly2 ?size_inverse_poly //. by rewrite size_XaddC. }
have -> : hi + s - (lo + s) = hi - lo by rewrite opprD addrACA subrr addr0.
have -> : hi + s + (lo + s) = hi + lo + s *+ 2 by rewrite addrACA -mulr2n.
move=> Happ. have Happ' : approximates (fun y => (y + s)^-1) q lo hi
    ((lo + s)^-1 * ((hi - lo) / (hi + lo + s *+ 2)) ^+ (2 * m)).
{ move=> y Hy. rewrite /q horner_comp hornerD hornerX hornerC. apply: (Happ (y + s)). by rewrite !ler_add2r. }
apply: le_trans (quadrature_error Hw Hlz HT Hr (Hex q Hq) Happ' HP) _.
by rewrite -[X in X <= _]mulr_natl mulrA.
Qed.

(** Both sides as weighted sums of values of the function *)
Lemma mf_weights k (Q : 'M[R]_k.+1) (d : 'rV[R]_k.+1) (h : R -> R) :
  matrix_function h Q d 0 0 = \sum_i Q 0 i ^+ 2 * h (d 0 i).
Proof. rewrite /matrix_function spectral_00. by apply: eq_bigr => i _; rewrite mxE. Qed.

Lemma rayleigh_weights n (P : 'M[R]_n) (e : 'rV[R]_n) (h : R -> R) w :
  rayleigh (matrix_function h P e) w = \sum_i ((P^T *m w) i 0 ^+ 2 / ip w w) * h (e 0 i).
Proof.
rewrite /rayleigh /matrix_function -!mulmxA ip_adj. set z := P^T *m w. rewrite {1}/ip mulr_suml.
apply: eq_bigr => i _. have -> : (diag_mx (map_mx h e) *m z) i 0 = h (e 0 i) * z i 0 by rewrite mul_diag_mx !mxE.
move: (z i 0) (h _) (_^-1) => a b c. by rewrite mulrCA -expr2 -[LHS]mulrA mulrC.
Qed.

Lemma weights_one k (Q : 'M[R]_k.+1) : orthonormal Q -> \sum_i Q 0 i ^+ 2 = 1.
Proof.
move=> HQ. have := mulmx1C HQ => /matrixP /(_ 0 0). rewrite !mxE eqxx mulr1n => <-.
by apply: eq_bigr => i _; rewrite mxE expr2.
Qed.

Lemma weights_one' n (P : 'M[R]_n) w : w != 0 -> orthonormal P -> \sum_i (P^T *m w) i 0 ^+ 2 / ip w w = 1.
Proof.
move=> Hw HP. rewrite -mulr_suml. have -> : \sum_i (P^T *m w) i 0 ^+ 2 = ip w w.
{ rewrite -[RHS]nrm_sqr -(nrm_orth w HP) nrm_sqr. by apply: eq_bigr => i _; rewrite expr2. }
by rewrite mulfV // ip_eq0.
Qed.
End Resolvent.
