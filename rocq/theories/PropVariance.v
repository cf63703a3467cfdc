(** How far the samples are from the trace: C76. *)
From mathcomp Require Import all_ssreflect all_algebra zify.
From mathcomp.real_closed Require Import realalg.
From Verif Require Import Mem KernelModel KernelSpec OperatorModel OperatorSpec.
From Verif Require Import LanczosModel LanczosSpec LanczosMath MatSpec CholMath SlqModel SlqSpec SlqProofs PropSlq.
From Verif Require HutchModel PropHutch.
From Verif Require Import Spectral.
From Verif Require Import VarianceSpec.
Set Implicit Arguments.
Unset Strict Implicit.
Unset Printing Implicit Defensive.
Import GRing.Theory Num.Theory Order.TTheory.
Local Open Scope ring_scope.

Section Moments.
Variables (R : rcfType) (n : nat).
Notation signv := (n.-tuple bool).
Definition x (s : signv) (i : 'I_n) : R := vec n (signs R s) i 0.

Lemma xE s i : x s i = if tnth s i then -1 else 1. Proof. exact: signsE. Qed.
Lemma x_sqr s i : x s i * x s i = 1. Proof. rewrite xE. exact: sign_sqr. Qed.

Definition flip (t : 'I_n) (s : signv) : signv :=
  [tuple (if l == t then ~~ tnth s l else tnth s l) | l < n].

Lemma flipK t : involutive (flip t).
Proof. move=> s. apply: eq_from_tnth => l. rewrite !tnth_mktuple. by case: (l == t); rewrite ?negbK. Qed.

Lemma x_flip t s i : x (flip t s) i = if i == t then - x s i else x s i.
Proof. rewrite !xE tnth_mktuple. case: (i == t) => //. by case: (tnth s i) => /=; rewrite ?opprK. Qed.

Lemma flip_sum t (g : signv -> R) : (forall s, g (flip t s) = - g s) -> \sum_s g s = 0.
Proof.
move=> H. set S := \sum_s _. have E : S = - S.
{ rewrite {1}/S (reindex_inj (inv_inj (flipK t))) /= -sumrN. by apply: eq_bigr => s _. }
apply/eqP. have : S *+ 2 == 0 by rewrite mulr2n {1}E addNr. by rewrite mulrn_eq0.
Qed.

Lemma moment4 (i j k l : 'I_n) : i != j -> k != l ->
  \sum_(s : signv) x s i * x s j * (x s k * x s l) =
  (2 ^ n)%:R *+ ((i == k) && (j == l)) + (2 ^ n)%:R *+ ((i == l) && (j == k)).
Proof.
move=> Hij Hkl.
have one (f : signv -> R) : (forall s, f s = 1) -> \sum_s f s = (2 ^ n)%:R.
{ move=> H. rewrite (eq_bigr (fun=> 1)) // sumr_const card_tuple card_bool. by []. }
have anti (t : 'I_n) (a b c d : 'I_n) : a = t -> b != t -> c != t -> d != t ->
  \sum_(s : signv) x s a * x s b * (x s c * x s d) = 0.
{ move=> -> Hb Hc Hd. apply: (@flip_sum t) => s.
  by rewrite !x_flip eqxx (negbTE Hb) (negbTE Hc) (negbTE Hd) !mulNr. }
have swap (a b c d : 'I_n) :
  \sum_(s : signv) x s a * x s b * (x s c * x s d) = \sum_(s : signv) x s b * x s a * (x s c * x s d).
{ apply: eq_bigr => s _. by rewrite [x s a * _]mulrC. }
have Hji : j != i by rewrite eq_sym.
have [Eik|Nik] := eqVneq i k; [have [Ejl|Njl] := eqVneq j l|].
- rewrite -Eik -Ejl (negbTE Hij) /= mulr0n addr0 ?mulr1n. apply: one => s. by rewrite mulrACA !x_sqr mulr1.
- rewrite -Eik (negbTE Hji) !andbF /= !mulr0n addr0 swap. apply: (@anti j) => //. by rewrite eq_sym.
- rewrite /= mulr0n add0r. have [Eil|Nil] := eqVneq i l; [have [Ejk|Njk] := eqVneq j k|].
  + rewrite -Eil -Ejk /= mulr1n. apply: one => s. by rewrite [x s j * x s i]mulrC mulrACA !x_sqr mulr1.
  + rewrite /= mulr0n -Eil swap. apply: (@anti j) => //. by rewrite eq_sym.
  + rewrite /= mulr0n. apply: (@anti i) => //; by rewrite eq_sym.
Qed.

(** The quadratic form without the diagonal *)
Lemma form_minus_trace (F : 'M[R]_n) s :
  ip (vec n (signs R s)) (F *m vec n (signs R s)) - \tr F = \sum_i \sum_(j | j != i) F i j * (x s i * x s j).
Proof.
rewrite /ip -sumrB. apply: eq_bigr => i _. rewrite [(F *m _) i 0]mxE (bigD1 i) //= mulrDr.
rewrite -/(x s i) [x s i * (F i i * _)]mulrCA x_sqr mulr1 addrAC subrr add0r big_distrr /=.
apply: eq_bigr => j _. by rewrite -/(x s j) mulrCA.
Qed.

Lemma sum_pick (f : 'I_n -> R) (i : 'I_n) (P : pred 'I_n) c : P i ->
  \sum_(k | P k) f k * (c *+ (i == k)) = f i * c.
Proof.
move=> Hi. rewrite (bigD1 i) //= eqxx mulr1n big1 ?addr0 // => k /andP [_ /negbTE Hk].
by rewrite eq_sym Hk mulr0n mulr0.
Qed.

Lemma variance_sum (F : 'M[R]_n) :
  \sum_(s : signv) (ip (vec n (signs R s)) (F *m vec n (signs R s)) - \tr F) ^+ 2 = (2 ^ n)%:R * spread F.
Proof.
pose S4 (i j k l : 'I_n) := \sum_(s : signv) x s i * x s j * (x s k * x s l).
transitivity (\sum_i \sum_(j | j != i) \sum_k \sum_(l | l != k) F i j * (F k l * S4 i j k l)).
  transitivity (\sum_(s : signv) \sum_i \sum_(j | j != i) \sum_k \sum_(l | l != k)
    F i j * (x s i * x s j) * (F k l * (x s k * x s l))).
  { apply: eq_bigr => s _. rewrite form_minus_trace expr2 big_distrl /=. apply: eq_bigr => i _.
    rewrite big_distrl /=. apply: eq_bigr => j _. rewrite big_distrr /=. apply: eq_bigr => k _.
    by rewrite big_distrr /=. }
  rewrite exchange_big /=. apply: eq_bigr => i _. rewrite exchange_big /=. apply: eq_bigr => j _.
  rewrite exchange_big /=. apply: eq_bigr => k _. rewrite exchange_big /=. apply: eq_bigr => l _.
  rewrite /S4 !big_distrr /=. apply: eq_bigr => s _. by rewrite mulrACA -mulrA.
rewrite /spread big_distrr /=. apply: eq_bigr => i _. rewrite big_distrr /=. apply: eq_bigr => j Hj.
have Hij : i != j by rewrite eq_sym.
transitivity (\sum_k \sum_(l | l != k) (F i j * (F k l * ((2 ^ n)%:R *+ (j == l)))) *+ (i == k)
  + \sum_k \sum_(l | l != k) (F i j * (F k l * ((2 ^ n)%:R *+ (i == l)))) *+ (j == k)).
  rewrite -big_split /=. apply: eq_bigr => k _. rewrite -big_split /=. apply: eq_bigr => l Hl.
  rewrite /S4 (moment4 Hij (_ : k != l)) ?mulrDr; last by rewrite eq_sym. congr (_ + _); [|rewrite andbC];
    by case: (_ == k) => //=; rewrite ?mulr1n ?mulr0n ?mulr0.
have pick (a b : 'I_n) : b != a ->
  \sum_k \sum_(l | l != k) (F i j * (F k l * ((2 ^ n)%:R *+ (b == l)))) *+ (a == k) = F i j * (F a b * (2 ^ n)%:R).
{ move=> Hba. rewrite (bigD1 a) //= eqxx [X in _ + X]big1 ?addr0.
  - under eq_bigr do rewrite mulr1n mulrA. by rewrite sum_pick // -mulrA.
  - move=> k Hk. apply: big1 => l _. by rewrite [a == k]eq_sym (negbTE Hk) mulr0n. }
by rewrite !pick // -mulrDr -mulrDl mulrA mulrC.
Qed.
End Moments.

Section Draws.
Variables (R : rcfType) (T : finType) (K : nat).
Implicit Types (f d : T -> R) (S : draws K T).

Lemma draws_card : #|{: draws K T}| = (#|T| ^ K)%N.
Proof. by rewrite card_ffun card_ord. Qed.

(** The sum over all draws of d (S k) d (S l) *)
Lemma draws_pair d (k l : 'I_K) : \sum_t d t = 0 ->
  \sum_(S : draws K T) d (S k) * d (S l) = ((#|T| ^ K.-1)%:R * (\sum_t d t ^+ 2)) *+ (k == l).
Proof.
move=> Hd.
pose h (m : 'I_K) t := (if m == k then d t else 1) * (if m == l then d t else 1).
transitivity (\sum_(S : draws K T) \prod_m h m (S m)).
{ apply: eq_bigr => S _. rewrite /h big_split /=. by rewrite -!big_mkcond /= !big_pred1_eq. }
rewrite -bigA_distr_bigA /= (bigD1 k) //= /h eqxx.
have [<-|Nkl] := eqVneq k l.
- rewrite mulr1n [LHS]mulrC. apply: congr2; last by apply: eq_bigr => t _; rewrite expr2.
  transitivity (\prod_(m : 'I_K | m != k) (#|T|)%:R : R).
  + apply: eq_bigr => m /negbTE ->. under eq_bigr do rewrite mulr1. by rewrite sumr_const.
  + rewrite prodr_const natrX. congr (_ ^+ _). by rewrite cardC1 card_ord.
- rewrite mulr0n. under eq_bigr do rewrite mulr1. by rewrite Hd mul0r.
Qed.

(** C76, K draws: the mean squared distance of the mean of the draws from the
    mean is the one of a single draw divided by K. *)
Theorem C76_mean_of_draws f (mu V : R) : (0 < K)%N -> (0 < #|T|)%N ->
  average f = mu -> average (fun t => (f t - mu) ^+ 2) = V ->
  average (fun S : draws K T => (sample_mean f S - mu) ^+ 2) = V / K%:R.
Proof.
move=> HK HT Hmu HV. pose d t := f t - mu. pose N : R := (#|T|)%:R.
have HN : N != 0 by rewrite pnatr_eq0 -lt0n.
have HK0 : K%:R != 0 :> R by rewrite pnatr_eq0 -lt0n.
have Hd : \sum_t d t = 0.
{ rewrite sumrB -Hmu sumr_const -[LHS]mulr1 -(mulfV HN) /average -/N -mulr_natr -/N.
  by rewrite [N^-1 * _]mulrC mulfVK // subrr mul0r. }
have HV2 : \sum_t d t ^+ 2 = N * V by rewrite -HV /average mulrA mulfV // mul1r.
rewrite /average draws_card natrX.
have E S : (sample_mean f S - mu) ^+ 2 = K%:R^-1 ^+ 2 * \sum_k \sum_l d (S k) * d (S l).
{ rewrite /sample_mean. have -> : mu = K%:R^-1 * (\sum_(k < K) mu).
    by rewrite sumr_const card_ord -[mu *+ K]mulr_natr mulrCA mulVf // mulr1.
  rewrite -mulrBr -sumrB exprMn expr2 [in X in _ * X]expr2 big_distrl /=.
  congr (_ * _). apply: eq_bigr => k _. by rewrite big_distrr. }
under eq_bigr do rewrite E. rewrite -big_distrr /= exchange_big /=.
have -> : \sum_(k < K) \sum_(S : draws K T) \sum_(l < K) d (S k) * d (S l) = K%:R * (N ^+ K * V).
{ transitivity (\sum_(k < K) N ^+ K * V).
  - apply: eq_bigr => k _. rewrite exchange_big /=. under eq_bigr do rewrite draws_pair //.
    rewrite (bigD1 k) //= eqxx mulr1n [X in _ + X]big1 ?addr0.
    + rewrite HV2 mulrA natrX -/N -exprSr prednK //.
    + move=> l Hl. by rewrite eq_sym (negbTE Hl) mulr0n.
  - by rewrite sumr_const card_ord mulr_natl. }
rewrite -/N expr2 -mulrA [K%:R^-1 * (K%:R * _)]mulrA mulVf // mul1r [K%:R^-1 * _]mulrC !mulrA.
by rewrite mulVf ?mul1r // expf_neq0.
Qed.

(** C76, Chebyshev: the number of the draws whose mean is e or more from mu. *)
Theorem C76_few_far_draws f (mu V e : R) : (0 < K)%N -> (0 < #|T|)%N -> 0 <= e ->
  average f = mu -> average (fun t => (f t - mu) ^+ 2) = V ->
  (#|[set S : draws K T | e <= `|sample_mean f S - mu|]|)%:R * (K%:R * e ^+ 2) <=
  (#|{: draws K T}|)%:R * V.
Proof.
move=> HK HT He Hmu HV. have := C76_mean_of_draws HK HT Hmu HV.
set D := #|{: draws K T}|. have HD : 0 < D%:R :> R by rewrite ltr0n /D draws_card expn_gt0 HT.
have HK0 : 0 < K%:R :> R by rewrite ltr0n.
set g := fun S : draws K T => _. rewrite /average -/D => E.
have {E} E : \sum_S g S = D%:R * V / K%:R by rewrite -mulrA -E mulrA mulfV ?mul1r // gt_eqF.
rewrite mulrCA -ler_pdivl_mull // [X in _ <= X]mulrC -E mulr_natl -sumr_const.
rewrite [X in _ <= X](bigID (mem [set S : draws K T | e <= `|sample_mean f S - mu|])) /=.
rewrite -[X in X <= _]addr0. apply: ler_add; last by apply: sumr_ge0 => S _; rewrite sqr_ge0.
apply: ler_sum => S. rewrite inE => HS. rewrite /g -[X in _ <= X]real_normK ?num_real //.
by rewrite ler_expn2r // ?nnegrE.
Qed.
End Draws.

Section Props.
Variable R : rcfType.

Lemma card_signs n : #|{: n.-tuple bool}| = (2 ^ n)%N.
Proof. by rewrite card_tuple card_bool. Qed.

(** C76, one sample *)
Theorem C76_variance n (F : 'M[R]_n) :
  average (fun s : n.-tuple bool => (ip (vec n (signs R s)) (F *m vec n (signs R s)) - \tr F) ^+ 2) = spread F.
Proof.
rewrite /average card_signs variance_sum mulrA mulVf ?mul1r //. by rewrite pnatr_eq0 -lt0n expn_gt0.
Qed.

Lemma quadratic_concentrated n (F : 'M[R]_n) :
  concentrated F (fun s => ip (vec n (signs R s)) (F *m vec n (signs R s))).
Proof.
have H1 := C19_rademacher F. have H2 := C76_variance F.
have HT : (0 < #|{: n.-tuple bool}|)%N by rewrite card_signs expn_gt0.
have H3 : average (fun s : n.-tuple bool => ip (vec n (signs R s)) (F *m vec n (signs R s))) = \tr F.
{ by rewrite /average card_signs. }
split=> //. split=> //. split=> [K HK|K e HK He]; first exact: C76_mean_of_draws.
have Hp : 0 < K%:R * e ^+ 2 by rewrite mulr_gt0 ?ltr0n ?exprn_gt0.
rewrite mulrA ler_pdivl_mulr //. by apply: C76_few_far_draws => //; exact: ltW.
Qed.

(** The spread is half the sum of the squares of F + F^T off the diagonal. *)
Theorem C76_spread n (F : 'M[R]_n) :
  spread F = 2%:R^-1 * \sum_i \sum_(j | j != i) (F i j + F j i) ^+ 2.
Proof.
have H : \sum_i \sum_(j | j != i) (F i j + F j i) ^+ 2 =
  spread F + \sum_i \sum_(j | j != i) F j i * (F i j + F j i).
{ rewrite /spread -big_split /=. apply: eq_bigr => i _. rewrite -big_split /=. apply: eq_bigr => j _.
  by rewrite expr2 mulrDl. }
rewrite H (exchange_big_dep xpredT) //=.
have -> : \sum_j \sum_(i | j != i) F j i * (F i j + F j i) = spread F.
{ apply: eq_bigr => j _. apply: eq_big => [i|i _]; first by rewrite eq_sym.
  by rewrite [F i j + _]addrC. }
by rewrite -mulr2n -[spread F *+ 2]mulr_natl mulrA mulVf ?mul1r // pnatr_eq0.
Qed.

(** For a symmetric matrix it is 2 (|F|^2 - the squares of the diagonal). *)
Theorem C76_spread_sym n (F : 'M[R]_n) : F^T = F ->
  spread F = 2%:R * (\tr (F *m F) - \sum_i F i i ^+ 2).
Proof.
move=> HF. have Hs i j : F j i = F i j by rewrite -[in LHS]HF mxE.
rewrite /mxtrace -sumrB mulr_sumr. apply: eq_bigr => i _. rewrite [(F *m F) i i]mxE.
rewrite [X in 2%:R * (X - _)](bigD1 i) //= expr2.
rewrite addrAC subrr add0r mulr_sumr. apply: eq_bigr => j _. rewrite (Hs i j).
by rewrite mulrDr -mulr2n [RHS]mulr_natl.
Qed.

(** One sample is exact, whatever the vector of signs, exactly when F + F^T is
    diagonal. *)
Theorem C76_exact_iff n (F : 'M[R]_n) :
  (forall s : n.-tuple bool, ip (vec n (signs R s)) (F *m vec n (signs R s)) = \tr F) <->
  (forall i j, i != j -> F i j + F j i = 0).
Proof.
split=> [H i j Hij|H s].
- have E : spread F = 0.
  { rewrite -C76_variance /average. rewrite big1 ?mulr0 // => s _. by rewrite H subrr expr0n. }
  move: E. rewrite C76_spread => /eqP. rewrite mulf_eq0 invr_eq0 pnatr_eq0 /= psumr_eq0.
  + move=> /allP /(_ i). rewrite mem_index_enum => /(_ isT) /=.
    rewrite psumr_eq0; last by move=> *; rewrite sqr_ge0.
    move=> /allP /(_ j). rewrite mem_index_enum => /(_ isT) /implyP. rewrite eq_sym => /(_ Hij).
    by rewrite sqrf_eq0 => /eqP.
  + move=> k _. by apply: sumr_ge0 => l _; rewrite sqr_ge0.
- apply/eqP. rewrite -subr_eq0 form_minus_trace. apply/eqP. set S := \sum_i _.
  have E : S = - S.
  { rewrite {1}/S (exchange_big_dep xpredT) //= -sumrN. apply: eq_bigr => i _. rewrite -sumrN.
    apply: eq_big => [j|j Hj]; first by rewrite eq_sym.
    rewrite [x R s j * _]mulrC -mulNr. congr (_ * _). apply/eqP. by rewrite -addr_eq0 H // eq_sym. }
  apply/eqP. have : S *+ 2 == 0 by rewrite mulr2n {1}E addNr. by rewrite mulrn_eq0.
Qed.

(** C76 for the quadrature: the samples of C19 *)
Theorem C76_slq : forall (eps : R) (alloc : nat -> seq R) eigh svd (pw f : R -> R)
    (n' m : nat) (tol : R) (orth : int) (A : storage R) (p : {poly R}),
  let n := n'.+1 in
  0 < eps -> (forall k, size (alloc k) = k) -> eigh_contract eigh -> svd_contract svd ->
  (0 < m)%N -> 0 < tol ->
  well_formed A n n -> (denotes A n n)^T = denotes A n n ->
  (forall x, f (pw x) = p.[x]) ->
  (size p <= 2 * m)%N ->
  (size p <= 2)%N \/
  (forall (s : n.-tuple bool) k (V : 'M_(n, k.+1)) T r, (k.+1 < m)%N ->
    lanczos_result (denotes A n n) (vec n (signs R s)) V T r -> nrm r < tol * Num.sqrt n%:R -> r = 0) ->
  exists sample : n.-tuple bool -> R,
    (forall s, slq_matrix eps alloc eigh svd pw f n m tol orth false A [::] 1 [:: false]
                 (signs R s) [:: 0] = Some ([:: false], [:: sample s])) /\
    concentrated (horner_mx (denotes A n n) p) sample.
Proof.
  move=> eps alloc eigh svd pw f n' m tol orth A p n He Hal Hei Hsv Hm Ht HA Hsym Hf Hp Hearly.
  have Hss : forall s : n.-tuple bool, size (signs R s) = n by move=> s; rewrite size_map size_tuple.
  have Hii : forall s : n.-tuple bool, ip (vec n (signs R s)) (vec n (signs R s)) = n%:R.
  { move=> s. rewrite /ip. under eq_bigr do rewrite signsE sign_sqr. by rewrite sumr_const card_ord. }
  have Hnz : forall s : n.-tuple bool, vec n (signs R s) != 0.
  { move=> s. by rewrite -ip_eq0 Hii pnatr_eq0. }
  exists (fun s => ip (vec n (signs R s)) (horner_mx (denotes A n n) p *m vec n (signs R s))).
  split; last exact: quadratic_concentrated.
  move=> s. have Hsz : (n <= size (signs R s))%N by rewrite Hss.
  have [est' [E SE _ Hval _]] := matrix_each He Hal Hei Hsv pw f Hm Ht orth (gram := false) [::]
    (conv := [:: false]) (est := [:: 0]) (num := 1) isT HA Hsym isT isT Hsz (Hnz s).
  have [k [V [T [r [Hlr Hk Hstop Hpoly _]]]]] := value_sym Ht Hsym (Hnz s) (Hval 0%N isT isT).
  have Hcase : (size p <= 2 * k.+1)%N \/ r = 0.
  { case: Hearly => [Hle|Hr]; first by left; lia.
    case: (ltnP k.+1 m) => Hkm; last by left; lia.
    right. exact: (Hr s k V T r Hkm Hlr (Hstop Hkm)). }
  rewrite E. congr (Some (_, _)).
  case: est' SE {E Hval} Hpoly => [|y [|]] //= _ Hpoly.
  rewrite (Hpoly p Hcase Hf) /rayleigh Hii mulrC divfK // pnatr_eq0. by [].
Qed.

(** C76 for the Hutchinson method without B and C: the samples of C38 *)
Theorem C76_hutchinson n' (A : 'M[R]_n'.+1) (gram : bool) (p : int) : A \in unitmx -> -1 <= p ->
  let n := n'.+1 in
  exists sample : n.-tuple bool -> R,
    (forall s, HutchModel.hutchinson_sample A None None gram p ((Num.sqrt n%:R)^-1 *: vec n (signs R s)) = Some (sample s)) /\
    concentrated (mxpowz (if gram then A^T *m A else A) (- p)) sample.
Proof.
move=> HA Hp n. set F := mxpowz _ _.
exists (fun s => ip (vec n (signs R s)) (F *m vec n (signs R s))). split; last exact: quadratic_concentrated.
move=> s. set v := vec n _. set q := Num.sqrt _. 
have HS : HutchModel.hutchinson_sample A None None gram p (q^-1 *: v) = Some (n%:R * ((q^-1 *: v)^T *m F *m (q^-1 *: v)) 0 0).
{ rewrite /F. move: (q^-1 *: v) => e {s v q F}.
  have [Hs|Hs] := boolP [&& gram & (absz p == 1)%N].
    move: Hs => /andP [Hg Hp1]. rewrite Hg /HutchModel.hutchinson_sample /HutchModel.estimator /HutchModel.gramian eqxx !andbT.
    have [Ep|Ep] : p = 1 \/ p = -1 by lia.
    - rewrite Ep /= /HutchModel.operator_dot /= unitmx_tr HA /= PropHutch.inner_productE mxpow1. congr (Some (_ * _)).
      rewrite trmx_mul trmx_inv trmxK !mulmxA invmx_mul ?unitmx_tr //. by rewrite !mulmxA.
    - rewrite Ep /= /HutchModel.operator_dot /= PropHutch.inner_productE mxpow1. congr (Some (_ * _)).
      by rewrite trmx_mul !mulmxA.
  have HG : gram -> HutchModel.gramian A gram p None None = Some (A^T *m A).
  { move=> Hg. rewrite /HutchModel.gramian Hg. case: ifP => // /andP [/andP [/eqP p1 _] _].
    by move: Hs; rewrite Hg p1. }
  have HN : gram -> p != -1. { move=> Hg. apply/eqP => Ep. by move: Hs; rewrite Hg Ep. }
  have HB : gram -> p = 1 -> (None : option 'M[R]_n) <> None. { move=> Hg Ep. by move: Hs; rewrite Hg Ep. }
  rewrite /HutchModel.hutchinson_sample /HutchModel.estimator.
  have -> : gram && (HutchModel.gramian A gram p None None == None) = false.
  { apply/negbTE/negP => /andP [Hg]. by rewrite HG. }
  rewrite PropHutch.operator_dotE //=.
  have -> : gram && (absz p == 1)%N && true && true = false by rewrite !andbT; apply/negbTE.
  by rewrite PropHutch.inner_productE mul1mx !mulmxA. }
rewrite HS. congr Some.
have -> : (q^-1 *: v)^T = q^-1 *: v^T by rewrite linearZ.
rewrite -!scalemxAl -scalemxAr scalerA mxE -expr2 exprVn sqr_sqrtr ?ler0n //.
rewrite mulrA mulfV ?pnatr_eq0 // mul1r -mulmxA mxE /ip. by apply: eq_bigr => i _; rewrite mxE.
Qed.
End Props.

(** With spread zero, as for a diagonal matrix, each sample is exact. *)
Theorem C76_no_spread (R : rcfType) n (F : 'M[R]_n) sample :
  concentrated F sample -> (forall i j, i != j -> F i j = 0) -> forall s, sample s = \tr F.
Proof.
move=> [_ [HV _]] HF s. move: HV.
have -> : spread F = 0. { apply: big1 => i _. apply: big1 => j Hj. by rewrite HF ?mul0r // eq_sym. }
rewrite /average => /eqP. rewrite mulf_eq0 invr_eq0 pnatr_eq0 card_signs -leqn0 leqNgt expn_gt0 /=.
rewrite psumr_eq0; last by move=> t _; rewrite sqr_ge0.
move=> /allP /(_ s). rewrite mem_index_enum => /(_ isT) /=. by rewrite sqrf_eq0 subr_eq0 => /eqP.
Qed.

Definition C76_assumptions := (@C76_variance, @C76_spread, @C76_spread_sym, @C76_exact_iff, @C76_mean_of_draws,
  @C76_few_far_draws, @C76_slq, @C76_hutchinson, @C76_no_spread).
Print Assumptions C76_assumptions.

(** The hypotheses are met by ((2, 1), (1, 2)), whose spread is 4: one sample in
    two is off, and the mean of 100 samples is off by 1 or more for at most one
    in 25 of all choices of the vectors. *)
Section Examples.
Let RA := [rcfType of realalg].
Let A : storage RA := Dense true [:: 2%:R; 1; 1; 2%:R].
Notation M := (denotes A 2 2).

Lemma M_entry i j : M i j = if i == j then 2%:R else 1.
Proof. rewrite !mxE. by case: i => [[|[|//]] Hi]; case: j => [[|[|//]] Hj]. Qed.

Lemma M_sym : M^T = M.
Proof. apply/matrixP => i j. by rewrite mxE !M_entry eq_sym. Qed.

Lemma M_spread : spread M = 4%:R.
Proof.
have E i : \sum_(j | j != i) M i j * (M i j + M j i) = 2%:R.
{ rewrite (eq_bigr (fun=> 2%:R)); first by rewrite sumr_const cardC1 card_ord.
  move=> j Hj. by rewrite !M_entry [i == j]eq_sym (negbTE Hj) mul1r. }
rewrite /spread (eq_bigr (fun=> 2%:R)) // sumr_const card_ord. by rewrite -mulrnA.
Qed.

Example C76_case : exists eigh svd sample,
  (forall s : 2.-tuple bool, slq_matrix (1 : RA) (fun k => nseq k 0) eigh svd id id 2 3 1 (-1) false A [::] 1 [:: false]
     (signs RA s) [:: 0] = Some ([:: false], [:: sample s])) /\
  average (fun s => (sample s - \tr M) ^+ 2) = 4%:R /\
  (#|[set S : draws 100 [finType of 2.-tuple bool] | 1 <= `|sample_mean sample S - \tr M|]|)%:R <=
     (#|{: draws 100 [finType of 2.-tuple bool]}|)%:R * (4%:R / 100%:R) :> RA.
Proof.
have [eigh He] := eigh_contract_met RA. have [svd Hs] := svd_contract_met RA.
have Hal : forall k, size (nseq k (0 : RA)) = k by move=> k; rewrite size_nseq.
have Hp : (size ('X : {poly RA}) <= 2)%N by rewrite size_polyX.
have Hp6 : (size ('X : {poly RA}) <= 2 * 3)%N by exact: leq_trans Hp _.
have Hf : forall x : RA, id (id x) = ('X).[x] by move=> x; rewrite hornerX.
have [sample [H1 [_ [H3 [_ H4]]]]] := @C76_slq RA 1 _ eigh svd id id 1 3 1 (-1) A 'X
  ltr01 Hal He Hs isT ltr01 isT M_sym Hf Hp6 (or_introl Hp).
exists eigh, svd, sample. split=> //. rewrite -M_spread. rewrite horner_mx_X in H3 H4.
split=> //. have := H4 100%N 1 isT ltr01. by rewrite expr1n mulr1.
Qed.

Example C76_hutchinson_case : exists sample,
  (forall s : 2.-tuple bool, HutchModel.hutchinson_sample M None None true (-1)
     ((Num.sqrt 2%:R)^-1 *: vec 2 (signs RA s)) = Some (sample s)) /\ concentrated (M^T *m M) sample.
Proof.
have HM : M \in unitmx.
{ rewrite unitmxE (expand_det_row _ 0) big_ord_recl big_ord1 /cofactor !det_mx11 !mxE /= unitfE.
  by rewrite expr0 expr1 !mul1r mulr1 -natrM -(@natrB _ 4 1) // pnatr_eq0. }
have [sample [H1 H2]] := @C76_hutchinson RA 1 M true (-1) HM isT.
exists sample. split=> //. move: H2. rewrite (_ : - (-1) = 1%:Z); last exact: opprK. by rewrite /mxpowz /= mxpow1.
Qed.
End Examples.
