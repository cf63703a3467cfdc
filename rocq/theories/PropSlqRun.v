(** Theorem C67: a whole run of the stochastic Lanczos quadrature on one thread.
    Arithmetic is exact, over any real closed field. *)
From Coq Require Import ZArith NArith.
From mathcomp Require Import all_ssreflect all_algebra.
From mathcomp Require Import zify.
From mathcomp.real_closed Require Import realalg.
From Verif Require Import Mem KernelModel KernelSpec OperatorModel OperatorSpec OperatorProofs.
From Verif Require Import LanczosSpec LanczosMath Spectral SlqModel SlqSpec SlqProofs PropSlq.
From Verif Require Import ConvModel ConvSpec ConvProofs RngModel.
From Verif Require Import SlqRunModel SlqRunSpec SlqRunProofs SlqRunValues.
From Verif Require PropRng PropConv.
Set Implicit Arguments.
Unset Strict Implicit.
Unset Printing Implicit Defensive.
Import Order.TTheory GRing.Theory Num.Theory.
Local Open Scope ring_scope.
Local Opaque rng_initialize.

Section Run.
Variable R : rcfType.
(** Machine epsilon. *)
Variable eps : R.
Hypothesis eps_gt0 : 0 < eps.
(** The exponent, the function, the size, the degree, the tolerance and the
    reorthogonalisation setting. *)
Variable pw f : R -> R.
Variable n' m : nat.
Notation n := n'.+1.
Hypothesis m_gt0 : (0 < m)%N.
Variable tol : R.
Hypothesis tol_gt0 : 0 < tol.
Variable orth : int.
(** Minimum and maximum number of samples, the quantiles of the confidence
    level and of the outlier test, the tolerances. *)
Variables mn mx : nat.
Hypothesis mx_gt0 : (0 < mx)%N.
Variables z zo atol rtol : R.
Hypothesis z_ge0 : 0 <= z.

Notation tolerance := (tol * Num.sqrt n%:R).
Notation g := (fun x => f (pw x)).
Notation F := (@Fin R).
Notation eigensolver := (nat -> seq R -> seq R -> option (seq R * seq R)).

(** The call for a matrix and for an affine matrix function, given the contents
    of fresh memory and the two LAPACK routines. *)
Definition run_matrix (alloc : nat -> seq R) (eigh svd : eigensolver) gram (A : storage R) params q :=
  trace_estimator_matrix eps alloc eigh svd pw f n m tol orth gram q mn mx (F z) (F zo) (F atol) (F rtol) A params.
Definition run_affine (alloc : nat -> seq R) (eigh svd : eigensolver) gram (op : affine R) (ts : seq R) :=
  trace_estimator_affine eps alloc eigh svd pw f n m tol orth gram (size ts) mn mx (F z) (F zo) (F atol) (F rtol) op ts.

Definition sample_of (gram : bool) (M : 'M[R]_n) (w : 'cV[R]_n) (x : R) : Prop :=
  if gram then exact_gram_sample m tolerance g M w x else exact_sample m tolerance g M w x.
Definition usable (gram : bool) (M : 'M[R]_n) : Prop :=
  if gram then forall x : 'cV_n, M *m x = 0 -> x = 0 else M^T = M.

Notation stops_at := (stops_at z atol rtol mn mx).
Notation stops_together := (stops_together z atol rtol mn mx).
Notation reports := (reports z atol rtol mn mx).
Notation satisfied := (satisfied z atol rtol mn).

Section Memory.
Variable alloc : nat -> seq R.
Hypothesis size_alloc : forall k, size (alloc k) = k.
Variable eigh svd : eigensolver.
Hypothesis eigh_ok : eigh_contract eigh.
Hypothesis svd_ok : svd_contract svd.

Lemma value_sample Mat gram p w x : usable gram (Mat p) -> w != 0 ->
  value_of (n' := n') Mat pw f m tol gram p w x -> sample_of gram (Mat p) w x.
Proof.
  rewrite /usable /sample_of. case: gram => HM Hw Hx.
  - exact: (value_gram tol_gt0 HM Hw Hx).
  - exact: (value_sym tol_gt0 HM Hw Hx).
Qed.

(** A matrix.  The run returns; the i-th sample is the quadrature sample of C18
    (C20 with gram) for the i-th vector of signs of the stream of the seed; the
    number of samples is the first at which the criterion holds; and the caller
    reads the statistics of these samples. *)
Theorem C67_matrix_run gram (A : storage R) params q clock seed vector error :
  (0 < q)%N -> well_formed A n n -> usable gram (denotes A n n) ->
  size vector = n -> size error = q ->
  exists (X : nat -> nat -> R) K r,
    [/\ run_matrix alloc eigh svd gram A params q clock seed vector error = Some r,
        forall i j, (j < q)%N ->
          sample_of gram (denotes A n n) (rademacher R (stream clock seed) n i) (X i j),
        forall j, (j < q)%N -> stops_at X j (K j) &
        reports q X zo K r].
Proof.
  move=> Hq HA Hadm Sv Se.
  have Hd := @matrix_delivers R eps eps_gt0 alloc size_alloc eigh svd eigh_ok svd_ok pw f n' m m_gt0 tol tol_gt0 orth
    gram A params q Hq HA Hadm.
  have [X [K [r [H1 H2 H3 H4]]]] := run_report mn zo atol rtol Hq mx_gt0 z_ge0
    (fun w (_ : nat) x y => @value_unique R n' _ pw f m tol gram [::] w x y) clock seed Hd Sv Se.
  exists X, K, r. split; [exact: H1| |exact: H3|exact: H4].
  move=> i j Hj. exact: (@value_sample (fun _ => denotes A n n) gram [::] _ _ Hadm (rademacher_nz _ _ _ _) (H2 i j Hj)).
Qed.

(** An affine matrix function A + t_j B of many parameters, symmetric.  Every
    inquiry has its samples, all from the same vectors.  Where B is known to be the
    identity all inquiries stop together, at the first moment at which all
    satisfy the criterion; otherwise each stops by itself. *)
Theorem C67_affine_run (A : storage R) (B : option (storage R)) (op : affine R) (ts : seq R) clock seed vector error :
  let M t := denotes A n n + t *: matrix_of_B B n n in
  well_formed A n n ->
  (forall s, B = Some s -> well_formed s n n /\ denotes s n n <> 0) ->
  affine_object n' A B op -> (0 < size ts)%N -> (forall t, t \in ts -> (M t)^T = M t) ->
  size vector = n -> size error = size ts ->
  exists (X : nat -> nat -> R) K r,
    [/\ run_affine alloc eigh svd false op ts clock seed vector error = Some r,
        forall i j, (j < size ts)%N ->
          exact_sample m tolerance g (M ts`_j) (rademacher R (stream clock seed) n i) (X i j),
        if eigenvalue_relation_known op && (1 < size ts)%N
        then exists2 K0, stops_together (size ts) X K0 & forall j, K j = K0
        else forall j, (j < size ts)%N -> stops_at X j (K j) &
        reports (size ts) X zo K r].
Proof.
  move=> M HA HB Hop Hts Hsym Sv Se.
  have Hd := @affine_delivers R eps eps_gt0 alloc size_alloc eigh svd eigh_ok svd_ok pw f n' m m_gt0 tol tol_gt0 orth
    A B op ts HA HB Hop Hts Hsym.
  have [X [K [r [H1 H2 H3 H4]]]] := run_report mn zo atol rtol Hts mx_gt0 z_ge0
    (fun w (j : nat) x y => @value_unique R n' _ pw f m tol false [:: ts`_j] w x y) clock seed Hd Sv Se.
  exists X, K, r. split; [exact: H1| |exact: H3|exact: H4].
  move=> i j Hj. exact: (value_sym tol_gt0 (Hsym _ (mem_nth 0 Hj)) (rademacher_nz _ _ _ _) (H2 i j Hj)).
Qed.

(** The same with gram, unless the eigenvalues are shifted (see C15). *)
Theorem C67_gram_affine_run_partial (A : storage R) (B : option (storage R)) (op : affine R) (ts : seq R)
    clock seed vector error :
  let M t := denotes A n n + t *: matrix_of_B B n n in
  well_formed A n n ->
  (forall s, B = Some s -> well_formed s n n /\ denotes s n n <> 0) ->
  affine_object n' A B op -> (0 < size ts)%N ->
  (forall t, t \in ts -> forall x : 'cV_n, M t *m x = 0 -> x = 0) ->
  ~~ (eigenvalue_relation_known op && (1 < size ts)%N) ->
  size vector = n -> size error = size ts ->
  exists (X : nat -> nat -> R) K r,
    [/\ run_affine alloc eigh svd true op ts clock seed vector error = Some r,
        forall i j, (j < size ts)%N ->
          exact_gram_sample m tolerance g (M ts`_j) (rademacher R (stream clock seed) n i) (X i j),
        forall j, (j < size ts)%N -> stops_at X j (K j) &
        reports (size ts) X zo K r].
Proof.
  move=> M HA HB Hop Hts Hinj Hk Sv Se.
  have Hd := @affine_each_delivers R eps eps_gt0 alloc size_alloc eigh svd eigh_ok svd_ok pw f n' m m_gt0 tol tol_gt0 orth
    A B op ts HA HB Hop Hts true Hk Hinj.
  have [X [K [r [H1 H2 H3 H4]]]] := run_report mn zo atol rtol Hts mx_gt0 z_ge0
    (fun w (j : nat) x y => @value_unique R n' _ pw f m tol true [:: ts`_j] w x y) clock seed Hd Sv Se.
  exists X, K, r. split; [exact: H1| |exact: H3|exact: H4].
  move=> i j Hj. exact: (value_gram tol_gt0 (Hinj _ (mem_nth 0 Hj)) (rademacher_nz _ _ _ _) (H2 i j Hj)).
Qed.

(** One parameter among many: where B is not known to be the identity, what the
    caller reads for t_j is what a call for t_j alone leaves, bit for bit; where it
    is, the samples of the call for t_j alone are the first ones. *)
Theorem C67_alone (A : storage R) (B : option (storage R)) (op : affine R) (ts : seq R) j clock seed
    vector vector1 error error1 :
  let M t := denotes A n n + t *: matrix_of_B B n n in
  well_formed A n n ->
  (forall s, B = Some s -> well_formed s n n /\ denotes s n n <> 0) ->
  affine_object n' A B op -> (j < size ts)%N -> (forall t, t \in ts -> (M t)^T = M t) ->
  size vector = n -> size error = size ts -> size vector1 = n -> size error1 = 1%N ->
  exists r r1,
    [/\ run_affine alloc eigh svd false op ts clock seed vector error = Some r,
        run_affine alloc eigh svd false op [:: ts`_j] clock seed vector1 error1 = Some r1,
        (nth 0%N (rp_used r1) 0 <= nth 0%N (rp_used r) j)%N /\
        (forall i, (i < nth 0%N (rp_used r1) 0)%N ->
          nth NaN (nth [::] (rp_samples r) i) j = nth NaN (nth [::] (rp_samples r1) i) 0) &
        ~~ (eigenvalue_relation_known op && (1 < size ts)%N) ->
        [/\ nth NaN (rp_trace r) j = nth NaN (rp_trace r1) 0, nth NaN (rp_error r) j = nth NaN (rp_error r1) 0,
            nth 0%N (rp_outliers r) j = nth 0%N (rp_outliers r1) 0, nth 0%N (rp_used r) j = nth 0%N (rp_used r1) 0 &
            nth false (rp_converged r) j = nth false (rp_converged r1) 0]].
Proof.
  move=> M HA HB Hop Hj Hsym Sv Se Sv1 Se1. have Hts : (0 < size ts)%N by exact: leq_ltn_trans Hj.
  pose Mat p : 'M_n := denotes A n n + p`_0 *: matrix_of_B B n n.
  have Hd := @affine_delivers R eps eps_gt0 alloc size_alloc eigh svd eigh_ok svd_ok pw f n' m m_gt0 tol tol_gt0 orth
    A B op ts HA HB Hop Hts Hsym.
  have Hsym1 : forall t, t \in [:: ts`_j] -> (Mat [:: t])^T = Mat [:: t].
  { move=> t. rewrite inE => /eqP ->. exact: (Hsym _ (mem_nth 0 Hj)). }
  have Hd1 := @affine_delivers R eps eps_gt0 alloc size_alloc eigh svd eigh_ok svd_ok pw f n' m m_gt0 tol tol_gt0 orth
    A B op [:: ts`_j] HA HB Hop isT Hsym1.
  rewrite andbF in Hd1. move: Hd. set resets := _ && _ => Hd.
  set sample := slq_affine _ _ _ _ _ _ _ _ _ _ _ _ ts _ in Hd.
  pose X := lone n' (size ts) sample (stream clock seed).
  pose X1 i (k : nat) := X i j.
  have HX i k : (k < size ts)%N ->
    value_of Mat pw f m tol false [:: ts`_k] (rademacher R (stream clock seed) n i) (X i k).
  { move=> Hk. exact: (lone_P _ _ Hd Hk). }
  have HX1 i k : (k < 1)%N ->
    value_of Mat pw f m tol false [:: [:: ts`_j]`_k] (rademacher R (stream clock seed) n i) (X1 i k).
  { case: k => // _. exact: HX. }
  pose r := final (size ts) mn mx z zo atol rtol resets X.
  pose r1 := final 1 mn mx z zo atol rtol false X1.
  exists r, r1.
  have Er : run_affine alloc eigh svd false op ts clock seed vector error = Some r.
  { exact: (run_value mn zo atol rtol Hts mx_gt0 z_ge0
    (fun w (j : nat) x y => @value_unique R n' _ pw f m tol false [:: ts`_j] w x y) Hd Sv Se HX). }
  have Er1 : run_affine alloc eigh svd false op [:: ts`_j] clock seed vector1 error1 = Some r1.
  { exact: (run_value mn zo atol rtol (ltn0Sn 0) mx_gt0 z_ge0
    (fun w (k : nat) x y => @value_unique R n' _ pw f m tol false [:: [:: ts`_j]`_k] w x y) Hd1 Sv1 Se1 HX1). }
  have [T1 T2 T3 T4] := final_nth mn mx z zo atol rtol resets X Hj.
  have [U1 U2 U3 U4] := final_nth mn mx z zo atol rtol false X1 (ltn0Sn 0).
  have [_ Vc _ [Sz V] _] := final_reports mn zo atol rtol Hts z_ge0 resets X mx_gt0.
  have [_ Wc _ [Sz1 W] _] := final_reports mn zo atol rtol (ltn0Sn 0) z_ge0 false X1 mx_gt0.
  have St1 := each_stops mn atol rtol (ltn0Sn 0) z_ge0 X1 mx_gt0 (j := 0) (resets := false) isT (ltn0Sn 0).
  have Hle : (nth 0%N (rp_used r1) 0 <= nth 0%N (rp_used r) j)%N.
  { rewrite U4 T4. have /orP [Hr|Hr] := orbN resets.
    - have [St Eu] := all_stop mn atol rtol Hts z_ge0 X mx_gt0 Hr. rewrite Eu.
      exact: (together_later Hj (fun i => erefl : X i j = X1 i 0%N) St St1).
    - have St := each_stops mn atol rtol Hts z_ge0 X mx_gt0 Hr Hj.
      by rewrite (stops_at_unique (fun i => erefl : X i j = X1 i 0%N) St St1). }
  split; [exact: Er|exact: Er1| |].
  - split; first exact: Hle. move=> i Hi.
    have Hi2 := leq_trans Hi Hle. rewrite U4 in Hi. rewrite T4 in Hi2.
    have Him : (i < mx)%N.
    { apply: leq_trans Hi _. by case: St1 => /andP [_ ->]. }
    by rewrite (V i j Him Hj) (W i 0%N Him (ltn0Sn 0)) Hi Hi2.
  - move=> Hk. have Hr : ~~ resets by exact: Hk.
    have St := each_stops mn atol rtol Hts z_ge0 X mx_gt0 Hr Hj.
    have EK := stops_at_unique (fun i => erefl : X i j = X1 i 0%N) St St1.
    rewrite T1 T2 T3 T4 U1 U2 U3 U4 EK Vc Wc. split=> //.
    by rewrite !(nth_map 0%N) ?size_iota // !nth_iota // add0n EK.
Qed.

(** ** Bounds *)
Lemma reports_range q (X : nat -> nat -> R) K r j lo hi : 0 < z -> 1 <= zo -> reports q X zo K r -> (j < q)%N ->
  (0 < K j)%N -> (forall i, lo <= X i j <= hi) ->
  exists2 x, nth NaN (rp_trace r) j = Fin x & lo <= x <= hi.
Proof.
  move=> Hz Hzo [_ _ _ _ [_ _ _ H]] Hj HK HX. have [S1 _ S3] := H j Hj.
  set xs := first_samples X j (K j) in S1 S3.
  have Sx : size xs = K j by rewrite size_map size_iota.
  have Hxs x : x \in xs -> lo <= x <= hi by case/mapP => i _ ->.
  case: (ltnP 1 (K j)) => HK1.
  - have Hin := inliers_nonempty (xs := xs) (z := zo). rewrite Sx in Hin. have {}Hin := Hin HK1 Hzo.
    rewrite Sx in S1. have [-> _] := S1 HK1 Hin. eexists; first reflexivity.
    apply: mean_bounds; first by rewrite lt0n size_eq0. move=> x. rewrite mem_filter => /andP [_]. exact: Hxs.
  - have E : xs = [:: xs`_0].
    { case: (xs) Sx HK HK1 => [|x [|y l]] //=; lia. }
    have [-> _ _] := S3 _ E Hz (le_trans ler01 Hzo). eexists; first reflexivity. apply: Hxs. by rewrite {2}E inE.
Qed.

(** If the eigenvalues (squared singular values with gram) lie in [a, b] and f in
    [lo, hi] there, the result is a number in [n lo, n hi], whatever the signs drawn. *)
Theorem C67_matrix_range gram (A : storage R) params q clock seed vector error (a b lo hi : R) :
  (0 < q)%N -> well_formed A n n -> usable gram (denotes A n n) ->
  size vector = n -> size error = q -> 0 < z -> 1 <= zo ->
  (forall y : 'cV_n, a * ip y y <= ip y (target gram (denotes A n n) *m y) <= b * ip y y) ->
  (forall t, a <= t <= b -> lo <= f (pw t) <= hi) ->
  exists2 r, run_matrix alloc eigh svd gram A params q clock seed vector error = Some r &
    forall j, (j < q)%N -> exists2 x, nth NaN (rp_trace r) j = Fin x & n%:R * lo <= x <= n%:R * hi.
Proof.
  move=> Hq HA Hadm Sv Se Hz Hzo Hab Hf.
  have Hd := @matrix_delivers R eps eps_gt0 alloc size_alloc eigh svd eigh_ok svd_ok pw f n' m m_gt0 tol tol_gt0 orth
    gram A params q Hq HA Hadm.
  have [X [K [r [H1 H2 H3 H4]]]] := run_report mn zo atol rtol Hq mx_gt0 z_ge0
    (fun w (_ : nat) x y => @value_unique R n' _ pw f m tol gram [::] w x y) clock seed Hd Sv Se.
  exists r; first exact: H1. move=> j Hj. apply: (reports_range Hz Hzo H4 Hj).
  - by have [/andP [->]] := H3 j Hj.
  - move=> i. exact: (value_bounds tol_gt0 Hadm (rademacher_nz _ _ _ _) (H2 i j Hj) Hab Hf).
Qed.

Theorem C67_affine_range (A : storage R) (B : option (storage R)) (op : affine R) (ts : seq R) clock seed vector error
    (a b lo hi : R) j :
  let M t := denotes A n n + t *: matrix_of_B B n n in
  well_formed A n n ->
  (forall s, B = Some s -> well_formed s n n /\ denotes s n n <> 0) ->
  affine_object n' A B op -> (j < size ts)%N -> (forall t, t \in ts -> (M t)^T = M t) ->
  size vector = n -> size error = size ts -> 0 < z -> 1 <= zo ->
  (forall y : 'cV_n, a * ip y y <= ip y (M ts`_j *m y) <= b * ip y y) ->
  (forall t, a <= t <= b -> lo <= f (pw t) <= hi) ->
  exists2 r, run_affine alloc eigh svd false op ts clock seed vector error = Some r &
    exists2 x, nth NaN (rp_trace r) j = Fin x & n%:R * lo <= x <= n%:R * hi.
Proof.
  move=> M HA HB Hop Hj Hsym Sv Se Hz Hzo Hab Hf. have Hts : (0 < size ts)%N by exact: leq_ltn_trans Hj.
  have Hd := @affine_delivers R eps eps_gt0 alloc size_alloc eigh svd eigh_ok svd_ok pw f n' m m_gt0 tol tol_gt0 orth
    A B op ts HA HB Hop Hts Hsym.
  have [X [K [r [H1 H2 H3 H4]]]] := run_report mn zo atol rtol Hts mx_gt0 z_ge0
    (fun w (j : nat) x y => @value_unique R n' _ pw f m tol false [:: ts`_j] w x y) clock seed Hd Sv Se.
  exists r; first exact: H1. apply: (reports_range Hz Hzo H4 Hj).
  - move: H3. case: ifP => _; first by move=> [K0 [/andP [H0 _] _ _] ->].
    by move=> /(_ j Hj) [/andP [->]].
  - move=> i. have Had := Hsym _ (mem_nth 0 Hj).
    exact: (value_bounds (gram := false) tol_gt0 Had (rademacher_nz _ _ _ _) (H2 i j Hj) Hab Hf).
Qed.

(** ** Multiples of the identity *)
Lemma constant_samples (X : nat -> nat -> R) j k c : (forall i, X i j = c) -> first_samples X j k = nseq k c.
Proof. move=> H. exact: map_constant. Qed.

Lemma mean_nseq k (c : R) : (0 < k)%N -> mean (nseq k c) = c.
Proof.
  move=> Hk. have H : (k%:R : R) != 0 by rewrite pnatr_eq0 -lt0n.
  rewrite /mean size_nseq big_nseq iter_addr_0 -[c *+ k]mulr_natr. exact: mulfK.
Qed.

Lemma std_dev_nseq k (c : R) : (0 < k)%N -> std_dev (nseq k c) = 0.
Proof.
  move=> Hk. rewrite /std_dev mean_nseq // big1_seq ?mul0r ?sqrtr0 // => x.
  rewrite mem_nseq => /andP [_ /andP [_ /eqP ->]]. by rewrite subrr expr0n.
Qed.

Lemma half_width_nseq k (c : R) : (0 < k)%N -> half_width z (nseq k c) = 0.
Proof. move=> Hk. by rewrite /half_width std_dev_nseq // mulr0 mul0r. Qed.

Lemma inliers_nseq k (c : R) : (0 < k)%N -> inliers zo (nseq k c) = nseq k c.
Proof.
  move=> Hk. apply/all_filterP/allP => x. rewrite mem_nseq => /andP [_ /eqP ->].
  by rewrite mean_nseq // std_dev_nseq // subrr normr0 mulr0.
Qed.

Lemma reports_constant q (X : nat -> nat -> R) K r j c : (1 < K j)%N -> reports q X zo K r -> (j < q)%N ->
  (forall i, X i j = c) ->
  [/\ nth NaN (rp_trace r) j = Fin c, nth NaN (rp_error r) j = Fin 0 & nth 0%N (rp_outliers r) j = 0%N].
Proof.
  move=> HK [_ _ _ _ [_ _ _ H]] Hj HX. have [S1 S2 _] := H j Hj. have HK0 := ltnW HK.
  rewrite (constant_samples _ HX) inliers_nseq // size_nseq in S1 S2.
  have Hnz : nseq (K j) c != [::] by rewrite -size_eq0 size_nseq -lt0n.
  have [-> E] := S1 HK Hnz. rewrite (S2 HK) half_width_nseq // mean_nseq //. split=> //. lia.
Qed.

Lemma satisfied_constant (X : nat -> nat -> R) j k c : (forall i, X i j = c) -> (0 < k)%N ->
  satisfied X j k = [&& (mn <= k)%N, (1 < k)%N & 0 < Num.max atol (rtol * c)].
Proof.
  move=> HX Hk. by rewrite /SlqRunSpec.satisfied (constant_samples _ HX) half_width_nseq // mean_nseq.
Qed.

Lemma stops_constant (X : nat -> nat -> R) j K c : (forall i, X i j = c) -> 0 < Num.max atol (rtol * c) ->
  stops_at X j K -> K = minn mx (maxn mn 2).
Proof.
  move=> HX Hc [H1 H2 H3].
  have Hs k : (0 < k)%N -> satisfied X j k = (maxn mn 2 <= k)%N.
  { move=> Hk. by rewrite (satisfied_constant HX Hk) Hc andbT geq_max. }
  case: (ltngtP K (minn mx (maxn mn 2))) => // Hlt.
  - move: Hlt. rewrite leq_min => /andP [Ha Hb]. case: H3 => [|E]; last by lia.
    rewrite Hs; last by lia. lia.
  - have := H2 (minn mx (maxn mn 2)). rewrite Hlt leq_min mx_gt0 leq_max orbT => /(_ isT).
    rewrite Hs; last by rewrite leq_min mx_gt0 leq_max orbT.
    rewrite leq_min leqnn andbT -ltnNge => Hmx. move: Hlt. rewrite (minn_idPl (ltnW Hmx)). lia.
Qed.

(** For c times the identity the result is exact whatever the signs drawn, no
    sample is discarded, the error is zero, and max(min_num_samples, 2) samples
    suffice if one of the tolerances is positive. *)
Theorem C67_scalar gram (A : storage R) params q clock seed vector error (c : R) :
  let x := n%:R * f (pw (if gram then c * c else c)) in
  (0 < q)%N -> well_formed A n n -> denotes A n n = c%:M -> (gram -> c != 0) ->
  size vector = n -> size error = q -> (1 < mx)%N -> 0 < Num.max atol (rtol * x) ->
  exists2 r, run_matrix alloc eigh svd gram A params q clock seed vector error = Some r &
    forall j, (j < q)%N ->
      [/\ nth NaN (rp_trace r) j = Fin x, nth NaN (rp_error r) j = Fin 0,
          nth 0%N (rp_outliers r) j = 0%N, nth 0%N (rp_used r) j = minn mx (maxn mn 2) &
          nth false (rp_converged r) j = (mn <= mx)%N].
Proof.
  move=> x Hq HA HAc Hc Sv Se Hmx Hx.
  have Hadm : usable gram (denotes A n n).
  { rewrite /usable HAc. case: (gram) Hc => Hc; last by rewrite tr_scalar_mx.
    move=> y. rewrite mul_scalar_mx => /eqP. by rewrite scaler_eq0 (negbTE (Hc isT)) /= => /eqP. }
  have Hd := @matrix_delivers R eps eps_gt0 alloc size_alloc eigh svd eigh_ok svd_ok pw f n' m m_gt0 tol tol_gt0 orth
    gram A params q Hq HA Hadm.
  have [X [K [r [H1 H2 H3 H4]]]] := run_report mn zo atol rtol Hq mx_gt0 z_ge0
    (fun w (_ : nat) x y => @value_unique R n' _ pw f m tol gram [::] w x y) clock seed Hd Sv Se.
  exists r; first exact: H1. move=> j Hj.
  have HX i : X i j = x.
  { set c' := if gram then c * c else c in x Hx *.
    have Hab : forall y : 'cV_n, c' * ip y y <= ip y (target gram (denotes A n n) *m y) <= c' * ip y y.
    { move=> y. have -> : target gram (denotes A n n) = c'%:M.
      { rewrite /target /c' HAc. case: (gram) => //. by rewrite tr_scalar_mx -scalar_mxM. }
      by rewrite mul_scalar_mx ipZr lexx. }
    have Hf : forall t, c' <= t <= c' -> f (pw c') <= f (pw t) <= f (pw c').
    { move=> t Ht. have -> : t = c' by apply: le_anti; rewrite andbC. by rewrite lexx. }
    have := value_bounds tol_gt0 Hadm (rademacher_nz _ _ _ _) (H2 i j Hj) Hab Hf.
    rewrite andbC => Hb. exact: le_anti. }
  have EK := stops_constant HX Hx (H3 j Hj).
  have HK : (1 < K j)%N by rewrite EK leq_min Hmx leq_max orbT.
  have [T1 T2 T3] := reports_constant HK H4 Hj HX. split=> //.
  - case: H4 => [[-> _] _ _ _ _]. by rewrite (nth_map 0%N) ?size_iota // nth_iota.
  - case: H4 => _ -> _ _ _. rewrite (nth_map 0%N) ?size_iota // nth_iota // add0n (satisfied_constant HX (ltnW HK)).
    rewrite HK Hx !andbT EK leq_min leq_max leqnn. by rewrite andbT.
Qed.
End Memory.

(** ** Reproducibility
    With a non-negative seed and one thread the result depends neither on the
    clock, nor on the contents of fresh memory, nor on which eigenvectors
    LAPACK returns. *)
Section Twice.
Variables alloc alloc' : nat -> seq R.
Hypothesis size_alloc : forall k, size (alloc k) = k.
Hypothesis size_alloc' : forall k, size (alloc' k) = k.
Variables eigh svd eigh' svd' : eigensolver.
Hypothesis eigh_ok : eigh_contract eigh.
Hypothesis svd_ok : svd_contract svd.
Hypothesis eigh_ok' : eigh_contract eigh'.
Hypothesis svd_ok' : svd_contract svd'.
Variables (clock clock' : nat -> N) (seed : Z).
Hypothesis seed_ge0 : Z.le Z0 seed.
Variables (vector vector' : seq Z) (error error' : seq (num R)).
Hypothesis size_vector : size vector = n.
Hypothesis size_vector' : size vector' = n.

Lemma same_stream : stream clock seed = stream clock' seed.
Proof.
  have := RngProofs.rng_initialize_clock 1 clock clock' seed seed_ge0. rewrite !stream_init.
  set s := stream clock seed. set s' := stream clock' seed. move: s s' => s s' E. by injection E.
Qed.

Theorem C67_reproducible_matrix gram (A : storage R) params q :
  (0 < q)%N -> well_formed A n n -> usable gram (denotes A n n) -> size error = q -> size error' = q ->
  exists2 r, run_matrix alloc eigh svd gram A params q clock seed vector error = Some r &
    run_matrix alloc' eigh' svd' gram A params q clock' seed vector' error' = Some r.
Proof.
  move=> Hq HA Hadm Se Se'.
  have Hd := @matrix_delivers R eps eps_gt0 alloc size_alloc eigh svd eigh_ok svd_ok pw f n' m m_gt0 tol tol_gt0 orth
    gram A params q Hq HA Hadm.
  have Hd' := @matrix_delivers R eps eps_gt0 alloc' size_alloc' eigh' svd' eigh_ok' svd_ok' pw f n' m m_gt0 tol tol_gt0
    orth gram A params q Hq HA Hadm.
  have Hu := (fun w (_ : nat) x y => @value_unique R n' (fun _ => denotes A n n) pw f m tol gram [::] w x y).
  have [X [K [r [H1 _ _ _]]]] := run_report mn zo atol rtol Hq mx_gt0 z_ge0 Hu clock seed Hd size_vector Se.
  exists r; first exact: H1. have E := run_same mn zo atol rtol Hq mx_gt0 z_ge0 Hu Hd Hd' same_stream
    size_vector size_vector' Se Se'.
  exact: etrans (esym E) H1.
Qed.

Lemma same_relation A B (op op' : affine R) : affine_object n' A B op -> affine_object n' A B op' ->
  eigenvalue_relation_known op = eigenvalue_relation_known op'.
Proof.
  move=> [op0 [c [rs [E0 Er]]]] [op0' [c' [rs' [E0' Er']]]].
  have [-> _] := relation_run Er. have [-> _] := relation_run Er'. rewrite E0 in E0'. by case: E0' => ->.
Qed.

(** Nor on what was computed with the operator object before. *)
Theorem C67_reproducible_affine (A : storage R) (B : option (storage R)) (op op' : affine R) (ts : seq R) :
  let M t := denotes A n n + t *: matrix_of_B B n n in
  well_formed A n n ->
  (forall s, B = Some s -> well_formed s n n /\ denotes s n n <> 0) ->
  affine_object n' A B op -> affine_object n' A B op' -> (0 < size ts)%N -> (forall t, t \in ts -> (M t)^T = M t) ->
  size error = size ts -> size error' = size ts ->
  exists2 r, run_affine alloc eigh svd false op ts clock seed vector error = Some r &
    run_affine alloc' eigh' svd' false op' ts clock' seed vector' error' = Some r.
Proof.
  move=> M HA HB Hop Hop' Hts Hsym Se Se'.
  have Hd := @affine_delivers R eps eps_gt0 alloc size_alloc eigh svd eigh_ok svd_ok pw f n' m m_gt0 tol tol_gt0 orth
    A B op ts HA HB Hop Hts Hsym.
  have Hd' := @affine_delivers R eps eps_gt0 alloc' size_alloc' eigh' svd' eigh_ok' svd_ok' pw f n' m m_gt0 tol tol_gt0
    orth A B op' ts HA HB Hop' Hts Hsym.
  rewrite -(same_relation Hop Hop') in Hd'.
  have Hu := (fun w (j : nat) x y => @value_unique R n' (fun p => denotes A n n + p`_0 *: matrix_of_B B n n) pw f m tol
    false [:: ts`_j] w x y).
  have [X [K [r [H1 _ _ _]]]] := run_report mn zo atol rtol Hts mx_gt0 z_ge0 Hu clock seed Hd size_vector Se.
  exists r; first exact: H1. have E := run_same mn zo atol rtol Hts mx_gt0 z_ge0 Hu Hd Hd' same_stream
    size_vector size_vector' Se Se'.
  exact: etrans (esym E) H1.
Qed.
End Twice.
End Run.

(** The hypotheses are met: ((2, 1), (1, 2)) over the real algebraic numbers. *)
Section Examples.
Let RA := [rcfType of realalg].
Let A : storage RA := Dense true [:: 2%:R; 1; 1; 2%:R].
Let D : storage RA := Dense true [:: 2%:R; 0; 0; 3%:R].
Let C : storage RA := Dense true [:: 3%:R; 0; 0; 3%:R].

Example C67_case_affine : exists eigh svd X K r,
  run_affine (1 : RA) id (fun x => x ^+ 3) 1 5 1 (-1) 2 10 2%:R 3%:R 1 0 (fun k => nseq k 0) eigh svd false
    (Affine A None true true None) [:: 7%:R; 8%:R] (fun _ => N0) 4 [:: Z0; Z0] [:: NaN; NaN] = Some r /\
  reports 2%:R 1 0 2 10 2 X 3%:R K r.
Proof.
  have [eigh He] := eigh_contract_met RA. have [svd Hs] := svd_contract_met RA.
  have Hal : forall k, size (nseq k (0 : RA)) = k by move=> k; rewrite size_nseq.
  have HB : forall s : storage RA, None = Some s -> well_formed s 2 2 /\ denotes s 2 2 <> 0 by [].
  have Hop : affine_object 1 A None (Affine A None true true None).
  { by exists (Affine A None true true None), [::], [::]. }
  have [X [K [r [H1 _ _ H4]]]] := @C67_affine_run RA 1 ltr01 id (fun x => x ^+ 3) 1 5 isT 1 ltr01 (-1) 2 10 isT 2%:R 3%:R
    1 0 (ler0n _ 2) _ Hal eigh svd He Hs A None (Affine A None true true None) [:: 7%:R; 8%:R] (fun _ => N0) 4
    [:: Z0; Z0] [:: NaN; NaN] isT HB Hop isT (fun t _ => A_sym t) erefl erefl.
  by exists eigh, svd, X, K, r.
Qed.

Lemma D_entries i j : denotes D 2 2 i j = (if i == 0 then 2%:R else 3%:R) *+ (i == j) :> RA.
Proof. rewrite !mxE. by case: i => [[|[|//]] Hi]; case: j => [[|[|//]] Hj]. Qed.

Lemma D_bounds (y : 'cV[RA]_2) : 2%:R * ip y y <= ip y (target false (denotes D 2 2) *m y) <= 3%:R * ip y y.
Proof.
  have -> : ip y (target false (denotes D 2 2) *m y) = \sum_i (if i == 0 then 2%:R else 3%:R) * (y i 0 * y i 0).
  { apply: eq_bigr => i _. rewrite /target mxE (bigD1 i) //= big1 ?addr0.
    - by rewrite D_entries eqxx mulr1n mulrCA.
    - move=> k Hk. by rewrite D_entries [i == k]eq_sym (negbTE Hk) mulr0n mul0r. }
  rewrite /ip !mulr_sumr. apply/andP; split; apply: ler_sum => i _; apply: ler_wpmul2r;
    rewrite -?expr2 ?sqr_ge0 //; case: ifP => _ //; by rewrite ler_nat.
Qed.

Example C67_case_range : exists eigh svd r x,
  [/\ run_matrix (1 : RA) id id 1 5 1 (-1) 2 10 2%:R 3%:R 1 0 (fun k => nseq k 0) eigh svd false
        D [::] 1 (fun _ => N0) 4 [:: Z0; Z0] [:: NaN] = Some r,
      nth NaN (rp_trace r) 0 = Fin x & 2%:R * 2%:R <= x <= 2%:R * 3%:R].
Proof.
  have [eigh He] := eigh_contract_met RA. have [svd Hs] := svd_contract_met RA.
  have Hal : forall k, size (nseq k (0 : RA)) = k by move=> k; rewrite size_nseq.
  have HD : usable false (denotes D 2 2).
  { apply/matrixP => i j. rewrite mxE !D_entries [j == i]eq_sym. by case: (i =P j) => [->|_]; rewrite ?mulr0n. }
  have Hz : (1 : RA) <= 3%:R by rewrite (ler_nat _ 1).
  have [r H1 H2] := @C67_matrix_range RA 1 ltr01 id id 1 5 isT 1 ltr01 (-1) 2 10 isT 2%:R 3%:R
    1 0 (ler0n _ 2) _ Hal eigh svd He Hs false D [::] 1 (fun _ => N0) 4 [:: Z0; Z0] [:: NaN] 2%:R 3%:R 2%:R 3%:R
    isT isT HD erefl erefl (ltr0Sn _ 1) Hz D_bounds (fun t Ht => Ht).
  have [x H3 H4] := H2 0%N isT. by exists eigh, svd, r, x.
Qed.

Example C67_case_scalar : exists eigh svd r,
  run_matrix (1 : RA) id (fun x => x ^+ 3) 1 5 1 (-1) 2 10 2%:R 3%:R 1 0 (fun k => nseq k 0) eigh svd true
    C [::] 1 (fun _ => N0) 4 [:: Z0; Z0] [:: NaN] = Some r /\
  nth NaN (rp_trace r) 0 = Fin (2%:R * (3%:R * 3%:R) ^+ 3).
Proof.
  have [eigh He] := eigh_contract_met RA. have [svd Hs] := svd_contract_met RA.
  have Hal : forall k, size (nseq k (0 : RA)) = k by move=> k; rewrite size_nseq.
  have HC : denotes C 2 2 = 3%:R%:M.
  { apply/matrixP => i j. rewrite !mxE. by case: i => [[|[|//]] Hi]; case: j => [[|[|//]] Hj]. }
  have Hc : true -> (3%:R : RA) != 0 by rewrite pnatr_eq0.
  have Hx : 0 < Num.max (1 : RA) (0 * (2%:R * (3%:R * 3%:R) ^+ 3)) by rewrite lt_maxr ltr01.
  have [r H1 H2] := @C67_scalar RA 1 ltr01 id (fun x => x ^+ 3) 1 5 isT 1 ltr01 (-1) 2 10 isT 2%:R 3%:R
    1 0 (ler0n _ 2) _ Hal eigh svd He Hs true C [::] 1 (fun _ => N0) 4 [:: Z0; Z0] [:: NaN] 3%:R isT isT HC Hc erefl erefl
    isT Hx.
  exists eigh, svd, r. split; first exact: H1. by have [] := H2 0%N isT.
Qed.
End Examples.

Definition C67_assumptions :=
  (@C67_matrix_run, @C67_affine_run, @C67_gram_affine_run_partial, @C67_alone, @C67_matrix_range, @C67_affine_range,
   @C67_scalar, @C67_reproducible_matrix, @C67_reproducible_affine).
Print Assumptions C67_assumptions.
