(** Theorem C74: a whole run of the stochastic Lanczos quadrature on any number
    of threads, for one inquiry and every schedule.  Arithmetic is exact, over
    any real closed field. *)
From Coq Require Import ZArith NArith.
From mathcomp Require Import all_ssreflect all_algebra.
From mathcomp Require Import zify.
From mathcomp.real_closed Require Import realalg.
From Verif Require Import Mem KernelModel KernelSpec OperatorModel OperatorSpec OperatorProofs.
From Verif Require Import LanczosSpec LanczosMath Spectral SlqModel SlqSpec SlqProofs PropSlq.
From Verif Require Import ConvModel ConvSpec ConvProofs RngModel.
From Verif Require Import SlqRunModel SlqRunSpec SlqRunProofs SlqRunValues PropSlqRun.
From Verif Require Import ParRunModel ParRunSpec ParRunProofs.
From Verif Require PropRng PropConv RngProofs.
Set Implicit Arguments.
Unset Strict Implicit.
Unset Printing Implicit Defensive.
Import Order.TTheory GRing.Theory Num.Theory.
Local Open Scope ring_scope.
Local Opaque rng_initialize.

Section Abstract.
Variable R : rcfType.
Variable n' : nat.
Notation n := n'.+1.
Variable P : 'cV[R]_n -> nat -> R -> Prop.
Variable sample : seq bool -> seq R -> seq R -> option (seq bool * seq R).
Hypothesis sample_ok : delivers 1 false P sample.
Variables threads mn mx : nat.
Hypothesis threads_gt0 : (0 < threads)%N.
Hypothesis mx_gt0 : (0 < mx)%N.
Variables z zo atol rtol : R.
Hypothesis z_ge0 : 0 <= z.
Variables (clock : nat -> N) (seed : Z) (vector : nat -> seq Z) (error : seq (num R)).
Hypothesis vector_ok : forall t, (t < threads)%N -> size (vector t) = n.
Hypothesis error_ok : size error = 1%N.

Let g (t : nat) := thread_stream clock seed t.
Let val (t c : nat) : R := lone n' 1 sample (g t) c 0.

Lemma table_ok t : (t < threads)%N -> List.nth_error (rng_initialize threads clock seed) t = Some (g t).
Proof. move=> /ssrnat.ltP Ht. exact: (RngProofs.rng_initialize_nth _ _ _ _ Ht). Qed.

Lemma lone_ok t c : exists2 r,
  sample [:: false] [seq HutchVecModel.entry R b | b <- signs n (advance n c (g t))] [:: 0] = Some r &
  r.2`_0 = val t c.
Proof.
  have [Sv Hv] := signs_ok R n' (g t) c.
  have [est [E _ _]] := sample_ok (erefl : size [:: false] = 1%N) Sv Hv.
  exists ([:: false], est); first exact: E. by rewrite /val /lone E.
Qed.

Lemma turnE ws k : (k <= size ws)%N -> turn (nth 0%N ws) k = count_mem (nth 0%N ws k) (take k ws).
Proof.
  move=> Hk. rewrite /turn. have -> : take k ws = [seq nth 0%N ws l | l <- iota 0 k].
  { apply: (@eq_from_nth _ 0%N); first by rewrite size_takel // size_map size_iota.
    move=> l. rewrite size_takel // => Hl. by rewrite nth_take // (nth_map 0%N) ?size_iota // nth_iota. }
  by rewrite count_map.
Qed.

Lemma schedules : every_schedule threads mn mx z zo atol rtol
  (execute sample threads n mn (Fin z) (Fin atol) (Fin rtol)) (pstart threads mx clock seed vector error)
  (fun w x => P w 0 x) clock seed.
Proof.
  have Hs := fun t c (_ : (t < threads)%N) => lone_ok t c.
  have H0 := @inv_start R threads n mn mx z atol rtol g val clock seed vector error table_ok vector_ok error_ok.
  have E0 := exc_start threads mx clock seed vector error.
  split; first exact: (execute_finishes z_ge0 Hs threads_gt0 H0).
  move=> schedule. have := execute_inv z_ge0 Hs schedule H0.
  case Ex: (execute _ _ _ _ _ _ _ _) => [| |s] // [[ws [d H]] Hrem].
  have He := execute_exc z_ge0 Hs H0 E0 Ex.
  split.
  - have Er : remaining threads (pstart threads mx clock seed vector error) = (8 * mx)%N.
    { rewrite /remaining size_iota big1; first by rewrite addn0. move=> u _. exact: erefl. }
    rewrite Er in Hrem. exact: leq_trans (leq_addr _ _) Hrem.
  - exact: (execute_finishes z_ge0 Hs threads_gt0 H).
  - move=> Hf. have [Hst Hle [r Er Hrep]] := inv_finish zo mx_gt0 H Hf.
    exists ws, ((ParRunProofs.X val ws) ^~ 0%N), (used mn z atol rtol false (ParRunProofs.X val ws) 0 d), r.
    split; [exact: Er| | |exact: Hst|exact: Hrep].
    + split; first exact: (i_ws H). by rewrite Hle (finish_excess threads_gt0 H He Hf).
    + move=> k Hk. rewrite turnE ?(ltnW Hk) //. exact: (lone_P _ _ sample_ok).
Qed.
End Abstract.

Section Run.
Variable R : rcfType.
(** Machine epsilon. *)
Variable eps : R.
Hypothesis eps_gt0 : 0 < eps.
(** The exponent, the function, the size, the degree, the tolerance and the
    reorthogonalisation setting. *)
Variable pw f : R -> R.
Variable n' m : nat.
Notation n := n'.+1.
Hypothesis m_gt0 : (0 < m)%N.
Variable tol : R.
Hypothesis tol_gt0 : 0 < tol.
Variable orth : int.
(** Number of threads, minimum and maximum number of samples, the quantiles of
    the confidence level and of the outlier test, the tolerances. *)
Variables threads mn mx : nat.
Hypothesis threads_gt0 : (0 < threads)%N.
Hypothesis mx_gt0 : (0 < mx)%N.
Variables z zo atol rtol : R.
Hypothesis z_ge0 : 0 <= z.
(** Fresh memory and the LAPACK routines. *)
Variable alloc : nat -> seq R.
Hypothesis size_alloc : forall k, size (alloc k) = k.
Variable eigh svd : nat -> seq R -> seq R -> option (seq R * seq R).
Hypothesis eigh_ok : eigh_contract eigh.
Hypothesis svd_ok : svd_contract svd.
(** The clock, the seed, the uninitialised arrays. *)
Variables (clock : nat -> N) (seed : Z) (vector : nat -> seq Z) (error : seq (num R)).
Hypothesis vector_ok : forall t, (t < threads)%N -> size (vector t) = n.
Hypothesis error_ok : size error = 1%N.

Notation s0 := (pstart threads mx clock seed vector error).
Notation run_matrix gram A params :=
  (execute_matrix eps alloc eigh svd pw f n m tol orth gram threads mn (Fin z) (Fin atol) (Fin rtol) A params).
Notation run_affine gram op u :=
  (execute_affine eps alloc eigh svd pw f n m tol orth gram threads mn (Fin z) (Fin atol) (Fin rtol) op u).
Notation every_schedule run Q := (every_schedule threads mn mx z zo atol rtol run s0 Q clock seed).
Notation sample_of := (sample_of pw f m tol).

Lemma weaken run (Q Q' : 'cV[R]_n -> R -> Prop) : every_schedule run Q ->
  (forall g i x, Q (rademacher R g n i) x -> Q' (rademacher R g n i) x) -> every_schedule run Q'.
Proof.
  move=> [H0 H] HQ. split=> // schedule. have := H schedule. case: (run _ _) => // s [H1 H2 H3].
  split=> // /H3 [ws [X [K [r [A1 A2 A3 A4 A5]]]]]. exists ws, X, K, r. split=> // k Hk. apply: HQ. exact: A3.
Qed.

Lemma matrix_values gram (A : storage R) params : well_formed A n n -> usable gram (denotes A n n) ->
  every_schedule (run_matrix gram A params) (value_of (n' := n') (fun _ => denotes A n n) pw f m tol gram [::]).
Proof.
  move=> HA Hadm.
  have Hd := @matrix_delivers R eps eps_gt0 alloc size_alloc eigh svd eigh_ok svd_ok pw f n' m m_gt0 tol tol_gt0 orth
    gram A params 1 isT HA Hadm.
  exact: (schedules Hd mn threads_gt0 mx_gt0 zo atol rtol z_ge0 clock seed vector_ok error_ok).
Qed.

(** A matrix, symmetric or with gram. *)
Theorem C74_matrix gram (A : storage R) params : well_formed A n n -> usable gram (denotes A n n) ->
  every_schedule (run_matrix gram A params) (sample_of gram (denotes A n n)).
Proof.
  move=> HA Hadm. apply: weaken (matrix_values params HA Hadm) _ => g i x.
  exact: (@value_sample R pw f n' m tol tol_gt0 (fun _ => denotes A n n) gram [::] _ _ Hadm (rademacher_nz _ _ _ _)).
Qed.

(** An affine matrix function A + u B, symmetric or with gram. *)
Theorem C74_affine gram (A : storage R) (B : option (storage R)) (op : affine R) (u : R) :
  let M := denotes A n n + u *: matrix_of_B B n n in
  well_formed A n n ->
  (forall s, B = Some s -> well_formed s n n /\ denotes s n n <> 0) ->
  affine_object n' A B op -> usable gram M ->
  every_schedule (run_affine gram op u) (sample_of gram M).
Proof.
  move=> M HA HB Hop Hadm. have Hk : ~~ (eigenvalue_relation_known op && (1 < size [:: u])%N) by rewrite andbF.
  have Hadm' : forall t, t \in [:: u] ->
    admissible (fun p => denotes A n n + p`_0 *: matrix_of_B B n n) gram [:: t].
  { move=> t. rewrite inE => /eqP ->. exact: Hadm. }
  have Hd := @affine_each_delivers R eps eps_gt0 alloc size_alloc eigh svd eigh_ok svd_ok pw f n' m m_gt0 tol tol_gt0 orth
    A B op [:: u] HA HB Hop isT gram Hk Hadm'.
  apply: weaken (schedules Hd mn threads_gt0 mx_gt0 zo atol rtol z_ge0 clock seed vector_ok error_ok) _ => g i x.
  exact: (@value_sample R pw f n' m tol tol_gt0 (fun p => denotes A n n + p`_0 *: matrix_of_B B n n) gram [:: u] _ _
    Hadm (rademacher_nz _ _ _ _)).
Qed.

(** ** Results that no schedule can change *)
Lemma summary_range xs trace err outliers (lo hi : R) : 0 < z -> 1 <= zo -> (0 < size xs)%N ->
  (forall x, x \in xs -> lo <= x <= hi) -> summary z zo xs trace err outliers ->
  exists2 x, trace = Fin x & lo <= x <= hi.
Proof.
  move=> Hz Hzo Hxs Hx [S1 _ S3]. case: (ltnP 1 (size xs)) => H1.
  - have Hin := inliers_nonempty (xs := xs) (z := zo) H1 Hzo. have [-> _] := S1 H1 Hin. eexists; first reflexivity.
    apply: mean_bounds; first by rewrite lt0n size_eq0. move=> x. rewrite mem_filter => /andP [_]. exact: Hx.
  - have E : xs = [:: xs`_0] by case: (xs) Hxs H1 => [|x [|y l]].
    have [-> _ _] := S3 _ E Hz (le_trans ler01 Hzo). eexists; first reflexivity. apply: Hx. by rewrite {2}E inE.
Qed.

(** If the eigenvalues (squared singular values with gram) lie in [a, b] and f in
    [lo, hi] there, the result is a number in [n lo, n hi] for every schedule. *)
Theorem C74_range gram (A : storage R) params (a b lo hi : R) schedule s :
  well_formed A n n -> usable gram (denotes A n n) -> 0 < z -> 1 <= zo ->
  (forall y : 'cV_n, a * ip y y <= ip y (target gram (denotes A n n) *m y) <= b * ip y y) ->
  (forall t, a <= t <= b -> lo <= f (pw t) <= hi) ->
  run_matrix gram A params schedule s0 = Next s -> finished threads s ->
  exists r x, [/\ finish (Fin z) (Fin zo) s = Some r, rp_trace r = [:: Fin x] & n%:R * lo <= x <= n%:R * hi].
Proof.
  move=> HA Hadm Hz Hzo Hab Hf Ex Hfin. have [_ H] := matrix_values params HA Hadm.
  have := H schedule. rewrite Ex => -[_ _ /(_ Hfin)] [ws [X [K [r [Er [_ Hle] HX [HK _ _] [_ _ _]]]]]].
  move=> [trace [err [outliers [Et _ _ Hs]]]].
  have [||x Ex2 Hx] := summary_range (lo := n%:R * lo) (hi := n%:R * hi) Hz Hzo _ _ Hs.
  - rewrite size_map size_iota. by case/andP: HK.
  - move=> x /mapP [k]. rewrite mem_iota add0n => /= Hk ->.
    have Hk' : (k < size ws)%N by apply: leq_trans Hk _; case/andP: Hle.
    exact: (value_bounds tol_gt0 Hadm (rademacher_nz _ _ _ _) (HX k Hk') Hab Hf).
  - exists r, x. split=> //. by rewrite Et Ex2.
Qed.

(** For c times the identity the result is exact for every schedule, no sample
    is discarded, the error is zero, and max(min_num_samples, 2) samples suffice if
    one of the tolerances is positive. *)
Theorem C74_scalar gram (A : storage R) params (c : R) schedule s :
  let x := n%:R * f (pw (if gram then c * c else c)) in
  well_formed A n n -> denotes A n n = c%:M -> (gram -> c != 0) ->
  (1 < mx)%N -> 0 < Num.max atol (rtol * x) ->
  run_matrix gram A params schedule s0 = Next s -> finished threads s ->
  exists r, finish (Fin z) (Fin zo) s = Some r /\
    [/\ rp_trace r = [:: Fin x], rp_error r = [:: Fin 0], rp_outliers r = [:: 0%N],
        rp_used r = [:: minn mx (maxn mn 2)] & rp_converged r = [:: (mn <= mx)%N]].
Proof.
  move=> x HA HAc Hc Hmx Hx Ex Hfin.
  have Hadm : usable gram (denotes A n n).
  { rewrite /usable HAc. case: (gram) Hc => Hc; last by rewrite tr_scalar_mx.
    move=> y. rewrite mul_scalar_mx => /eqP. by rewrite scaler_eq0 (negbTE (Hc isT)) /= => /eqP. }
  have [_ H] := matrix_values params HA Hadm.
  have := H schedule. rewrite Ex => -[_ _ /(_ Hfin)] [ws [X0 [K [r [Er [_ Hle] HX0 Hst Hrep]]]]].
  have HXk k : (k < K)%N -> X0 k = x.
  { move=> Hk. have Hk' : (k < size ws)%N by apply: leq_trans Hk _; case/andP: Hle.
    set c' := if gram then c * c else c in x Hx *.
    have Hab : forall y : 'cV_n, c' * ip y y <= ip y (target gram (denotes A n n) *m y) <= c' * ip y y.
    { move=> y. have -> : target gram (denotes A n n) = c'%:M.
      { rewrite /target /c' HAc. case: (gram) => //. by rewrite tr_scalar_mx -scalar_mxM. }
      by rewrite mul_scalar_mx ipZr lexx. }
    have Hf : forall t, c' <= t <= c' -> f (pw c') <= f (pw t) <= f (pw c').
    { move=> t Ht. have -> : t = c' by apply: le_anti; rewrite andbC. by rewrite lexx. }
    have := value_bounds tol_gt0 Hadm (rademacher_nz _ _ _ _) (HX0 k Hk') Hab Hf.
    rewrite andbC => Hb. exact: le_anti. }
  pose X (k j : nat) : R := x.
  have Efs k : (k <= K)%N -> first_samples (fun k (_ : nat) => X0 k) 0 k = first_samples X 0 k.
  { move=> Hk. apply/eq_in_map => i. rewrite mem_iota add0n => /= Hi. apply: HXk. exact: leq_trans Hi Hk. }
  have Esat k : (k <= K)%N -> satisfied z atol rtol mn (fun k (_ : nat) => X0 k) 0 k = satisfied z atol rtol mn X 0 k.
  { move=> Hk. by rewrite /satisfied Efs. }
  have Hst' : stops_at z atol rtol mn mx X 0 K.
  { case: Hst => S1 S2 S3. split=> //.
    - move=> k Hk. rewrite -Esat; first exact: S2. by case/andP: Hk => _ /ltnW.
    - by rewrite -Esat. }
  have EK := stops_constant eps_gt0 m_gt0 tol_gt0 mx_gt0 z_ge0 (fun i => erefl : X i 0%N = x) Hx Hst'.
  have HK : (1 < K)%N by rewrite EK leq_min Hmx leq_max orbT.
  exists r. split; first exact: Er. case: Hrep => [[-> -> _] _ _ [trace [err [outliers [-> -> -> Hs]]]]].
  have Exs : [seq X0 k | k <- iota 0 K] = nseq K x.
  { rewrite -(@constant_samples R X 0 K x (fun i => erefl)) -Efs //. }
  rewrite Exs in Hs. case: Hs => S1 S2 _. rewrite inliers_nseq ?(ltnW HK) // size_nseq in S1 S2.
  have Hnz : nseq K x != [::] by rewrite -size_eq0 size_nseq -lt0n ltnW.
  have [-> E] := S1 HK Hnz. rewrite (S2 HK) half_width_nseq ?mean_nseq ?(ltnW HK) // EK. split=> //.
  - congr [:: _]. lia.
  - rewrite Esat -?EK // (satisfied_constant _ _ _ _ (fun i => erefl : X i 0%N = x) (ltnW HK)) HK Hx !andbT EK leq_min leq_max leqnn.
    by rewrite andbT.
Qed.
End Run.

(** ** The random numbers of a run *)
Lemma turn_lt who k l : (k < l)%N -> who k = who l -> (turn who k < turn who l)%N.
Proof.
  move=> Hkl E. rewrite /turn. have -> : iota 0 l = iota 0 k ++ k :: iota k.+1 (l - k.+1).
  { rewrite -{1}(subnKC Hkl) -addn1 iotaD iotaD add0n /= addn1. by rewrite -catA. }
  rewrite count_cat /= E eqxx addnA [X in (_ < X)%N]addnC addnA addn1 ltnS.
  rewrite leq_addl. by [].
Qed.

(** With a non-negative seed no random number is used for two of the samples
    processed, whatever the threads that process them: no two draws, even of
    different threads, are made in the same state of the generator. *)
Theorem C74_no_common_draw (threads n mx : nat) (clock : nat -> N) (seed : Z) (ws : seq nat) (k l a b : nat) :
  let who := nth 0%N ws in
  let width := (Nat.div n 64 + 1)%N in
  Z.le Z0 seed -> N.le (N.of_nat threads) (N.pow 2 127) -> N.le (N.of_nat (mx * width)) (N.pow 2 128) ->
  (forall t, t \in ws -> (t < threads)%N) -> (size ws <= mx)%N ->
  (k < size ws)%N -> (l < size ws)%N -> (a < width)%N -> (b < width)%N -> (k, a) <> (l, b) ->
  PropRng.after (N.of_nat (turn who k * width + a)) (thread_stream clock seed (who k)) <>
  PropRng.after (N.of_nat (turn who l * width + b)) (thread_stream clock seed (who l)).
Proof.
  move=> who width Hseed HT Hmx Hws Hsz Hk Hl Ha Hb Hne.
  have Hpos i c : (i < size ws)%N -> (c < width)%N -> N.lt (N.of_nat (turn who i * width + c)) (N.pow 2 128).
  { move=> Hi Hc. apply: N.lt_le_trans Hmx. have Ht : (turn who i <= i)%N.
    { rewrite /turn. apply: leq_trans (count_size _ _) _. by rewrite size_iota. }
    suff : (turn who i * width + c < mx * width)%N by lia.
    apply: (@leq_trans ((turn who i).+1 * width)); first by rewrite mulSn addnC ltn_add2r.
    rewrite leq_mul2r. apply/orP; right. exact: leq_ltn_trans Ht (leq_trans Hi Hsz). }
  have Htab i : (i < size ws)%N ->
    List.nth_error (rng_initialize threads clock seed) (who i) = Some (thread_stream clock seed (who i)).
  { move=> Hi. have /ssrnat.ltP Ht := Hws _ (mem_nth 0%N Hi). exact: (RngProofs.rng_initialize_nth _ _ _ _ Ht). }
  apply: (PropRng.C05_streams_do_not_overlap threads clock seed _ _ _ _ _ _ Hseed HT (Htab k Hk) (Htab l Hl) (Hpos k a Hk Ha)
    (Hpos l b Hl Hb)) => -[Ew En].
  have Eq : (turn who k * width + a = turn who l * width + b)%N by lia.
  have Hw : (0 < width)%N by exact: leq_ltn_trans Ha.
  have Et : turn who k = turn who l.
  { have := congr1 (divn^~ width) Eq. by rewrite !divnMDl // !divn_small // !addn0. }
  have Eab : a = b by move: Eq; rewrite Et => /addnI.
  case: (ltngtP k l) => Hkl.
  - have := turn_lt Hkl Ew. by rewrite Et ltnn.
  - have := turn_lt Hkl (esym Ew). by rewrite Et ltnn.
  - by apply: Hne; rewrite Hkl Eab.
Qed.

(** The hypotheses are met: ((2, 1), (1, 2)) over the real algebraic numbers, on
    three threads. *)
Section Examples.
Let RA := [rcfType of realalg].
Let A : storage RA := Dense true [:: 2%:R; 1; 1; 2%:R].
Let C : storage RA := Dense true [:: 3%:R; 0; 0; 3%:R].
Let vec0 (t : nat) : seq Z := [:: Z0; Z0].

Lemma zero_alloc k : size (nseq k (0 : RA)) = k.
Proof. by rewrite size_nseq. Qed.

Example C74_case_affine : exists eigh svd,
  every_schedule 3 2 10 2%:R 3%:R 1 0
    (execute_affine (1 : RA) (fun k => nseq k 0) eigh svd id (fun x => x ^+ 3) 2 5 1 (-1) false 3 2 (Fin 2%:R) (Fin 1)
      (Fin 0) (Affine A None true true None) 7%:R)
    (pstart 3 10 (fun _ => N0) 4 vec0 [:: NaN])
    (sample_of id (fun x => x ^+ 3) 5 1 false (denotes A 2 2 + 7%:R *: matrix_of_B None 2 2)) (fun _ => N0) 4.
Proof.
  have [eigh He] := eigh_contract_met RA. have [svd Hs] := svd_contract_met RA.
  have HB : forall s : storage RA, None = Some s -> well_formed s 2 2 /\ denotes s 2 2 <> 0 by [].
  have Hop : affine_object 1 A None (Affine A None true true None).
  { by exists (Affine A None true true None), [::], [::]. }
  exists eigh, svd.
  exact: (@C74_affine RA 1 ltr01 id (fun x => x ^+ 3) 1 5 isT 1 ltr01 (-1) 3 2 10 isT isT 2%:R 3%:R 1 0 (ler0n _ 2)
    _ zero_alloc eigh svd He Hs (fun _ => N0) 4 vec0 [:: NaN] (fun t _ => erefl) erefl false A None _ 7%:R isT HB Hop
    (A_sym 7%:R)).
Qed.

(** Three threads, 3 times the identity, gram: some schedule ends, and all that
    end leave the same. *)
Example C74_case_scalar : exists eigh svd,
  let run := execute_matrix (1 : RA) (fun k => nseq k 0) eigh svd id (fun x => x ^+ 3) 2 5 1 (-1) true 3 2 (Fin 2%:R)
    (Fin 1) (Fin 0) C [::] in
  let s0 := pstart 3 10 (fun _ => N0) 4 vec0 [:: NaN] in
  (exists schedule s, run schedule s0 = Next s /\ finished 3 s) /\
  forall schedule s, run schedule s0 = Next s -> finished 3 s ->
  exists r, finish (Fin 2%:R) (Fin 3%:R) s = Some r /\ rp_trace r = [:: Fin (2%:R * (3%:R * 3%:R) ^+ 3)].
Proof.
  have [eigh He] := eigh_contract_met RA. have [svd Hs] := svd_contract_met RA.
  have HC : denotes C 2 2 = 3%:R%:M.
  { apply/matrixP => i j. rewrite !mxE. by case: i => [[|[|//]] Hi]; case: j => [[|[|//]] Hj]. }
  have Hc : true -> (3%:R : RA) != 0 by rewrite pnatr_eq0.
  have Hu : usable true (denotes C 2 2).
  { move=> y. rewrite HC mul_scalar_mx => /eqP. by rewrite scaler_eq0 (negbTE (Hc isT)) /= => /eqP. }
  have Hx : 0 < Num.max (1 : RA) (0 * (2%:R * (3%:R * 3%:R) ^+ 3)) by rewrite lt_maxr ltr01.
  exists eigh, svd. split.
  - have [H _] := @C74_matrix RA 1 ltr01 id (fun x => x ^+ 3) 1 5 isT 1 ltr01 (-1) 3 2 10 isT isT 2%:R 3%:R 1 0
      (ler0n _ 2) _ zero_alloc eigh svd He Hs (fun _ => N0) 4 vec0 [:: NaN] (fun t _ => erefl) erefl true C [::] isT Hu.
    exact: H.
  - move=> schedule s E Hf.
    have [r [E1 [E2 _ _ _ _]]] := @C74_scalar RA 1 ltr01 id (fun x => x ^+ 3) 1 5 isT 1 ltr01 (-1) 3 2 10 isT isT 2%:R 3%:R 1 0
      (ler0n _ 2) _ zero_alloc eigh svd He Hs (fun _ => N0) 4 vec0 [:: NaN] (fun t _ => erefl) erefl true C [::] 3%:R
      schedule s isT HC Hc isT Hx E Hf.
    by exists r.
Qed.
End Examples.

(** The samples of threads 1, 0, 1, 1: the turns are 0, 0, 1, 2. *)
Example C74_case_turns : [seq turn (nth 0%N [:: 1; 0; 1; 1]%N) k | k <- iota 0 4] = [:: 0; 0; 1; 2]%N.
Proof. by []. Qed.

Example C74_case_draws :
  PropRng.after (N.of_nat 3) (thread_stream (fun _ => N0) 4 1) <>
  PropRng.after (N.of_nat 1) (thread_stream (fun _ => N0) 4 0).
Proof.
  have H := @C74_no_common_draw 2 100 10 (fun _ => N0) 4 [:: 1; 0; 1]%N 2 1 1 1.
  apply: H => //; try by vm_compute. move=> t. rewrite !inE. by case: t => [|[|t]].
Qed.

Definition C74_assumptions :=
  (@C74_matrix, @C74_affine, @C74_range, @C74_scalar, @C74_no_common_draw).
Print Assumptions C74_assumptions.
