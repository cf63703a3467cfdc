(** * C63: the run of the Hutchinson method

    The estimates come one after the other, [f 0], [f 1], ...; [z] and [zo]
    are the quantiles of the confidence level and of the outlier level. *)
From mathcomp Require Import all_ssreflect all_algebra.
From mathcomp Require Import zify.
From Verif Require Import Mem ConvModel ConvSpec ConvProofs HutchRunModel HutchRunSpec
  HutchRunProofs.

Set Implicit Arguments.
Unset Strict Implicit.
Unset Printing Implicit Defensive.

Import Order.TTheory GRing.Theory Num.Theory.
Local Open Scope ring_scope.

Section C63.
Variable R : rcfType.
Notation F := (@Fin R).

(** The number of estimates: the first at which the run may stop, or the
    largest allowed. *)
Definition stopping_point (z atol rtol : R) (least most : nat) (f : nat -> R)
    (K : nat) : Prop :=
  [/\ (0 < K <= most)%N,
      forall j, (0 < j < K)%N -> ~~ may_stop z atol rtol least f j &
      may_stop z atol rtol least f K \/ K = most].

(** There is exactly one such number. *)
Theorem C63_stopping_point (z atol rtol : R) least most f : (0 < most)%N ->
  exists! K, stopping_point z atol rtol least most f K.
Proof.
  move=> Hm.
  have Hex : exists k, (0 < k)%N && (may_stop z atol rtol least f k || (k == most)).
    by exists most; rewrite Hm eqxx orbT.
  case: (ex_minnP Hex) => K /andP[H0 HK] Hmin. exists K. split.
    split.
    - by rewrite H0 Hmin // Hm eqxx orbT.
    - move=> j /andP[Hj0 HjK]. apply/negP => Hs.
      by have := Hmin j; rewrite Hj0 Hs => /(_ isT); lia.
    - by case/orP: HK => [->|/eqP ->]; [left|right].
  move=> K' [/andP[H0' Hle] Hno Hend].
  have H1 : (K <= K')%N.
    by apply: Hmin; rewrite H0'; case: Hend => [->|->]; rewrite ?eqxx ?orbT.
  apply/eqP; rewrite eqn_leq H1 leqNgt. apply/negP => Hlt.
  have := Hno K; rewrite H0 Hlt => /(_ isT) /negbTE Hn.
  move: HK; rewrite Hn /= => /eqP E. by lia.
Qed.

(** The call computes exactly the estimates up to the stopping point (an
    estimate after it is never computed, so it may even raise), reports them
    in order with NaN in the unused places, says it converged exactly when the
    criterion held, and returns the mean of the estimates that are not
    outliers, with the half width of their confidence interval. *)
Theorem C63_run_partial est (z zo atol rtol : R) f ncols mn mx K :
  let most := minn mx ncols in let least := minn mn ncols in
  let xs := first_estimates f K in
  0 <= z -> 0 <= zo ->
  stopping_point z atol rtol least most f K ->
  (forall i, (i < K)%N -> est i = Some (F (f i))) ->
  kept zo xs != [::] ->
  exists2 r, hutchinson_run est (F z) (F zo) (F atol) (F rtol) ncols mn mx = Returns r &
    [/\ rp_used r = K,
        rp_converged r = may_stop z atol rtol least f K,
        rp_trace r = F (mean (kept zo xs)),
        rp_error r = (if (1 < size (kept zo xs))%N
                      then F (half_width z (kept zo xs))
                      else if z == 0 then NaN else PInf) &
    [/\ rp_outliers r + size (kept zo xs) = K,
        rp_samples r = map F xs ++ nseq (most - K) NaN,
        rp_order r = iota 0 K ++ nseq (most - K) 0%N,
        rp_min r = least & rp_max r = most]%N].
Proof.
  move=> most least xs Hz Hzo [HK Hno Hend] Hest Hk.
  have E := @runE R est z (F zo) atol rtol f ncols mn mx K
    (fun x => `|x - mean xs| <= zo * pop_std xs) Hz HK Hest Hno Hend.
  have Hs : size xs = K by exact: size_prefix.
  have Hkeep : forall x, x \in xs ->
     is_outlier (nmul (F zo) (if (1 < K)%N then F (pop_std xs) else PInf))
       (F (mean xs)) (F x) = ~~ (`|x - mean xs| <= zo * pop_std xs).
    by move=> x Hx; rewrite -{1}Hs keep_finite.
  have Hle : (size (kept zo xs) <= K)%N by rewrite -[K]Hs size_filter count_size.
  rewrite (E Hkeep) -/xs -/(kept zo xs) seq_case; last by case: (kept zo xs) Hk.
  eexists; first by [].
  split => //=.
    rewrite /inf_times. case: ifP => // _. case: eqP => // /eqP Hn.
    by rewrite lt0r Hn Hz.
  split => //; first by lia. by rewrite /xs /first_estimates -map_comp.
Qed.

(** With the quantile of the outliers at least one (an outlier level of at
    most 0.317) the call always returns: some estimate is kept. *)
Theorem C63_returns est (z zo atol rtol : R) f ncols mn mx K :
  0 <= z -> 1 <= zo ->
  stopping_point z atol rtol (minn mn ncols) (minn mx ncols) f K ->
  (forall i, (i < K)%N -> est i = Some (F (f i))) ->
  exists r, hutchinson_run est (F z) (F zo) (F atol) (F rtol) ncols mn mx = Returns r.
Proof.
  move=> Hz Hzo HK Hest. have [/andP[H0 _] _ _] := HK.
  have Hk : kept zo (first_estimates f K) != [::].
    by apply: kept_nonempty => //; rewrite size_prefix.
  have [r Hr _] := C63_run_partial Hz (le_trans ler01 Hzo) HK Hest Hk.
  by exists r.
Qed.

(** Below that, two different estimates are both outliers, and the call ends
    in a division by zero. *)
Theorem C63_returns_refuted est (z zo atol rtol : R) f ncols :
  0 <= z -> 0 <= zo < 1 -> f 0%N != f 1%N -> (2 <= ncols)%N ->
  (forall i, est i = Some (F (f i))) ->
  hutchinson_run est (F z) (F zo) (F atol) (F rtol) ncols 2 2 =
  Raises ZeroDivisionError.
Proof.
  move=> Hz /andP[Hzo Hz1] Hne Hn Hest.
  have M : minn 2 ncols = 2%N by apply/minn_idPl.
  set xs := first_estimates f 2.
  have Hno j : (0 < j < 2)%N -> ~~ may_stop z atol rtol 2 f j.
    by move=> Hj; rewrite /may_stop; have -> : (2 <= j)%N = false by lia.
  have E := @runE R est z (F zo) atol rtol f ncols 2 2 2
    (fun x => `|x - mean xs| <= zo * pop_std xs) Hz.
  lazy zeta in E. rewrite M -/xs in E. rewrite E //; last 2 first.
  - by right.
  - by move=> x Hx; have := @keep_finite R zo xs x Hzo Hx.
  suff -> : [seq x <- xs | `|x - mean xs| <= zo * pop_std xs] = [::] by [].
  have Em : mean xs = (f 0%N + f 1%N) / 2%:R by rewrite /mean /xs /= !big_cons big_nil addr0.
  pose d : R := `|f 0%N - f 1%N| / 2%:R.
  have Hd : 0 < d by rewrite divr_gt0 ?ltr0n // normr_gt0 subr_eq0.
  have H2 : (2%:R : R) != 0 by rewrite pnatr_eq0.
  have D0 : `|f 0%N - mean xs| = d.
    have -> : f 0%N - mean xs = (f 0%N - f 1%N) / 2%:R.
      apply: (mulIf H2). rewrite mulrBl Em !divfK //.
      by rewrite mulr_natr mulr2n opprD addrACA subrr add0r.
    by rewrite normrM normfV normr_nat.
  have D1 : `|f 1%N - mean xs| = d.
    have -> : f 1%N - mean xs = - ((f 0%N - f 1%N) / 2%:R).
      apply: (mulIf H2). rewrite mulrBl mulNr Em !divfK //.
      by rewrite mulr_natr mulr2n [f 0%N + _]addrC opprD addrACA subrr add0r opprB.
    by rewrite normrN normrM normfV normr_nat.
  have Es : pop_std xs = d.
    rewrite /pop_std /xs /= !big_cons big_nil addr0 -/xs.
    rewrite -[(f 0%N - _) ^+ 2]real_normK ?num_real // -[(f 1%N - _) ^+ 2]real_normK ?num_real //.
    rewrite D0 D1 -mulr2n -mulr_natr mulfK // sqrtr_sqr ger0_norm //. exact: ltW.
  have Hlt : (d <= zo * d) = false.
    by apply/negbTE; rewrite -ltNge -{2}[d]mul1r ltr_pmul2r.
  by rewrite /= D0 D1 Es Hlt.
Qed.

(** With outlier level 0 (an infinite quantile) nothing is an outlier. *)
Theorem C63_no_outlier_level est (z atol rtol : R) f ncols mn mx K :
  0 <= z ->
  stopping_point z atol rtol (minn mn ncols) (minn mx ncols) f K ->
  (forall i, (i < K)%N -> est i = Some (F (f i))) ->
  exists2 r, hutchinson_run est (F z) PInf (F atol) (F rtol) ncols mn mx = Returns r &
    rp_outliers r = 0%N /\ rp_trace r = F (mean (first_estimates f K)).
Proof.
  move=> Hz [HK Hno Hend] Hest.
  have E := @runE R est z PInf atol rtol f ncols mn mx K predT Hz HK Hest Hno Hend.
  have Hs : size (first_estimates f K) = K by exact: size_prefix.
  have H0 : (0 < size (first_estimates f K))%N by rewrite Hs; lia.
  rewrite E; last by move=> x Hx; rewrite -{1}Hs keep_all.
  rewrite filter_predT seq_case //. eexists; first by []. by rewrite /= Hs subnn.
Qed.

(** ** The reported error and the criterion *)

(** The criterion divides by the number of estimates, the report by one less:
    if no estimate is an outlier, the reported error of a converged run is
    below the tolerance times [sqrt (K / (K - 1))]. *)
Theorem C63_error_partial (z atol rtol : R) least f K :
  0 <= z ->
  let xs := first_estimates f K in
  may_stop z atol rtol least f K ->
  half_width z xs * Num.sqrt K.-1%:R < Num.max atol (rtol * mean xs) * Num.sqrt K%:R.
Proof.
  move=> Hz xs /andP[_ /andP[H1 Hs]]. have Hsz : size xs = K by exact: size_prefix.
  rewrite size_prefix in H1. rewrite -/xs Hsz in Hs.
  have HK : 0 < Num.sqrt (K%:R : R) by rewrite sqrtr_gt0 ltr0n; lia.
  have HK1 : 0 < (K.-1%:R : R) by rewrite ltr0n; lia.
  have S0 : 0 <= \sum_(x <- xs) (x - mean xs) ^+ 2 by exact: sum_sq_ge0.
  suff -> : half_width z xs * Num.sqrt K.-1%:R = z * pop_std xs / Num.sqrt K%:R * Num.sqrt K%:R.
    by rewrite ltr_pmul2r.
  rewrite /half_width /std_dev /pop_std Hsz.
  rewrite !sqrtrM // !sqrtrV ?ler0n // divfK ?gt_eqF //.
  rewrite -!mulrA [X in z * X]mulrCA. congr (z * _).
  rewrite mulrCA [_^-1 * (_^-1 * _)]mulrCA [X in _ * X]mulrC mulVf ?mul1r ?mulr1; last first.
    by rewrite gt_eqF // sqrtr_gt0.
  by rewrite mulrC.
Qed.

(** A run that converged may report an error above the tolerance it was asked
    for, without any outlier. *)
Theorem C63_error_refuted (z zo : R) : 0 < z -> 1 <= zo ->
  let atol := z * (3%:R / 4%:R) in
  let f i := (if i == 0%N then -1 else 1) : R in
  exists2 r, hutchinson_run (fun i => Some (F (f i))) (F z) (F zo) (F atol) (F 0) 2 2 2
     = Returns r &
    [/\ rp_converged r, rp_outliers r = 0%N, rp_error r = F z & atol < z].
Proof.
  move=> Hz Hzo atol f. set xs := first_estimates f 2.
  have Em : mean xs = 0 by rewrite /mean /xs /= !big_cons big_nil addr0 addNr mul0r.
  have H2 : (2%:R : R) != 0 by rewrite pnatr_eq0.
  have Es : pop_std xs = 1.
    rewrite /pop_std Em /xs /= !big_cons big_nil addr0 !subr0 sqrrN !expr1n.
    by rewrite -mulr2n divff // sqrtr1.
  have Ed : std_dev xs = Num.sqrt 2%:R.
    rewrite /std_dev Em /xs /= !big_cons big_nil addr0 !subr0 sqrrN !expr1n.
    by rewrite divr1 -mulr2n.
  have Hs2 : 0 < Num.sqrt (2%:R : R) by rewrite sqrtr_gt0 ltr0n.
  have Hstop : may_stop z atol 0 2 f 2.
    rewrite /may_stop /small_enough /= -/xs Es Em mulr1 mulr0.
    have Ha : 0 <= atol by rewrite mulr_ge0 ?divr_ge0 ?ler0n // ltW.
    have -> : Num.max atol 0 = atol by apply/max_idPl.
    rewrite /atol ltr_pmul2l //.
    rewrite -[X in _ < X]ger0_norm ?divr_ge0 ?ler0n // -sqrtr_sqr -sqrtrV ?ler0n //.
    rewrite ltr_sqrt ?exprn_gt0 ?divr_gt0 ?ltr0n //.
    rewrite expr_div_n -!natrX ltr_pdivl_mulr ?ltr0n // ltr_pdivr_mull ?ltr0n //.
    by rewrite -natrM ltr_nat.
  have Hst : stopping_point z atol 0 2 2 f 2.
    split=> //; last by left.
    by move=> j Hj; rewrite /may_stop; have -> : (2 <= j)%N = false by lia.
  have Hk : kept zo xs = xs.
    rewrite /kept Es Em mulr1. apply/all_filterP.
    by rewrite /xs /= !subr0 normrN normr1 Hzo.
  have Hn : kept zo xs != [::] by rewrite Hk.
  have [r Hr [_ Hc _ He [Ho _ _ _ _]]] := @C63_run_partial (fun i => Some (F (f i)))
    z zo atol 0 f 2 2 2 2 (ltW Hz) (le_trans ler01 Hzo) Hst (fun i _ => erefl) Hn.
  exists r => //. split.
  - by rewrite Hc.
  - by move: Ho; rewrite Hk /=; lia.
  - rewrite He -/xs Hk /= /half_width Ed /=. by rewrite mulfK // gt_eqF.
  - rewrite /atol -[X in _ < X]mulr1 ltr_pmul2l // ltr_pdivr_mulr ?ltr0n // mul1r.
    by rewrite ltr_nat.
Qed.

(** ** Negative results *)

(** The relative tolerance is taken of the mean itself, not of its size: when
    the trace is negative and there is no absolute tolerance, the run never
    converges, even if all estimates are equal (and the reported error 0);
    it always computes the largest number of estimates. *)
Theorem C63_negative_refuted (c z zo rtol : R) ncols mn mx :
  c < 0 -> 0 <= z -> 1 <= zo -> 0 <= rtol -> (1 < minn mx ncols)%N ->
  exists2 r, hutchinson_run (fun=> Some (F c)) (F z) (F zo) (F 0) (F rtol) ncols mn mx
     = Returns r &
    [/\ rp_trace r = F c, rp_error r = F 0, rp_converged r = false &
        rp_used r = minn mx ncols].
Proof.
  move=> Hc Hz Hzo Hr Hm.
  have Ex k : first_estimates (fun=> c) k = nseq k c.
    by rewrite /first_estimates -{2}(size_iota 0 k); elim: (iota 0 k) => //= i s ->.
  have Hno k : (0 < k)%N -> may_stop z 0 rtol (minn mn ncols) (fun=> c) k = false.
    move=> Hk. rewrite /may_stop /small_enough Ex mean_cons //.
    have -> : Num.max 0 (rtol * c) = 0 by apply/max_idPl; rewrite mulr_ge0_le0 // ltW.
    by rewrite ltNge divr_ge0 ?mulr_ge0 ?sqrtr_ge0 // !andbF.
  set M := minn mx ncols in Hm *.
  have Hst : stopping_point z 0 rtol (minn mn ncols) M (fun=> c) M.
    split; [by lia|by move=> j /andP[Hj _]; rewrite Hno|by right].
  have Hk : kept zo (first_estimates (fun=> c) M) = nseq M c.
    rewrite Ex /kept mean_cons; last by lia.
    apply/all_filterP/allP => x /nseqP[-> _].
    by rewrite subrr normr0 mulr_ge0 ?sqrtr_ge0 // (le_trans ler01).
  have Hn : kept zo (first_estimates (fun=> c) M) != [::].
    by rewrite Hk -size_eq0 size_nseq; lia.
  have [r Hrun [Hu Hcv Ht He _]] := @C63_run_partial (fun=> Some (F c))
    z zo 0 rtol (fun=> c) ncols mn mx M Hz (le_trans ler01 Hzo) Hst (fun i _ => erefl) Hn.
  exists r => //. split=> //.
  - by rewrite Ht Hk mean_cons //; lia.
  - rewrite He Hk size_nseq Hm /half_width std_dev_nseq; last by lia.
    by rewrite mulr0 mul0r.
  - by rewrite Hcv Hno //; lia.
Qed.

(** For a positive trace the same run stops as soon as it may. *)
Theorem C63_positive (c z zo rtol : R) ncols mn mx :
  0 < c -> 0 <= z -> 1 <= zo -> 0 < rtol -> (1 < minn mx ncols)%N -> (mn <= mx)%N ->
  exists2 r, hutchinson_run (fun=> Some (F c)) (F z) (F zo) (F 0) (F rtol) ncols mn mx
     = Returns r &
    [/\ rp_trace r = F c, rp_error r = F 0, rp_converged r &
        rp_used r = maxn 2 (minn mn ncols)].
Proof.
  move=> Hc Hz Hzo Hr Hm Hle.
  have Ex k : first_estimates (fun=> c) k = nseq k c.
    by rewrite /first_estimates -{2}(size_iota 0 k); elim: (iota 0 k) => //= i s ->.
  have Hp k : pop_std (nseq k c) = 0.
    case: k => [|k]; first by rewrite /pop_std big_nil mul0r sqrtr0.
    rewrite /pop_std mean_cons // big1_seq ?mul0r ?sqrtr0 // => x /nseqP[-> _].
    by rewrite subrr expr0n.
  have Hstop k : may_stop z 0 rtol (minn mn ncols) (fun=> c) k =
    (maxn 2 (minn mn ncols) <= k)%N.
    rewrite /may_stop /small_enough Ex size_nseq geq_max andbC.
    case: (ltnP 1 k) => //= Hk. rewrite Hp mulr0 mul0r mean_cons; last by lia.
    by rewrite lt_maxr ltxx mulr_gt0.
  set M := minn mx ncols in Hm *. set K := maxn 2 (minn mn ncols).
  have HKM : (0 < K <= M)%N.
    by rewrite /K /M in Hm *; lia.
  have Hst : stopping_point z 0 rtol (minn mn ncols) M (fun=> c) K.
    split=> //; first by move=> j Hj; rewrite Hstop -/K; lia.
    by left; rewrite Hstop.
  have Hk : kept zo (first_estimates (fun=> c) K) = nseq K c.
    rewrite Ex /kept mean_cons; last by lia.
    apply/all_filterP/allP => x /nseqP[-> _].
    by rewrite subrr normr0 mulr_ge0 ?sqrtr_ge0 // (le_trans ler01).
  have Hn : kept zo (first_estimates (fun=> c) K) != [::].
    by rewrite Hk -size_eq0 size_nseq; lia.
  have [r Hrun [Hu Hcv Ht He _]] := @C63_run_partial (fun=> Some (F c))
    z zo 0 rtol (fun=> c) ncols mn mx K Hz (le_trans ler01 Hzo) Hst (fun i _ => erefl) Hn.
  exists r => //. split=> //.
  - by rewrite Ht Hk mean_cons //; lia.
  - rewrite He Hk size_nseq /half_width std_dev_nseq; last by lia.
    rewrite mulr0 mul0r. by have -> : (1 < K)%N by rewrite /K; lia.
  - by rewrite Hcv Hstop.
Qed.

(** ** The reported number of samples *)

(** The documentation says num_samples_used is the number of iterations minus
    the number of outliers.  It is the number of iterations: here four
    estimates are made, one is an outlier, and four are reported as used. *)
Theorem C63_used_refuted (z rtol : R) : 0 <= z -> 0 <= rtol ->
  let f (i : nat) := (if i == 3%N then 4%:R else 0) : R in
  exists2 r, hutchinson_run (fun i => Some (F (f i))) (F z) (F 1) (F 0) (F rtol) 4 4 4
     = Returns r &
    [/\ rp_used r = 4%N, rp_outliers r = 1%N & rp_trace r = F 0].
Proof.
  move=> Hz Hr f. set xs := first_estimates f 4.
  have H4 : (4%:R : R) != 0 by rewrite pnatr_eq0.
  have Ex : xs = [:: 0; 0; 0; 4%:R] by [].
  have Em : mean xs = 1.
    by rewrite /mean Ex !big_cons big_nil addr0 !add0r divff.
  have Es : pop_std xs = Num.sqrt 3%:R.
    rewrite /pop_std Em Ex !big_cons big_nil addr0 !sub0r !sqrrN !expr1n.
    have -> : (4%:R - 1 : R) = 3%:R by rewrite -[1]/(1%:R) -natrB.
    by rewrite -natrX -[1]/(1%:R) -!natrD (natrM _ 3 4) mulfK.
  have H1 : 1 <= Num.sqrt (3%:R : R).
    by rewrite -[1 in X in X <= _]sqrtr1 ler_sqrt ?ltr0n // ler1n.
  have H3 : Num.sqrt (3%:R : R) < 3%:R.
    rewrite -[X in _ < X]ger0_norm ?ler0n // -sqrtr_sqr ltr_sqrt ?exprn_gt0 ?ltr0n //.
    by rewrite -natrX ltr_nat.
  have Hk : kept 1 xs = [:: 0; 0; 0].
    rewrite /kept Em Es mul1r Ex /= !sub0r !normrN normr1 H1.
    have -> : (4%:R - 1 : R) = 3%:R by rewrite -[1]/(1%:R) -natrB.
    by rewrite normr_nat leNgt H3.
  have Hst : stopping_point z 0 rtol 4 4 f 4.
    split=> //; last by right.
    by move=> j Hj; rewrite /may_stop; have -> : (4 <= j)%N = false by lia.
  have Hn : kept 1 xs != [::] by rewrite Hk.
  have [r Hrun [Hu Hcv Ht He [Ho _ _ _ _]]] := @C63_run_partial (fun i => Some (F (f i)))
    z 1 0 rtol f 4 4 4 4 Hz ler01 Hst (fun i _ => erefl) Hn.
  exists r => //. split=> //.
  - by move: Ho; rewrite Hk /=; lia.
  - by rewrite Ht Hk /mean !big_cons big_nil !addr0 mul0r.
Qed.

(** ** An estimate that cannot be computed *)

(** The exception of an estimate that is needed reaches the caller. *)
Theorem C63_raises est (z zo atol rtol : R) f ncols mn mx i :
  0 <= z -> (i < minn mx ncols)%N ->
  (forall j, (j < i)%N -> est j = Some (F (f j))) -> est i = None ->
  (forall j, (0 < j <= i)%N -> ~~ may_stop z atol rtol (minn mn ncols) f j) ->
  hutchinson_run est (F z) (F zo) (F atol) (F rtol) ncols mn mx = Raises (Sampling i).
Proof.
  move=> Hz Hi Hest Hnone Hno. rewrite /hutchinson_run.
  have -> : (if (ncols < mx)%N then ncols else mx) = minn mx ncols by rewrite minnC.
  have -> : (if (ncols < mn)%N then ncols else mn) = minn mn ncols by rewrite minnC.
  set M := minn mx ncols in Hi *. set m := minn mn ncols in Hno *.
  suff S : forall n j, (j + n = i)%N ->
     sampling est (F z) (F atol) (F rtol) m (M - j) j (st_at f M j false) =
     Raises (Sampling i).
    have := S i 0%N (add0n i). by rewrite subn0 /st_at /= subn0 /start => ->.
  elim=> [|n IH] j Hj.
    have -> : j = i by lia. have -> : (M - i = (M - i.+1).+1)%N by lia.
    by rewrite /= Hnone.
  have -> : (M - j = (M - j.+1).+1)%N by lia.
  rewrite sampling_step //; [|by lia|by apply: Hest; lia].
  have -> : may_stop z atol rtol m f j.+1 = false by apply/negbTE/Hno; lia.
  by apply: IH; lia.
Qed.

End C63.

(** The hypotheses of [C63_run_partial], [C63_returns], [C63_no_outlier_level]
    and [C63_error_partial] are met by estimates [c, c, ...] ([C63_positive]
    goes through them); those of [C63_raises] by an estimator that raises at
    the second vector. *)
Example C63_raises_ex (R : rcfType) :
  hutchinson_run (fun i => if i == 0%N then Some (@Fin R 5%:R) else None)
    (Fin 2%:R) (Fin 3%:R) (Fin 0) (Fin 0) 5 2 4 = Raises (Sampling 1).
Proof.
  apply: (@C63_raises R _ 2%:R 3%:R 0 0 (fun=> 5%:R)); rewrite ?ler0n //.
  - by case.
  - by move=> j Hj; rewrite /may_stop; have -> : (minn 2 5 <= j)%N = false by lia.
Qed.

(** Five equal estimates, at least three required: three are made. *)
Example C63_run_ex (R : rcfType) :
  exists2 r, hutchinson_run (fun=> Some (@Fin R 7%:R)) (Fin 2%:R) (Fin 3%:R) (Fin 0)
     (Fin 1) 10 3 5 = Returns r &
    [/\ rp_trace r = Fin 7%:R, rp_converged r & rp_used r = 3%N].
Proof.
  have H := @C63_positive R 7%:R 2%:R 3%:R 1 10 3 5.
  case: H; rewrite ?ltr0n ?ler0n ?ler1n ?ltr01 // => r Hr [Ht _ Hc Hu].
  by exists r.
Qed.

(** Two estimates 1 and 2 with the outlier quantile 1/2. *)
Example C63_zero_division_ex (R : rcfType) :
  hutchinson_run (fun i => Some (@Fin R i%:R)) (Fin 1) (Fin 2%:R^-1) (Fin 0)
    (Fin 0) 8 2 2 = Raises ZeroDivisionError.
Proof.
  apply: (@C63_returns_refuted R _ 1 2%:R^-1 0 0 (fun i => i%:R)) => //.
  - exact: ler01.
  - by rewrite invr_ge0 ler0n invf_lt1 ?ltr1n ?ltr0n.
  - by rewrite eq_sym oner_eq0.
Qed.

Definition C63_assumptions := (@C63_stopping_point, @C63_run_partial, @C63_returns,
  @C63_returns_refuted, @C63_no_outlier_level, @C63_error_partial, @C63_error_refuted,
  @C63_negative_refuted, @C63_positive, @C63_used_refuted, @C63_raises).
Print Assumptions C63_assumptions.
