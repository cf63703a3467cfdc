(** * Properties of the convergence test and of the averaging (C27-C30)

    [mean], [std_dev], [half_width z] and [inliers z] are the textbook
    definitions of ConvSpec; [Fin x] is a finite number. *)
From mathcomp Require Import all_ssreflect all_algebra.
From mathcomp.real_closed Require Import realalg.
From mathcomp Require Import zify.
From Verif Require Import Mem ConvModel ConvSpec ConvProofs ParModel ParProofs PropPar.

Set Implicit Arguments.
Unset Strict Implicit.
Unset Printing Implicit Defensive.

Import Order.TTheory GRing.Theory Num.Theory.
Local Open Scope ring_scope.

(** ** C27 *)
Section C27.
Variable R : rcfType.
Notation num := (num R).

(** [values samples processed k j xs]: [xs] are the finite samples of inquiry
    [j] in the first [k] processed rows. *)
Definition values (samples : seq (seq num)) (processed : seq nat) (k j : nat)
    (xs : seq R) : Prop :=
  [/\ size xs = k, (k <= size processed)%N &
      forall i, (i < k)%N ->
        nth NaN (nth [::] samples (nth 0%N processed i)) j = Fin (nth 0 xs i)].

(** One call on finite samples.  A flag that is newly set means that at least
    min_num_samples (and two) samples were processed and the criterion holds;
    conversely the flag is set when the criterion holds.  Below
    min_num_samples every flag is cleared and every error infinite. *)
Theorem C27_convergence_test (z atol rtol : R) (samples : seq (seq num))
    (min_num_samples q : nat) (processed : seq nat) (k : nat) (o : conv_out R) :
  0 <= z -> well_shaped samples processed q k -> out_shaped q o ->
  exists all_converged o',
    [/\ check_convergence (Fin z) (Fin atol) (Fin rtol) samples min_num_samples q
          processed k o = Some (all_converged, o'),
        out_shaped q o',
        all_converged = (min_num_samples <= k)%N &&
          [forall j : 'I_q, nth false (co_converged o') j] &
        forall j, (j < q)%N ->
          let c := nth false (co_converged o) j in
          let c' := nth false (co_converged o') j in
          if (k < min_num_samples)%N then
            [/\ c' = false, nth NaN (co_error o') j = PInf &
                nth 0%N (co_used o') j = k]
          else if c then
            [/\ c' = true, nth NaN (co_error o') j = nth NaN (co_error o) j &
                nth 0%N (co_used o') j = nth 0%N (co_used o) j]
          else nth 0%N (co_used o') j = k /\
            ((k <= 1)%N -> c' = false) /\
            forall xs, values samples processed k j xs -> (1 < k)%N ->
              nth NaN (co_error o') j = Fin (half_width z xs) /\
              c' = (half_width z xs < Num.max atol (rtol * mean xs))].
Proof.
  move=> Hz Hw Ho. have [a [o' [E Ho']]] :=
    @check_convergence_some R (Fin z) (Fin atol) (Fin rtol) samples min_num_samples q
      processed k o Hw Ho.
  exists a, o'. rewrite E. split=> //.
  - move: E; rewrite /check_convergence. case: ltnP => Hk.
      by case: (not_enough _ _ _ _) => //= o1 [<- _].
    case Ec: (check_columns _ _ _ _ _ _ _ _ _) => [o1|] //=.
    case Ea: (all_set _ _ _) => [b|] //= [<- <-].
    rewrite (all_setP Ea). apply/allP/forallP => /= H.
      by move=> j; apply: H; rewrite mem_iota /=.
    move=> j; rewrite mem_iota add0n /= => Hj. exact: (H (Ordinal Hj)).
  - move=> j Hj /=. move: E; rewrite /check_convergence. case: ltnP => Hk.
      case En: (not_enough _ _ _ _) => [o1|] //= [_ <-].
      have [[_ _ _ H] _] := not_enoughP En. by have [] := H j; rewrite ?add0n.
    case Ec: (check_columns _ _ _ _ _ _ _ _ _) => [o1|] //=.
    case Ea: (all_set _ _ _) => [b|] //= [_ <-].
    have [[_ _ _ H] _] := check_columnsP Ec.
    have := H j; rewrite add0n => /(_ Hj). rewrite /column_step.
    case: ifP => _; first by case.
    case=> ys Eys [H1 H2 H3]. split=> //. have [Hs Hkp Hn] := (columnP _ _ _ _ _).1 Eys.
    split=> [Hk1|xs [S1 S2 S3] Hk1].
      by rewrite H2 column_converged_one // Hs.
    have Ey : ys = map (@Fin R) xs.
      apply: (@eq_from_nth _ NaN); first by rewrite size_map S1.
      move=> i Hi. rewrite Hs in Hi. rewrite (nth_map 0) ?S1 // -S3 //.
      have := Hn i Hi. have [P1 P2] := Hw.2 i Hi.
      rewrite /entry (rdE [::] P1) /= (rdE NaN (leq_trans Hj P2)). by case.
    have S4 : (1 < size xs)%N by rewrite S1.
    by rewrite H1 H2 Ey column_errorE // column_convergedE.
Qed.

(** Over the whole run, in every interleaving: whenever a flag is set, the
    samples the result uses satisfy the criterion. *)
Theorem C27_converged_every_schedule
    (threads q min_num_samples max_num_samples : nat) (known : bool)
    (z atol rtol : R) (s : state R) :
  0 <= z -> (0 < q)%N -> ~~ known || (q == 1)%N ->
  reachable threads q min_num_samples known (implemented_test z atol rtol)
    max_num_samples s ->
  forall j, (j < q)%N -> conv s j ->
  exists xs : seq R,
    [/\ (forall i, (i < size xs)%N ->
           exists parameters, cells s (nth 0%N (processed s) i) j =
                              Val (nth 0 xs i) parameters),
        size xs = used s j, (min_num_samples <= size xs <= size (processed s))%N,
        (1 < size xs)%N &
        half_width z xs < Num.max atol (rtol * mean xs)].
Proof.
  move=> Hz Hq Hk H j Hj Hc.
  have Hs : ~~ shifts q known.
    by rewrite /shifts; move: Hk; case: known {H} => //=; lia.
  have [_ _ HU HB] := invs_reachable Hs Hq H.
  pose l := take (used s j) (processed s).
  have Hl : size l = used s j by rewrite size_take_min; apply/minn_idPl; apply: (u_le HU).
  have Hval i : i \in l -> is_val (cells s i j) by apply: (b_used HB).
  pose v i := if cells s i j is Val x _ then x else 0.
  have Ev : [seq entry_num c | c <- [seq cells s i j | i <- l]] = map (@Fin R) (map v l).
    rewrite -!map_comp. apply/eq_in_map => i /Hval /=. rewrite /v. by case: (cells s i j).
  have Hd := b_dec HB Hc. rewrite -/l /implemented_test Ev in Hd.
  have H1 : (1 < size (map v l))%N.
    rewrite ltnNge. apply/negP => Hle.
    by rewrite column_converged_one // ?size_map // in Hd; rewrite size_map in Hle.
  rewrite column_convergedE // in Hd.
  exists (map v l). rewrite H1 Hd size_map Hl. split=> //.
  - move=> i Hi. rewrite (nth_map 0%N) ?Hl // -(nth_take (n0 := used s j)) //.
    have := Hval (nth 0%N l i) (mem_nth _ _). rewrite Hl => /(_ Hi). rewrite /v -/l.
    by case: (cells s (nth 0%N l i) j) => // x ps _; exists ps.
  - by rewrite (u_conv HU Hc) (u_le HU j).
Qed.

(** With confidence level 1 (infinite quantile) nothing is ever converged. *)
Theorem C27_confidence_one (atol rtol : num) (xs : seq R) :
  column_converged PInf atol rtol (map (@Fin R) xs) = false.
Proof. exact: column_converged_inf. Qed.
End C27.

(** ** C28 *)
Section C28.
Variable R : rcfType.

(** Scatter below rtol times the magnitude: converged, if the mean is not
    negative.  Missing from the full claim: negative means -- refuted. *)
Theorem C28_relative_tolerance_partial (z atol rtol : R) (xs : seq R) :
  (1 < size xs)%N -> 0 <= mean xs -> half_width z xs < rtol * `|mean xs| ->
  column_converged (Fin z) (Fin atol) (Fin rtol) (map (@Fin R) xs).
Proof.
  move=> Hs Hm. rewrite ger0_norm // column_convergedE // => H.
  by rewrite lt_maxr H orbT.
Qed.

(** For every positive relative tolerance (and zero absolute tolerance):
    samples without any scatter whose mean is negative do not converge. *)
Theorem C28_negative_mean_refuted (z rtol : R) : 0 <= z -> 0 < rtol ->
  forall (x : R) (k : nat), x < 0 -> (1 < k)%N ->
  let xs := nseq k x in
  half_width z xs < rtol * `|mean xs| /\
  column_converged (Fin z) (Fin 0) (Fin rtol) (map (@Fin R) xs) = false.
Proof.
  move=> Hz Hr x k Hx Hk xs. have Hk0 : (0 < k)%N by lia.
  have Hs : (1 < size xs)%N by rewrite size_nseq.
  rewrite column_convergedE // /half_width std_dev_nseq // mean_cons // mulr0 mul0r.
  split; first by rewrite mulr_gt0 // normr_gt0 lt_eqF.
  by rewrite lt_maxr ltxx /= pmulr_rgt0 // ltNge ltW.
Qed.
End C28.

(** ** C29 *)
Section C29.
Variable R : rcfType.

(** Two samples or more, not all outliers. *)
Theorem C29_mean_of_inliers (z_error z_outlier : R) (xs : seq R) :
  (1 < size xs)%N -> inliers z_outlier xs != [::] ->
  let kept := inliers z_outlier xs in
  exists num_outliers error,
    [/\ average_column (Fin z_error) (Fin z_outlier) (map (@Fin R) xs) =
          (num_outliers, Fin (mean kept), error),
        (num_outliers + size kept = size xs)%N,
        ((1 < size kept)%N -> error = Fin (half_width z_error kept)),
        (0 < z_error -> (size kept = 1)%N -> error = PInf) &
        forall lo hi, (forall x, x \in xs -> lo <= x <= hi) -> lo <= mean kept <= hi].
Proof.
  move=> Hs Hin kept. rewrite average_columnE //.
  eexists; eexists; split; [reflexivity|exact: (size_inliers xs z_outlier)| | |].
  - by rewrite -/kept => ->.
  - by rewrite -/kept => Hz -> /=; rewrite /inf_times gt_eqF // Hz.
  - move=> lo hi H. apply: mean_bounds; first by rewrite lt0n size_eq0.
    by move=> x; rewrite mem_filter => /andP [_ /H].
Qed.

(** The results do not depend on the order of the samples. *)
Theorem C29_order_irrelevant (z_error z_outlier : R) (xs ys : seq R) :
  (1 < size xs)%N -> inliers z_outlier xs != [::] -> perm_eq xs ys ->
  average_column (Fin z_error) (Fin z_outlier) (map (@Fin R) xs) =
  average_column (Fin z_error) (Fin z_outlier) (map (@Fin R) ys).
Proof.
  move=> Hs Hin Hp. have Hpi := perm_inliers z_outlier Hp.
  rewrite !average_columnE //; last 2 first.
  - by rewrite -(perm_size Hp).
  - by apply: contraNneq Hin => E; rewrite -size_eq0 (perm_size Hpi) E.
  rewrite (perm_mean Hpi) (perm_half_width _ Hpi) (perm_size Hpi).
  by rewrite (perm_mean Hp) (perm_std_dev Hp) (permP Hp).
Qed.

(** A single sample: it is the result, and the error is infinite. *)
Theorem C29_one_sample (z_error z_outlier x : R) : 0 < z_error -> 0 <= z_outlier ->
  average_column (Fin z_error) (Fin z_outlier) [:: Fin x] = (0%N, Fin x, PInf).
Proof.
  move=> He Ho. rewrite average_column_one //=. by rewrite /inf_times gt_eqF // He.
Qed.

(** The loop over the inquiries: result [j] is the average of its column. *)
Theorem C29_all_inquiries (ze zo : num R) samples processed used q :
  (forall j, (j < q)%N -> exists k xs,
     rd used j = Some k /\ ConvModel.column samples processed k j = Some xs) ->
  exists res, average_estimates ze zo samples processed used q 0 = Some res /\
    size res = q /\
    forall j k xs, (j < q)%N -> rd used j = Some k ->
      ConvModel.column samples processed k j = Some xs ->
      nth (0%N, NaN, NaN) res j = average_column ze zo xs.
Proof.
  have gen l j : (forall i, (j <= i < j + l)%N -> exists k xs,
      rd used i = Some k /\ ConvModel.column samples processed k i = Some xs) ->
    exists res, average_estimates ze zo samples processed used l j = Some res /\
    size res = l /\
    forall i k xs, (i < l)%N -> rd used (j + i) = Some k ->
      ConvModel.column samples processed k (j + i) = Some xs ->
      nth (0%N, NaN, NaN) res i = average_column ze zo xs.
    elim: l j => [|l IH] j H; first by exists [::].
    have [|k [xs [Hk Hxs]]] := H j; first by lia.
    have [|res [E [Hs Hr]]] := IH j.+1; first by move=> i Hi; apply: H; lia.
    exists (average_column ze zo xs :: res). rewrite /= Hk /= Hxs /= E /=.
    split=> //. split; first by rewrite Hs.
    case=> [|i] k' xs' Hi.
      by rewrite addn0 Hk => [[<-]]; rewrite Hxs => [[<-]].
    rewrite -addSnnS => A B /=. exact: Hr A B.
  move=> H. have [|res [E [Hs Hr]]] := gen q 0%N; first exact: H.
  by exists res; split=> //; split=> // j k xs Hj; move: (Hr j k xs Hj); rewrite add0n.
Qed.
End C29.

(** ** C30 *)
Section C30.
Variable R : rcfType.

(** Outlier quantile at least one standard deviation (significance level at
    most about 0.317): some sample stays and the reported mean is finite.
    Missing from the full claim: larger significance levels -- refuted. *)
Theorem C30_some_sample_stays_partial (z_error z_outlier : R) (xs : seq R) :
  (0 < size xs)%N -> 1 <= z_outlier ->
  exists num_outliers trace error,
    average_column (Fin z_error) (Fin z_outlier) (map (@Fin R) xs) =
      (num_outliers, Fin trace, error) /\ (num_outliers < size xs)%N.
Proof.
  move=> Hs Hz. have [H1|H1] := ltnP 1 (size xs).
  - have Hin := inliers_nonempty H1 Hz. rewrite average_columnE //.
    eexists; eexists; eexists; split; first reflexivity.
    have := size_inliers xs z_outlier. case: (inliers _ _) Hin => //= x l _. lia.
  - case: xs Hs H1 => [|x [|y xs]] // _ _. rewrite /= average_column_one.
      by exists 0%N, x, (nmul (Fin z_error) PInf).
    exact: le_trans ler01 Hz.
Qed.

(** The bound is sharp.  With any quantile below one standard deviation (a
    significance level above about 0.317, which the API accepts as soon as
    confidence_level is below about 0.683), [k] samples 1 and [k] samples -1
    with [k] large enough are all discarded, and the reported value is NaN. *)
Theorem C30_all_discarded_refuted (z_error z_outlier : R) (k : nat) :
  (0 < k)%N -> 0 <= z_outlier -> z_outlier ^+ 2 * (2 * k)%:R < (2 * k).-1%:R ->
  exists error,
  average_column (Fin z_error) (Fin z_outlier)
    (nseq k (Fin 1) ++ nseq k (Fin (-1))) = ((2 * k)%N, NaN, error).
Proof.
  move=> Hk Hz Hlt. pose xs : seq R := nseq k 1 ++ nseq k (-1).
  have Hs : size xs = (2 * k)%N by rewrite size_cat !size_nseq; lia.
  have Em : mean xs = 0.
    rewrite /mean big_cat /= !big_nseq !iter_addr_0 mulNrn.
    by rewrite subrr mul0r.
  have Hk1 : 0 < (2 * k).-1%:R :> R by rewrite ltr0n; lia.
  have Es : std_dev xs = Num.sqrt ((2 * k)%:R / (2 * k).-1%:R).
    rewrite /std_dev Em Hs big_cat /= !big_nseq !subr0 sqrrN expr1n !iter_addr_0.
    by rewrite -natrD addnn -mul2n.
  have Hout : z_outlier * std_dev xs < 1.
    rewrite -(@ltr_pexpn2r _ 2) ?nnegrE // ?ler01 ?mulr_ge0 ?sqrtr_ge0 //.
    rewrite exprMn Es sqr_sqrtr ?divr_ge0 ?ler0n // expr1n mulrA.
    by rewrite ltr_pdivr_mulr // mul1r.
  have Ex : nseq k (Fin 1) ++ nseq k (Fin (-1)) = map (@Fin R) xs.
    by rewrite map_cat !map_nseq.
  rewrite Ex /average_column column_meanE ?column_stdE; try by rewrite Hs; lia.
  rewrite Em size_map.
  set p := is_outlier _ _.
  have Ep x : x \in xs -> p (Fin x).
    move=> Hx. rewrite /p /is_outlier /= subr0.
    have -> : `|x| = 1.
      by move: Hx; rewrite mem_cat => /orP [] /nseqP [-> _]; rewrite ?normrN normr1.
    exact: Hout.
  have Ec : count p (map (@Fin R) xs) = size xs.
    rewrite count_map. apply/eqP. rewrite -all_count. apply/allP => x /Ep. by [].
  have Ef : [seq a <- map (@Fin R) xs | ~~ p a] = [::].
    apply: size0nil. rewrite size_filter.
    have := count_predC p (map (@Fin R) xs).
    by rewrite Ec size_map -[X in _ = X]addn0 => /addnI.
  rewrite Ec Ef Hs.
  eexists. congr (_, _, _). by rewrite /nsub /= subrr eqxx /inf_times eqxx.
Qed.
End C30.

(** ** The hypotheses are met *)
Section Cases.
Let RA := [rcfType of realalg].

Example C27_case :
  let samples : seq (seq (num RA)) := [:: [:: Fin 1; Fin 2%:R]; [:: Fin 1; Fin 3%:R]] in
  let o := @ConvOut RA [:: NaN; NaN] [:: 0%N; 0%N] [:: false; false] in
  [/\ well_shaped samples [:: 1%N; 0%N] 2 2, out_shaped 2 o &
      values samples [:: 1%N; 0%N] 2 1 [:: 3%:R; 2%:R] ].
Proof.
  split; [split=> //|by []|split=> //]; by case=> [|[|i]].
Qed.

Example C27_case_converged :
  let xs : seq RA := [:: 1; 1] in
  (1 < size xs)%N /\ half_width 2%:R xs < Num.max 0 (2%:R^-1 * mean xs).
Proof.
  move=> xs. split=> //. rewrite -[xs]/(nseq 2 1) /half_width std_dev_nseq // mean_cons //.
  by rewrite mulr0 mul0r lt_maxr mulr1 invr_gt0 ltr0n orbT.
Qed.

Example C29_case :
  let xs : seq RA := [:: 1; -1] in
  [/\ (1 < size xs)%N, inliers 1 xs != [::] & perm_eq xs [:: -1; 1] ].
Proof.
  move=> xs. split=> //; first exact: inliers_nonempty.
  by apply/permP => p /=; rewrite !addn0 addnC.
Qed.

Example C30_case : (2%:R^-1 : RA) ^+ 2 * (2 * 1)%:R < (2 * 1).-1%:R.
Proof.
  rewrite expr2 -mulrA mulVf ?pnatr_eq0 // mulr1 invf_lt1 ?ltr0n //.
  by rewrite ltr1n.
Qed.
End Cases.

Print Assumptions C27_convergence_test.
Print Assumptions C27_converged_every_schedule.
Print Assumptions C27_confidence_one.
Print Assumptions C28_relative_tolerance_partial.
Print Assumptions C28_negative_mean_refuted.
Print Assumptions C29_mean_of_inliers.
Print Assumptions C29_order_irrelevant.
Print Assumptions C29_one_sample.
Print Assumptions C29_all_inquiries.
Print Assumptions C30_some_sample_stays_partial.
Print Assumptions C30_all_discarded_refuted.
