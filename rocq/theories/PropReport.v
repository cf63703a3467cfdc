(** * What the caller of the stochastic Lanczos quadrature gets (C68)

    The samples of the C++ code are copied out in the order processed, the
    reported statistics can be recomputed from them, scalars are returned for
    scalar parameters, and the convergence plot shows the running mean. *)
From mathcomp Require Import all_ssreflect all_algebra.
From mathcomp.real_closed Require Import realalg.
From mathcomp Require Import zify.
From Verif Require Import Mem ConvModel ConvSpec ConvProofs ParModel ParProofs ParExec SlqRunModel SlqRunSpec
  HutchRunSpec HutchRunProofs ReportModel ReportSpec ReportProofs PropPar.
From Verif Require PropConv HutchRunModel SlqRunProofs.

Set Implicit Arguments.
Unset Strict Implicit.
Unset Printing Implicit Defensive.

Import Order.TTheory GRing.Theory Num.Theory.
Local Open Scope ring_scope.

(** ** Every schedule *)
Section Parallel.
Variable R : rcfType.
Notation num := (num R).

(** The arrays of the C++ code in state [s] of the sampling loop: the samples,
    the order in which they were processed (filled up with the initial zeros),
    the numbers of samples used. *)
Definition c_samples (mx q : nat) (s : state R) : seq (seq num) :=
  [seq [seq entry_num (cells s i j) | j <- iota 0 q] | i <- iota 0 mx].
Definition c_order (mx : nat) (s : state R) : seq nat := processed s ++ nseq (mx - size (processed s)) 0%N.
Definition c_used (q : nat) (s : state R) : seq nat := [seq used s j | j <- iota 0 q].

Lemma c_at mx q s i j : (i < mx)%N -> (j < q)%N -> at_ (c_samples mx q s) i j = entry_num (cells s i j).
Proof.
  move=> Hi Hj. rewrite /at_ (nth_map 0%N) ?size_iota // nth_iota // add0n.
  by rewrite (nth_map 0%N) ?size_iota // nth_iota.
Qed.

Lemma c_grid mx q s : grid mx q (c_samples mx q s).
Proof.
  split; first by rewrite size_map size_iota. move=> i Hi.
  by rewrite (nth_map 0%N) ?size_iota // size_map size_iota.
Qed.

Lemma c_usedE q s j : (j < q)%N -> nth 0%N (c_used q s) j = used s j.
Proof. move=> Hj. by rewrite (nth_map 0%N) ?size_iota // nth_iota. Qed.

Lemma order_nth mx s i : (i < size (processed s))%N -> nth 0%N (c_order mx s) i = nth 0%N (processed s) i.
Proof. by move=> Hi; rewrite nth_cat Hi. Qed.

Lemma average_summary (z zo : R) xs : let a := average_column (Fin z) (Fin zo) (map (@Fin R) xs) in
  summary z zo xs a.1.2 a.2 a.1.1.
Proof.
  move=> a. rewrite /a. split.
  - move=> H1 H2. have [no [er [-> A _ _ _]]] := PropConv.C29_mean_of_inliers z H1 H2. by [].
  - move=> H1. have H2 : inliers zo xs != [::] by rewrite -size_eq0 -lt0n ltnW.
    have H3 : (1 < size xs)%N by rewrite (leq_trans H1) // size_filter count_size.
    have [no [er [-> _ A _ _]]] := PropConv.C29_mean_of_inliers z H3 H2. exact: A.
  - move=> x -> H1 H2. by rewrite (PropConv.C29_one_sample x H1 H2).
Qed.

(** In every state of the sampling loop, however the threads interleave: the
    copy succeeds; row i of column j of the returned samples is the sample
    processed i-th, for as many as inquiry j used, and not-a-number below; the
    trace, the error and the number of outliers of inquiry j are those of the
    numbers in the returned column.  Missing from the full claim: the case
    refuted by C24. *)
Theorem C68_samples_partial (threads q mn mx : nat) (known : bool)
    (decide : seq (cell R) -> bool) (s : state R) :
  (0 < q)%N -> (~~ known) || (q == 1)%N || (threads == 1)%N ->
  reachable threads q mn known decide mx s ->
  exists2 samples,
    copy_samples mx q (c_samples mx q s) (c_order mx s) (c_used q s) = Some samples &
    (size samples = mx /\ forall i, (i < mx)%N -> size (nth [::] samples i) = q) /\
    forall j, (j < q)%N ->
      (forall i, (i < used s j)%N -> exists x parameters,
         cells s (nth 0%N (processed s) i) j = Val x parameters /\
         nth NaN (nth [::] samples i) j = Fin x) /\
      (forall i, (used s j <= i)%N -> nth NaN (nth [::] samples i) j = NaN) /\
      (size (numbers (col samples j)) = used s j) /\
      forall z zo : R, exists2 result,
        average_estimates (Fin z) (Fin zo) (c_samples mx q s) (c_order mx s) (c_used q s) q 0 = Some result &
        let: (outliers, trace, error) := nth (0%N, NaN, NaN) result j in
        summary z zo (numbers (col samples j)) trace error outliers.
Proof.
  move=> Hq Hg H. have [U1 U2 U3 U4 _] := C23_bookkeeping H.
  have HV := C24_only_computed_partial Hq Hg H.
  have Hlt j i : (i < used s j)%N -> (nth 0%N (processed s) i < mx)%N.
  { move=> Hi. apply: U2. apply: mem_nth. exact: leq_trans Hi (U4 j). }
  have Hval j i : (j < q)%N -> (i < used s j)%N -> exists x parameters,
      cells s (nth 0%N (processed s) i) j = Val x parameters.
  { move=> Hj Hi. apply: HV => //. rewrite -(nth_take _ Hi). apply: mem_nth.
    by rewrite size_takel. }
  have Hord j i : (i < used s j)%N -> nth 0%N (c_order mx s) i = nth 0%N (processed s) i.
  { move=> Hi. apply: order_nth. exact: leq_trans Hi (U4 j). }
  have Hso : size (c_order mx s) = mx by rewrite size_cat size_nseq subnKC.
  have Hx j i : (j < q)%N -> (i < used s j)%N -> exists x,
      at_ (c_samples mx q s) (nth 0%N (c_order mx s) i) j = Fin x /\
      exists parameters, cells s (nth 0%N (processed s) i) j = Val x parameters.
  { move=> Hj Hi. have [x [ps E]] := Hval j i Hj Hi. exists x. rewrite (Hord j) //.
    by rewrite c_at ?(Hlt j) // E; split=> //; exists ps. }
  have [|||m E [G Hm]] := @copy_samplesE R mx q (c_samples mx q s) (c_order mx s) (c_used q s).
  - move=> i j Hj. rewrite c_usedE // => Hi. rewrite (Hord j) //.
    apply: entry_at (c_grid mx q s) _ Hj. exact: Hlt Hi.
  - by rewrite size_map size_iota.
  - move=> j Hj. rewrite c_usedE // Hso. by have := U4 j; split; lia.
  exists m => //. split; first exact: G. move=> j Hj.
  have Ecol : exists2 xs, col m j = map (@Fin R) xs ++ nseq (mx - used s j) NaN &
      size xs = used s j /\ forall i, (i < used s j)%N ->
        at_ (c_samples mx q s) (nth 0%N (c_order mx s) i) j = Fin (nth 0 xs i).
  { pose f i := if at_ (c_samples mx q s) (nth 0%N (c_order mx s) i) j is Fin x then x else 0.
    exists [seq f i | i <- iota 0 (used s j)].
    - apply: col_prefix G _ _; first by have := U4 j; lia.
      move=> i _. rewrite Hm // c_usedE //. case: ltnP => // Hi.
      rewrite /f. by have [x [-> _]] := Hx j i Hj Hi.
    - split; first by rewrite size_map size_iota. move=> i Hi.
      rewrite (nth_map 0%N) ?size_iota // nth_iota // add0n /f. by have [x [-> _]] := Hx j i Hj Hi. }
  split.
  { move=> i Hi. have [x [Ex [ps Ec]]] := Hx j i Hj Hi. exists x, ps. split=> //.
    by have := Hm i j Hj; rewrite /at_ c_usedE // Hi => ->. }
  split.
  { move=> i Hi. have := Hm i j Hj. by rewrite /at_ c_usedE // ltnNge Hi. }
  case: Ecol => xs Exs [Sx Hxs]. rewrite Exs numbers_map. split=> // z zo.
  have Hcol j0 : (j0 < q)%N -> exists k xs0, rd (c_used q s) j0 = Some k /\
      ConvModel.column (c_samples mx q s) (c_order mx s) k j0 = Some xs0.
  { move=> Hj0. exists (used s j0).
    exists [seq at_ (c_samples mx q s) (nth 0%N (c_order mx s) i) j0 | i <- iota 0 (used s j0)].
    split; first by rewrite (rdE 0%N) ?size_map ?size_iota // c_usedE.
    apply/columnP. split; first by rewrite size_map size_iota.
    - rewrite Hso. have := U4 j0. lia.
    - move=> i Hi. rewrite (nth_map 0%N) ?size_iota // nth_iota // add0n.
      apply: entry_at (c_grid mx q s) _ Hj0. rewrite (Hord j0) //. exact: Hlt Hi. }
  have [res [E1 [_ E2]]] := PropConv.C29_all_inquiries (Fin z) (Fin zo) Hcol.
  exists res => //. rewrite (E2 j (used s j) (map (@Fin R) xs)) //.
  - have := average_summary z zo xs. by case: (average_column _ _ _) => [[a b] c].
  - by rewrite (rdE 0%N) ?size_map ?size_iota // c_usedE.
  - apply/columnP. split; first by rewrite size_map.
    + rewrite Hso. have := U4 j. lia.
    + move=> i Hi. rewrite (nth_map 0) ?Sx // -Hxs //.
      apply: entry_at (c_grid mx q s) _ Hj. rewrite (Hord j) //. exact: Hlt Hi.
Qed.
End Parallel.

(** ** One thread *)
Section OneThread.
Variable R : rcfType.
Notation num := (num R).

Lemma select_prefix (samples : seq num) k (f : nat -> R) : (k <= size samples)%N ->
  (forall i, (i < k)%N -> nth NaN samples i = Fin (f i)) ->
  HutchRunModel.select samples (iota 0 k) = Some (map (@Fin R) [seq f i | i <- iota 0 k]).
Proof.
  move=> Hk H. rewrite (@select_map _ _ NaN); last first.
  { apply/allP => i. rewrite mem_iota add0n /= => Hi. exact: leq_trans Hi Hk. }
  congr Some. rewrite -map_comp. apply/eq_in_map => i. rewrite mem_iota add0n /= => Hi. exact: H.
Qed.

(** A run on one thread (its arrays are those of C67): copying out changes
    nothing; the call returns, with a scalar for a scalar parameter (one
    inquiry); and the plot of inquiry j shows the samples of this inquiry. *)
Theorem C68_one_thread (z atol rtol zo : R) (mn mx q : nat) (X : nat -> nat -> R)
    (K : nat -> nat) (r : report R) :
  (0 < q)%N -> (forall j, (j < q)%N -> (0 < K j <= mx)%N) -> reports z atol rtol mn mx q X zo K r ->
  exists2 r', py_report mx q r = Some r' &
    reports z atol rtol mn mx q X zo K r' /\
    forall (eps : num) (is_array : bool), is_array || (q == 1)%N ->
    exists t i, output eps is_array r' = Some (t, i) /\
      forall (z' zo' : R) (j : nat), (j < q)%N ->
      exists2 drawn, plot (Fin z') (Fin zo') i j = Some drawn &
        shows z' zo' (first_samples X j (K j)) drawn.
Proof.
  move=> Hq HK [[Eu [So Ho]] Ec Ea [Ss Hs] [St Se Sn Hsum]].
  have Hord j i : (j < q)%N -> (i < K j)%N -> nth 0%N (rp_order r) i = i.
  { move=> Hj Hi. have := congr1 (fun l => nth 0%N l i) (Ho j Hj). by rewrite nth_take // nth_iota. }
  have Hu j : (j < q)%N -> nth 0%N (rp_used r) j = K j.
  { by move=> Hj; rewrite Eu (nth_map 0%N) ?size_iota // nth_iota. }
  have Hat i j : (j < q)%N -> (i < K j)%N -> at_ (rp_samples r) i j = Fin (X i j).
  { move=> Hj Hi. rewrite /at_ Hs ?Hi //. have := HK j Hj. lia. }
  have [|||m E [G Hm]] := @copy_samplesE R mx q (rp_samples r) (rp_order r) (rp_used r).
  - move=> i j Hj. rewrite Hu // => Hi. rewrite (Hord j) //.
    have Hi' : (i < mx)%N by have := HK j Hj; lia.
    have Hn := Hat i j Hj Hi. rewrite /entry (rdE [::]) ?Ss //= (rdE NaN) //.
    rewrite ltnNge. apply/negP => Hle. by rewrite /at_ nth_default in Hn.
  - by rewrite Eu size_map size_iota.
  - move=> j Hj. rewrite Hu // So. by have := HK j Hj; split; lia.
  have Hm' i j : (j < q)%N -> at_ m i j = if (i < K j)%N then Fin (X i j) else NaN.
  { move=> Hj. rewrite Hm // Hu //. case: ltnP => // Hi. by rewrite (Hord j) // Hat. }
  rewrite /py_report E [obind _ _]/=. eexists; first reflexivity. split.
  { split=> //. split; first by case: G. move=> i j Hi Hj. exact: Hm'. }
  have Hplot samples z' zo' j : (j < q)%N -> size samples = mx ->
      (forall i, (i < K j)%N -> nth NaN samples i = Fin (X i j)) ->
      exists2 drawn, plot_column (Fin z') (Fin zo') samples (rp_order r) (K j) = Some drawn &
        shows z' zo' (first_samples X j (K j)) drawn.
  { move=> Hj Sz Hsm. have /andP [K1 K2] := HK j Hj.
    have Sk : size (first_samples X j (K j)) = K j by rewrite size_map size_iota.
    rewrite -{1}Sk. apply: plot_column_shows; rewrite Sk // Ho //.
    apply: select_prefix => //. by rewrite Sz. }
  have Hcol j : (j < q)%N -> size (col m j) = mx /\
      forall i, (i < K j)%N -> nth NaN (col m j) i = Fin (X i j).
  { move=> Hj. split; first by rewrite size_map; case: G.
    move=> i Hi. have Hi' : (i < mx)%N by have := HK j Hj; lia.
    rewrite (nth_map [::]); last by case: G => ->. by have := Hm' i j Hj; rewrite /at_ Hi. }
  move=> eps [_|/= /eqP Eq1].
  - eexists; eexists; split; first reflexivity. move=> z' zo' j Hj. have [C1 C2] := Hcol j Hj.
    rewrite /plot /= (rdE 0%N) ?Eu ?size_map ?size_iota // -Eu Hu //=. exact: Hplot.
  - have Q1 : rd (rp_error r) 0 = Some (nth NaN (rp_error r) 0) by rewrite (rdE NaN) // Se.
    have Q2 : rd (rp_trace r) 0 = Some (nth NaN (rp_trace r) 0) by rewrite (rdE NaN) // St.
    have Q3 : rd (rp_converged r) 0 = Some (nth false (rp_converged r) 0).
    { by rewrite (rdE false) // Ec size_map size_iota. }
    have Q4 : rd (rp_used r) 0 = Some (K 0%N) by rewrite (rdE 0%N) ?Hu // Eu size_map size_iota.
    have Q5 : rd (rp_outliers r) 0 = Some (nth 0%N (rp_outliers r) 0) by rewrite (rdE 0%N) // Sn.
    rewrite /output [rp_error _]/= [rp_trace _]/= [rp_converged _]/= [rp_used _]/= [rp_outliers _]/=.
    rewrite Q1 Q2 Q3 Q4 Q5 /obind /oapp.
    eexists; eexists; split; first reflexivity. move=> z' zo' j Hj.
    have Ej : j = 0%N by lia. rewrite Ej in Hj *. have [C1 C2] := Hcol 0%N Hj.
    rewrite /plot /=.
    have -> : col [seq [:: x] | x <- col m 0] 0 = col m 0.
    { rewrite /col -map_comp. by rewrite -[RHS]map_id -map_comp. }
    exact: Hplot.
Qed.

(** The two forms of the output: scalars are the entries of inquiry 0; the
    relative error is the absolute error over the magnitude of the trace (plus
    the unit roundoff); the mean of the samples is the trace itself. *)
Theorem C68_shapes (eps : R) (r : report R) (n : nat) : 0 < eps -> (0 < n)%N ->
  [/\ size (rp_trace r) = n, size (rp_error r) = n, size (rp_outliers r) = n,
      size (rp_used r) = n & size (rp_converged r) = n] ->
  exists traces errors ratios converged used outliers samples order flag,
    [/\ output (Fin eps) true r = Some (Many traces,
          Info (Many errors) (Many ratios) (Many converged) flag (Many used) (Many outliers)
               (Mat samples) (Many traces) order),
        output (Fin eps) false r = Some (One (nth NaN traces 0),
          Info (One (nth NaN errors 0)) (One (nth NaN ratios 0)) (One (nth false converged 0)) flag
               (One (nth 0%N used 0)) (One (nth 0%N outliers 0))
               (Vec [seq nth NaN row 0 | row <- samples]) (One (nth NaN traces 0)) order),
        [/\ traces = rp_trace r, errors = rp_error r, converged = rp_converged r,
            used = rp_used r & [/\ outliers = rp_outliers r, samples = rp_samples r, order = rp_order r & flag = rp_all r]],
        size ratios = n &
        forall j e t, (j < n)%N -> nth NaN errors j = Fin e -> nth NaN traces j = Fin t ->
          nth NaN ratios j = Fin (e / (`|t| + eps))].
Proof.
  move=> He Hn [S1 S2 S3 S4 S5].
  pose ratios := [seq relative_error (Fin eps) x.1 x.2 | x <- zip (rp_error r) (rp_trace r)].
  have Sz : size (zip (rp_error r) (rp_trace r)) = n by rewrite size_zip S1 S2 minnn.
  have Hr j : (j < n)%N ->
      nth NaN ratios j = relative_error (Fin eps) (nth NaN (rp_error r) j) (nth NaN (rp_trace r) j).
  { by move=> Hj; rewrite (nth_map (NaN, NaN)) ?Sz // nth_zip ?S1 ?S2. }
  exists (rp_trace r), (rp_error r), ratios, (rp_converged r), (rp_used r), (rp_outliers r), (rp_samples r),
    (rp_order r), (rp_all r). split=> //.
  - have Q1 : rd (rp_error r) 0 = Some (nth NaN (rp_error r) 0) by rewrite (rdE NaN) // S2.
    have Q2 : rd (rp_trace r) 0 = Some (nth NaN (rp_trace r) 0) by rewrite (rdE NaN) // S1.
    have Q3 : rd (rp_converged r) 0 = Some (nth false (rp_converged r) 0) by rewrite (rdE false) // S5.
    have Q4 : rd (rp_used r) 0 = Some (nth 0%N (rp_used r) 0) by rewrite (rdE 0%N) // S4.
    have Q5 : rd (rp_outliers r) 0 = Some (nth 0%N (rp_outliers r) 0) by rewrite (rdE 0%N) // S3.
    by rewrite /output Q1 Q2 Q3 Q4 Q5 /obind /oapp Hr.
  - by rewrite size_map.
  - move=> j e t Hj Ee Et. rewrite Hr // Ee Et /relative_error /=.
    by rewrite gt_eqF // ltr_spaddr.
Qed.
End OneThread.

(** ** The plot of a run on several threads *)
Section Plot.
Variable R : rcfType.
Notation num := (num R).

(** If the samples processed first are the first samples (in any order), the
    plot shows the samples of the result, in some order: the last mean is the
    right one.  Missing from the full claim: other processing orders (refuted
    below), and the order of the points. *)
Theorem C68_plot_partial (threads q mn mx : nat) (known : bool)
    (decide : seq (cell R) -> bool) (s : state R) samples (z zo : R) (j : nat) :
  (0 < q)%N -> (~~ known) || (q == 1)%N || (threads == 1)%N ->
  reachable threads q mn known decide mx s ->
  copy_samples mx q (c_samples mx q s) (c_order mx s) (c_used q s) = Some samples ->
  (j < q)%N -> (0 < used s j)%N ->
  perm_eq (take (used s j) (processed s)) (iota 0 (used s j)) ->
  exists2 drawn, plot_column (Fin z) (Fin zo) (col samples j) (c_order mx s) (used s j) = Some drawn &
    exists2 ys, perm_eq ys (numbers (col samples j)) & shows z zo ys drawn.
Proof.
  move=> Hq Hg H Ecopy Hj Hpos Hp. have [_ _ U3 U4 _] := C23_bookkeeping H.
  have [m E [G Hm]] := C68_samples_partial Hq Hg H. rewrite E in Ecopy. case: Ecopy => Em.
  rewrite -{}Em. have [M1 [M2 [M3 _]]] := Hm j Hj.
  set k := used s j in M1 M2 M3 Hpos Hp *.
  have Hk : (k <= mx)%N by have := U4 j; rewrite -/k; lia.
  pose f i := if nth NaN (nth [::] m i) j is Fin x then x else 0.
  have Ecol : col m j = map (@Fin R) [seq f i | i <- iota 0 k] ++ nseq (mx - k) NaN.
  { apply: col_prefix G Hk _ => i _. rewrite /at_ /f. case: ltnP => Hi; last exact: M2.
    by have [x [ps [_ ->]]] := M1 i Hi. }
  have Eord : take k (c_order mx s) = take k (processed s).
  { rewrite /c_order takel_cat //. exact: U4. }
  set xs := [seq f i | i <- iota 0 k] in Ecol.
  have Sx : size xs = k by rewrite size_map size_iota.
  set ys := [seq nth 0 xs o | o <- take k (processed s)].
  have Sy : size ys = k by rewrite size_map (perm_size Hp) size_iota.
  have Py : perm_eq ys xs.
  { apply: perm_trans (perm_map (nth 0 xs) Hp) _. rewrite -{1}Sx. by rewrite -/(mkseq _ _) mkseq_nth. }
  have [||drawn E1 E2] := @plot_column_shows R z zo (col m j) (c_order mx s) ys; rewrite ?Sy //.
  - rewrite Eord (@select_map _ _ NaN); last first.
    { apply/allP => o. rewrite (perm_mem Hp) mem_iota add0n /= => Ho.
      rewrite Ecol size_cat !size_map size_iota size_nseq. lia. }
    congr Some. rewrite /ys -map_comp. apply/eq_in_map => o.
    rewrite (perm_mem Hp) mem_iota add0n /= => Ho.
    by rewrite Ecol nth_cat size_map Sx Ho (nth_map 0) ?Sx.
  - exists drawn; first by rewrite -E1 Sy. exists ys => //. by rewrite Ecol numbers_map.
Qed.

(** The error drawn over the last abscissa, when no sample is an outlier: the
    half width with the deviation of the population, not of the sample. *)
Lemma pop_std_sample (xs : seq R) : (1 < size xs)%N ->
  pop_std xs = std_dev xs * Num.sqrt ((size xs).-1%:R / (size xs)%:R).
Proof.
  move=> H. rewrite /pop_std /std_dev. set S := \sum_(x <- xs) _.
  have H0 : (size xs).-1%:R != 0 :> R by rewrite pnatr_eq0; lia.
  rewrite -sqrtrM; last by rewrite divr_ge0 ?ler0n ?sum_sq_ge0.
  by rewrite mulrA mulfVK.
Qed.

Theorem C68_last_point (z zo : R) (xs : seq R) drawn : (1 < size xs)%N ->
  (forall x, x \in xs -> `|x - mean xs| <= zo * pop_std xs) -> shows z zo xs drawn ->
  exists rel, last (NaN, NaN, NaN) drawn.2 =
    (Fin (mean xs), Fin (half_width z xs * Num.sqrt ((size xs).-1%:R / (size xs)%:R)), rel).
Proof.
  move=> H Hall [_ S2 Hs]. have Hi : ((size xs).-1 < size xs)%N by lia.
  have [_ [rel [E _]]] := Hs _ Hi. exists rel.
  rewrite -nth_last S2 E prednK; last by lia. rewrite take_size.
  have -> : [seq x <- xs | near zo xs x] = xs.
  { rewrite -[RHS](@filter_predT _ xs). apply: eq_in_filter => x Hx. exact: Hall. }
  case Ex: xs H => [//|x0 xs0] H. rewrite -Ex in H *.
  by rewrite (pop_std_sample H) /half_width mulrA mulrAC.
Qed.

(** So whenever the samples differ, the band drawn at the end is narrower than
    the absolute error reported. *)
Theorem C68_plot_error_refuted (z zo : R) (xs : seq R) drawn : 0 < z -> (1 < size xs)%N ->
  0 < std_dev xs ->
  (forall x, x \in xs -> `|x - mean xs| <= zo * pop_std xs) -> shows z zo xs drawn ->
  exists width rel, last (NaN, NaN, NaN) drawn.2 = (Fin (mean xs), Fin width, rel) /\
    width < half_width z xs.
Proof.
  move=> Hz H Hd Hall Hs. have [rel E] := C68_last_point H Hall Hs.
  eexists; exists rel; split; first exact: E.
  have Hw : 0 < half_width z xs.
  { rewrite /half_width divr_gt0 ?mulr_gt0 // sqrtr_gt0 ltr0n. lia. }
  rewrite -[X in _ < X]mulr1 ltr_pmul2l //.
  rewrite -[X in _ < X]sqrtr1 ltr_sqrt ?ltr01 //.
  rewrite ltr_pdivr_mulr ?mul1r ?ltr_nat ?ltr0n; lia.
Qed.
End Plot.

(** ** The plot takes the wrong samples *)
Section Schedule.
Variable V : Type.
Definition late_schedule (x y : V) : seq (act V) :=
  nseq 3 (Go V 0) ++ [:: More V 0] ++
  nseq 3 (Go V 1) ++ [:: More V 1] ++ nseq 2 (Go V 1) ++ [:: Store 1 x] ++ nseq 4 (Go V 1) ++
  nseq 3 (Go V 1) ++ [:: More V 1] ++ nseq 2 (Go V 1) ++ [:: Store 1 y] ++ nseq 2 (Go V 1) ++
  [:: Test_is V 1 true] ++ nseq 3 (Go V 1) ++ nseq 9 (Go V 0).

Definition late_state (x y : V) : state V :=
  odflt (init V 3) (omap fst (exec 2 1 2 false (late_schedule x y) (init V 3))).

Lemma late_run x y : exec 2 1 2 false (late_schedule x y) (init V 3) =
  Some (late_state x y, [:: ([:: Val x [:: 0%N]; Val y [:: 0%N]], true)]).
Proof. apply: exec_split. by vm_compute. Qed.

Lemma late_reachable x y decide : decide [:: Val x [:: 0%N]; Val y [:: 0%N]] = true ->
  reachable 2 1 2 false decide 3 (late_state x y).
Proof. move=> H. apply: exec_steps (late_run x y) _. by split. Qed.

Lemma late_end x y : let s := late_state x y in
  [/\ todo s = [::], pcs s 0 = Idle, pcs s 1 = Idle, used s 0 = 2%N & processed s = [:: 1; 2; 0]%N ] /\
  [seq cells s i 0 | i <- [:: 0; 1; 2]%N ] = [:: Unwritten; Val x [:: 0%N]; Val y [:: 0%N] ].
Proof. by vm_compute. Qed.
End Schedule.

Section Refuted.
Variable R : rcfType.

Lemma mean13 : mean [:: 1; 3%:R] = 2%:R :> R.
Proof.
  rewrite /mean !big_cons big_nil addr0 /=. apply: (mulIf (_ : (2%:R : R) != 0)); first by rewrite pnatr_eq0.
  by rewrite mulfVK ?pnatr_eq0 // -natrM -mulrS.
Qed.

Lemma std13 : std_dev [:: 1; 3%:R] = Num.sqrt 2%:R :> R.
Proof.
  rewrite /std_dev mean13 !big_cons big_nil addr0 /= divr1. congr Num.sqrt.
  have -> : (3%:R : R) - 2%:R = 1 by rewrite (natrD _ 1 2) addrK.
  have -> : (1 : R) - 2%:R = -1 by rewrite (natrD _ 1 1) opprD addrA subrr add0r.
  by rewrite sqrrN expr1n.
Qed.

(** Two threads, samples 1, 2, 0 processed in this order with values 1, 3 for
    samples 1, 2, both used by the only inquiry: the returned samples are 1, 3
    and the returned trace is 2.  The plot applies the processing order once
    more to the returned samples: it draws the sample 3 only. *)
Theorem C68_plot_order_refuted (z atol rtol zo : R) : 0 <= z < atol -> 1 <= zo ->
  exists (s : state R) samples result drawn,
    [/\ reachable 2 1 2 false (implemented_test z atol rtol) 3 s /\ finished 2 s,
        copy_samples 3 1 (c_samples 3 1 s) (c_order 3 s) (c_used 1 s) = Some samples /\
        numbers (col samples 0) = [:: 1; 3%:R],
        average_estimates (Fin z) (Fin zo) (c_samples 3 1 s) (c_order 3 s) (c_used 1 s) 1 0 = Some result /\
        (nth (0%N, NaN, NaN) result 0).1.2 = Fin 2%:R,
        plot_column (Fin z) (Fin zo) (col samples 0) (c_order 3 s) (used s 0) = Some drawn &
        [seq p.1.1 | p <- drawn.2] = [:: Fin 3%:R; Fin 3%:R] ].
Proof.
  move=> /andP [Hz Hza] Hzo. have [[E1 E2 E3 E4 E5] E6] := late_end (1 : R) 3%:R.
  have E0 : reachable 2 1 2 false (implemented_test z atol rtol) 3 (late_state (1 : R) 3%:R).
  { apply: late_reachable. rewrite /implemented_test /=.
    have := @column_convergedE R z atol rtol [:: 1; 3%:R] isT. rewrite /= => ->.
    have Hs2 : Num.sqrt 2%:R != 0 :> R by rewrite sqrtr_eq0 -ltNge ltr0n.
    have -> : half_width z [:: 1; 3%:R] = z by rewrite /half_width std13; exact: mulfK.
    by rewrite lt_maxr Hza. }
  move: (late_state (1 : R) 3%:R) E0 E1 E2 E3 E4 E5 E6 => s E0 E1 E2 E3 E4 E5 [E6 E7 E8].
  have Hfin : finished 2 s by split=> //; case=> [|[|t]].
  have Ec : c_samples 3 1 s = [:: [:: NaN]; [:: Fin 1]; [:: Fin 3%:R] ].
  { by rewrite /c_samples /= E6 E7 E8. }
  have Eo : c_order 3 s = [:: 1; 2; 0]%N by rewrite /c_order E5.
  have Eu : c_used 1 s = [:: 2%N] by rewrite /c_used /= E4.
  have Hin : inliers zo [:: 1; 3%:R] = [:: 1; 3%:R] :> seq R.
  { rewrite -[RHS](@filter_predT _ [:: 1; 3%:R]). apply: eq_in_filter => x.
    rewrite mean13 std13 !inE => /orP Hx.
    have -> : `|x - 2%:R| = 1.
    { case: Hx => /eqP ->.
      - have -> : (1 : R) - 2%:R = -1 by rewrite (natrD _ 1 1) opprD addrA subrr add0r.
        by rewrite normrN1.
      - have -> : (3%:R : R) - 2%:R = 1 by rewrite (natrD _ 1 2) addrK.
        by rewrite normr1. }
    have H2 : 1 <= Num.sqrt 2%:R :> R by rewrite -[X in X <= _]sqrtr1 ler_wsqrtr // ler1n.
    by rewrite -[X in X <= _]mulr1 ler_pmul. }
  exists s, [:: [:: Fin 1]; [:: Fin 3%:R]; [:: NaN] ].
  have Ecopy : copy_samples 3 1 (c_samples 3 1 s) (c_order 3 s) (c_used 1 s) =
      Some [:: [:: Fin 1]; [:: Fin 3%:R]; [:: NaN] ] by rewrite Ec Eo Eu.
  have [a [b [Ea _ _ _ _]]] : exists a b, 
      [/\ average_column (Fin z) (Fin zo) (map (@Fin R) [:: 1; 3%:R]) = (a, Fin 2%:R, b), True, True, True & True].
  { have Hne : inliers zo [:: 1; 3%:R] != [::] :> seq R by rewrite Hin.
    have [a [b [E _ _ _ _]]] := @PropConv.C29_mean_of_inliers R z zo [:: 1; 3%:R] isT Hne.
    exists a, b. rewrite E Hin mean13. by split. }
  exists [:: (a, Fin 2%:R, b)].
  have Hm : HutchRunModel.np_mean [:: Fin (3%:R : R)] = Fin 3%:R.
  { have := @np_meanE R [:: 3%:R] isT. by rewrite /= => ->; rewrite /mean big_seq1 /= divr1. }
  have Hsd : HutchRunModel.np_std [:: Fin (3%:R : R)] = Fin 0.
  { have := @np_stdE R [:: 3%:R] isT. rewrite /= => ->.
    by rewrite /pop_std /mean !big_seq1 /= !divr1 subrr expr0n sqrtr0. }
  have Epl : exists2 drawn, plot_column (Fin z) (Fin zo) [:: Fin 1; Fin 3%:R; NaN] [:: 1; 2; 0]%N 2 = Some drawn &
      [seq p.1.1 | p <- drawn.2] = [:: Fin (3%:R : R); Fin 3%:R].
  { rewrite /plot_column /remove_outliers [HutchRunModel.select _ _]/=.
    rewrite /obind /oapp /nanmean /nanstd.
    have -> : not_nan [:: Fin (3%:R : R); NaN] = [:: Fin 3%:R] by [].
    rewrite Hm Hsd.
    have -> : [seq if nlt (nmul (Fin zo) (Fin 0)) (nabs (nsub x (Fin 3%:R))) then NaN else x
               | x <- [:: Fin 1; Fin (3%:R : R); NaN] ] = [:: NaN; Fin 3%:R; NaN].
    { rewrite /= mulr0 subrr normr0 ltxx.
      have -> : (1 : R) - 3%:R = - 2%:R by rewrite (natrD _ 1 2) opprD addrA subrr add0r.
      by rewrite normrN normr_nat ltr0n. }
    have C i chosen : HutchRunModel.select [:: NaN; Fin (3%:R : R); NaN] (take i.+1 [:: 1; 2; 0]%N) = Some chosen ->
        not_nan chosen = [:: Fin 3%:R] -> exists a b,
        cumulative (Fin z) [:: NaN; Fin 3%:R; NaN] [:: 1; 2; 0]%N i = Some (Fin 3%:R, a, b).
    { move=> E En. rewrite /cumulative E /obind /oapp En [size _ == _]/=. cbv iota.
      rewrite /nanmean. have -> : not_nan [:: Fin (3%:R : R)] = [:: Fin 3%:R] by []. rewrite Hm. by eexists; eexists. }
    have [a0 [b0 C0]] := C 0%N _ erefl erefl. have [a1 [b1 C1]] := C 1%N _ erefl erefl.
    rewrite /cumulatives C0 C1 [HutchRunModel.select _ _]/= /obind /oapp. by eexists. }
  case: Epl => drawn Ed1 Ed2. exists drawn. split=> //.
  - split=> //. by rewrite Ec Eo Eu /= Ea.
  - by rewrite E4 Eo.
Qed.
End Refuted.

(** ** The hypotheses are met *)

(** Any samples, two inquiries: there are arrays as left by a run. *)
Example C68_one_thread_case (R : rcfType) (X : nat -> nat -> R) :
  exists K (r : report R),
    (forall j, (j < 2)%N -> (0 < K j <= 5)%N) /\ reports 1 1 1 3 5 2 X 1 K r.
Proof.
  have H5 : (0 < 5)%N by []. have H2 : (0 < 2)%N by [].
  eexists; eexists; split; last exact: (SlqRunProofs.final_reports 3 1 1 1 H2 ler01 false X H5).
  move=> j Hj. by have [] := SlqRunProofs.each_stops 3 1 1 H2 (@ler01 R) X H5 (isT : ~~ false) Hj.
Qed.

(** Two threads: samples 0 and 1 used by the only inquiry, all conditions of
    C68_samples_partial and C68_plot_partial met. *)
Example C68_plot_case (R : rcfType) (z rtol : R) : 0 < rtol ->
  exists s : state R,
    [/\ reachable 2 1 2 false (implemented_test z 0 rtol) 5 s, used s 0 = 2%N &
        perm_eq (take (used s 0) (processed s)) (iota 0 (used s 0))].
Proof.
  move=> Hr. pose e := exec 2 1 2 false (stop_schedule (1 : R)) (init R 5).
  pose s := odflt (init R 5) (omap fst e). exists s.
  have Es : [/\ used s 0 = 2%N & processed s = [:: 0; 1]%N] by vm_compute.
  case: Es => E1 E2. rewrite E1 E2. split=> //.
  have E : e = Some (s, [:: ([:: Val 1 [:: 0%N]; Val 1 [:: 0%N] ], true)]).
  { apply: exec_split. by vm_compute. }
  apply: exec_steps E _. split=> //. exact: (@positive_column R z rtol _ 2 Hr).
Qed.

(** The samples 1 and 3 drawn: the band is narrower than the error reported. *)
Example C68_plot_error_case (R : rcfType) : exists drawn,
  [/\ shows (1 : R) 2%:R [:: 1; 3%:R] drawn, 0 < std_dev [:: 1; 3%:R] :> R &
      forall x, x \in [:: 1; 3%:R] -> `|x - mean [:: 1; 3%:R]| <= 2%:R * pop_std [:: 1; 3%:R] :> R].
Proof.
  have [//||drawn _ H] := @plot_column_shows R 1 2%:R [:: Fin 1; Fin 3%:R] [:: 0; 1]%N [:: 1; 3%:R].
  { by []. }
  exists drawn. split=> //; first by rewrite std13 sqrtr_gt0 ltr0n.
  have -> : pop_std [:: 1; 3%:R] = 1 :> R.
  { rewrite (@pop_std_sample R [:: 1; 3%:R]) // std13 -sqrtrM ?ler0n // mulrA mulr1 divff ?pnatr_eq0 //.
    exact: sqrtr1. }
  move=> x. rewrite mean13 mulr1 !inE => /orP [/eqP ->|/eqP ->].
  - have -> : (1 : R) - 2%:R = -1 by rewrite (natrD _ 1 1) opprD addrA subrr add0r.
    by rewrite normrN1 ler1n.
  - have -> : (3%:R : R) - 2%:R = 1 by rewrite (natrD _ 1 2) addrK.
    by rewrite normr1 ler1n.
Qed.

Definition C68_assumptions := (@C68_samples_partial, @C68_one_thread, @C68_shapes, @C68_plot_partial,
  @C68_last_point, @C68_plot_error_refuted, @C68_plot_order_refuted).
Print Assumptions C68_assumptions.
