(** * Properties of the parallel sampling loop (C23-C26)

    The executions are those of ParModel: any number of threads, any
    interleaving of their shared-memory accesses, any sample values, any
    outcome of the column test.  [processed s] are the recorded sample
    indices, [used s j] is the number of samples result [j] uses,
    [cells s i j] is the stored sample [i] of inquiry [j], [conv s j] the
    converged flag. *)
From mathcomp Require Import all_ssreflect all_algebra.
From mathcomp.real_closed Require Import realalg.
From mathcomp Require Import zify.
From Verif Require Import Mem ConvModel ConvSpec ConvProofs ParModel ParProofs ParExec.

Set Implicit Arguments.
Unset Strict Implicit.
Unset Printing Implicit Defensive.

(** ** C23 *)
Theorem C23_bookkeeping (V : Type) (threads q min_num_samples max_num_samples : nat)
    (known : bool) (decide : seq (cell V) -> bool) (s : state V) :
  reachable threads q min_num_samples known decide max_num_samples s ->
  [/\ uniq (processed s),
      (forall i, i \in processed s -> i < max_num_samples),
      size (processed s) <= max_num_samples,
      (forall j, used s j <= size (processed s)) &
      finished threads s -> min_num_samples <= max_num_samples ->
        min_num_samples <= size (processed s) /\
        forall j, j < q -> min_num_samples <= used s j].
Proof.
  move=> H. have [HL HA HU] := reachable_LAU H.
  have Hlt := a_proc_lt HA.
  have Hsub : {subset processed s <= iota 0 max_num_samples}.
    by move=> i /Hlt; rewrite mem_iota.
  split=> //; first exact: (a_proc HA).
  - by have := uniq_leq_size (a_proc HA) Hsub; rewrite size_iota.
  - exact: (u_le HU).
  - case=> Htodo Hidle Hm.
    have Hsz : min_num_samples <= size (processed s).
      case: (a_cover HA) => // Hc. apply: leq_trans Hm _.
      rewrite -[max_num_samples](size_iota 0). apply: uniq_leq_size; first exact: iota_uniq.
      move=> i. rewrite mem_iota add0n => /= Hi.
      have [|//|[t Ht]] := Hc i Hi; first by rewrite Htodo.
      by rewrite Hidle.
    split=> // j Hj. have [//|[t [i [j0 [Ht E _]]]]] := u_ge HU Hj Hsz.
    by rewrite Hidle in E.
Qed.
Print Assumptions C23_bookkeeping.

(** ** C24 *)

(** Every entry behind the result of inquiry [j] has been stored.  What is
    missing from the full claim: operators whose eigenvalue relation is used
    for several inquiries, on more than one thread -- refuted below. *)
Theorem C24_only_computed_partial (V : Type)
    (threads q min_num_samples max_num_samples : nat)
    (known : bool) (decide : seq (cell V) -> bool) (s : state V) :
  0 < q -> (~~ known) || (q == 1) || (threads == 1) ->
  reachable threads q min_num_samples known decide max_num_samples s ->
  forall i j, j < q -> i \in take (used s j) (processed s) ->
  exists x parameters, cells s i j = Val x parameters.
Proof.
  move=> Hq Hk H i j Hj Hi.
  suff: is_val (cells s i j) by case: (cells s i j) => // x ps _; exists x, ps.
  case Hs: (shifts q known); last first.
    have [_ _ _ HB] := invs_reachable (negbT Hs) Hq H. exact: b_used HB _ _ Hj Hi.
  have Ht : threads = 1.
    case/andP: Hs Hk => -> Hq1 /=. lia.
  apply: (i1_proc (inv1_reachable Ht Hs H)) => //. exact: mem_take Hi.
Qed.
Print Assumptions C24_only_computed_partial.

(** The column test as implemented, on stored entries. *)
Definition entry_num (R : rcfType) (c : cell R) : num R :=
  if c is Val x _ then Fin x else NaN.

Definition implemented_test (R : rcfType) (z atol rtol : R) (cs : seq (cell R)) : bool :=
  column_converged (Fin z) (Fin atol) (Fin rtol) [seq entry_num c | c <- cs].

Section Witness.
Import Order.TTheory GRing.Theory Num.Theory.
Local Open Scope ring_scope.
Variable R : rcfType.
Implicit Types (z rtol : R).

(** Equal samples have no scatter: they converge iff the mean is positive. *)
Lemma constant_column z (rtol : R) (x : R) (cs : seq (cell R)) k :
  [seq entry_num c | c <- cs] = map (@Fin R) (nseq k x) -> (1 < k)%N ->
  implemented_test z 0 rtol cs = (0 < Num.max 0 (rtol * x)).
Proof.
  move=> E Hk. rewrite /implemented_test E column_convergedE ?size_nseq //.
  rewrite mean_cons; last exact: ltn_trans Hk.
  rewrite /half_width std_dev_nseq; last exact: ltn_trans Hk.
  by rewrite mulr0 mul0r.
Qed.

Lemma positive_column z rtol (cs : seq (cell R)) k : 0 < rtol ->
  [seq entry_num c | c <- cs] = map (@Fin R) (nseq k 1) -> (1 < k)%N ->
  implemented_test z 0 rtol cs = true.
Proof.
  move=> Hr E Hk. rewrite (constant_column z rtol E Hk).
  by rewrite mulr1 lt_maxr Hr orbT.
Qed.

Lemma negative_column z rtol (cs : seq (cell R)) k : 0 < rtol ->
  [seq entry_num c | c <- cs] = map (@Fin R) (nseq k (-1)) -> (1 < k)%N ->
  implemented_test z 0 rtol cs = false.
Proof.
  move=> Hr E Hk. rewrite (constant_column z rtol E Hk).
  by rewrite lt_maxr ltxx /= mulrN1 oppr_gt0 ltNge (ltW Hr).
Qed.

Lemma nan_column z rtol (cs : seq (cell R)) i : (1 < size cs)%N -> (i < size cs)%N ->
  nth Unwritten cs i = Unwritten -> implemented_test z 0 rtol cs = false.
Proof.
  move=> Hs Hi E. rewrite /implemented_test.
  apply: (@column_converged_NaN R _ _ _ _ NaN i); rewrite ?size_map //.
  by rewrite (nth_map Unwritten) // E.
Qed.
End Witness.

Section Schedules.
Variable V : Type.
Local Notation GA := (Go V 0).
Local Notation GB := (Go V 1).
Local Notation A n := (nseq n GA).
Local Notation B n := (nseq n GB).
Local Notation MA := [:: More V 0].
Local Notation MB := [:: More V 1].

Lemma exec_split threads q m known l s0 (obl : seq (seq (cell V) * bool)) :
  omap snd (exec threads q m known l s0) = Some obl ->
  exec threads q m known l s0 =
  Some (odflt s0 (omap fst (exec threads q m known l s0)), obl).
Proof. by case: exec => //= [[s o]] /= [->]. Qed.

(** Two threads, eigenvalue relation known, two inquiries.  Thread 1 resets
    the flags for sample 2; thread 0 then records sample 1, on which inquiry 0
    converges; thread 1 therefore skips inquiry 0 of sample 2; sample 3 resets
    the flags again, and now sample 2 counts for inquiry 0. *)
Definition racy_schedule (x y : V) : seq (act V) :=
  A 3 ++ MA ++ A 5 ++ [:: Store 0 x; Store 0 y] ++ A 5 ++
  A 3 ++ MA ++ A 2 ++ B 3 ++ MB ++ B 2 ++ A 3 ++ B 3 ++
  [:: Store 0 x; Store 0 y] ++ A 2 ++ [:: Test_is V 0 true; Test_is V 0 false] ++ A 3 ++
  B 1 ++ [:: Store 1 y] ++ B 3 ++ [:: Test_is V 1 false] ++ B 3 ++
  A 3 ++ MA ++ A 5 ++ [:: Store 0 x; Store 0 y] ++ A 2 ++
  [:: Test_is V 0 false; Test_is V 0 false] ++ A 2.

Definition racy_state (x y : V) : state V :=
  odflt (init V 4) (omap fst (exec 2 2 2 true (racy_schedule x y) (init V 4))).

Lemma racy_run x y : let v := Val x [:: 0] in let w := Val y [:: 0] in
  exec 2 2 2 true (racy_schedule x y) (init V 4) =
  Some (racy_state x y,
    [:: ([:: v; v], true); ([:: w; w], false); ([:: w; w; w], false);
        ([:: v; v; Unwritten; v], false); ([:: w; w; w; w], false)]).
Proof.
  move=> v w. apply: exec_split. by vm_compute.
Qed.

Lemma racy_reachable x y decide :
  let v := Val x [:: 0] in let w := Val y [:: 0] in
  decide [:: v; v] = true -> decide [:: w; w] = false -> decide [:: w; w; w] = false ->
  decide [:: v; v; Unwritten; v] = false -> decide [:: w; w; w; w] = false ->
  reachable 2 2 2 true decide 4 (racy_state x y).
Proof.
  move=> v w H1 H2 H3 H4 H5. apply: exec_steps (racy_run x y) _.
  by do ! (split; first by []).
Qed.

Lemma racy_end x y : let s := racy_state x y in
  [/\ todo s = [::], pcs s 0 = Idle, pcs s 1 = Idle, used s 0 = 4 &
      processed s = [:: 0; 1; 2; 3]] /\
  [seq cells s i 0 | i <- [:: 0; 1; 2; 3]] =
  [:: Val x [:: 0]; Val x [:: 0]; Unwritten; Val x [:: 0] ].
Proof. by vm_compute. Qed.

(** Two threads, no eigenvalue relation, two inquiries: thread 1 sets the
    parameters of inquiry 1 while thread 0 is multiplying for inquiry 0. *)
Definition parameter_race (x : V) : seq (act V) :=
  A 3 ++ B 3 ++ MB ++ B 2 ++ MA ++ A 2 ++ MA ++ A 2 ++ MB ++ B 2 ++
  [:: Store 0 x; Store 0 x] ++ A 5 ++ [:: Store 1 x; Store 1 x] ++ B 2 ++
  [:: Test_is V 1 false; Test_is V 1 false] ++ B 2.

Definition parameter_race_state (x : V) : state V :=
  odflt (init V 2) (omap fst (exec 2 2 2 false (parameter_race x) (init V 2))).

Lemma parameter_race_run x :
  exec 2 2 2 false (parameter_race x) (init V 2) =
  Some (parameter_race_state x,
    [:: ([:: Val x [:: 1]; Val x [:: 0]], false);
        ([:: Val x [:: 1]; Val x [:: 1]], false)]).
Proof. apply: exec_split. by vm_compute. Qed.

Lemma parameter_race_reachable x decide :
  decide [:: Val x [:: 1]; Val x [:: 0]] = false ->
  decide [:: Val x [:: 1]; Val x [:: 1]] = false ->
  reachable 2 2 2 false decide 2 (parameter_race_state x).
Proof.
  move=> H1 H2. apply: exec_steps (parameter_race_run x) _.
  by do ! (split; first by []).
Qed.

Lemma parameter_race_end x : let s := parameter_race_state x in
  [/\ todo s = [::], pcs s 0 = Idle, pcs s 1 = Idle, used s 0 = 2 &
      processed s = [:: 0; 1] ] /\ cells s 0 0 = Val x [:: 1].
Proof. by vm_compute. Qed.

(** Two threads, one inquiry, tolerance met at the second sample while the
    other thread is still running. *)
Definition stop_schedule (x : V) : seq (act V) :=
  A 3 ++ MA ++ A 2 ++ [:: Store 0 x] ++ A 4 ++
  A 3 ++ MA ++ A 2 ++ B 3 ++ MB ++ B 1 ++ [:: Store 0 x] ++ A 2 ++
  [:: Test_is V 0 true] ++ A 3.
End Schedules.

Section Witnesses.
Import Order.TTheory GRing.Theory Num.Theory.
Local Open Scope ring_scope.

(** With the implemented test there is an execution in which the finished
    result of inquiry 0 uses an entry that was never written, and its mean is
    NaN. *)
Theorem C24_race_refuted (R : rcfType) (z rtol : R) : 0 < rtol ->
  exists s : state R,
    [/\ reachable 2 2 2 true (implemented_test z 0 rtol) 4 s, finished 2 s,
        2%N \in take (used s 0) (processed s), cells s 2 0 = Unwritten &
        column_mean [seq entry_num (cells s i 0) | i <- take (used s 0) (processed s)]
          = NaN].
Proof.
  move=> Hr. have [[E1 E2 E3 E4 E5] E6] := racy_end (1 : R) (-1).
  have E0 : reachable 2 2 2 true (implemented_test z 0 rtol) 4 (racy_state (1 : R) (-1)).
    apply: racy_reachable.
    - exact: (@positive_column R z rtol _ 2 Hr).
    - exact: (@negative_column R z rtol _ 2 Hr).
    - exact: (@negative_column R z rtol _ 3 Hr).
    - exact: (@nan_column R z rtol _ 2).
    - exact: (@negative_column R z rtol _ 4 Hr).
  move: (racy_state (1 : R) (-1)) E0 E1 E2 E3 E4 E5 E6 => s E0 E1 E2 E3 E4 E5 E6.
  exists s. rewrite E4 E5.
  have E7 : cells s 2 0 = Unwritten by case: E6.
  split=> //.
  - by split=> //; case=> [|[|t]].
  - by rewrite (map_comp (@entry_num R) (fun i => cells _ i 0)) E6.
Qed.
Print Assumptions C24_race_refuted.
End Witnesses.

(** ** C25 *)

(** With one thread, or when only one inquiry is iterated (one inquiry, or a
    known eigenvalue relation, where the other inquiries are derived from
    inquiry 0), every stored sample of inquiry [j] was computed with the
    parameters of the right inquiry in every product.  What is missing from
    the full claim: several inquiries without eigenvalue relation on several
    threads -- refuted below. *)
Theorem C25_own_parameter_partial (V : Type)
    (threads q min_num_samples max_num_samples : nat)
    (known : bool) (decide : seq (cell V) -> bool) (s : state V) :
  (threads == 1) || known || (q == 1) ->
  reachable threads q min_num_samples known decide max_num_samples s ->
  forall i j x parameters p, cells s i j = Val x parameters -> p \in parameters ->
  p = if known then 0 else j.
Proof.
  move=> Hk H i j x ps p E Hp.
  have Hs : (threads <= 1) || (required q known <= 1).
    case/orP: Hk => [/orP [/eqP ->//|Hk]|/eqP ->]; rewrite /required ?Hk ?orbT //.
    by case: known {H}; rewrite orbT.
  have := p_cell (invP_reachable Hs H) i j. rewrite E /= => /allP /(_ p Hp) /eqP.
  by rewrite /source.
Qed.
Print Assumptions C25_own_parameter_partial.

Section Witnesses25.
Import Order.TTheory GRing.Theory Num.Theory.
Local Open Scope ring_scope.

(** A finished execution on two threads whose sample 0 of inquiry 0, used in
    the result, was computed with the parameters of inquiry 1. *)
Theorem C25_shared_operator_refuted (R : rcfType) (z rtol : R) : 0 < rtol ->
  exists s : state R,
    [/\ reachable 2 2 2 false (implemented_test z 0 rtol) 2 s, finished 2 s,
        0%N \in take (used s 0) (processed s) &
        exists x, cells s 0 0 = Val x [:: 1%N]].
Proof.
  move=> Hr. have [[E1 E2 E3 E4 E5] E6] := parameter_race_end (-1 : R).
  have E0 : reachable 2 2 2 false (implemented_test z 0 rtol) 2
              (parameter_race_state (-1 : R)).
    apply: parameter_race_reachable; exact: (@negative_column R z rtol _ 2 Hr).
  move: (parameter_race_state _) E0 E1 E2 E3 E4 E5 E6 => s E0 E1 E2 E3 E4 E5 E6.
  exists s. rewrite E4 E5. split=> //.
  - by split=> //; case=> [|[|t]].
  - by exists (-1).
Qed.
Print Assumptions C25_shared_operator_refuted.
End Witnesses25.

(** ** C26 *)

(** [works_on s t i]: thread [t] has started sample [i] and not recorded it. *)
Definition works_on (V : Type) (s : state V) (t i : nat) : Prop :=
  match pcs s t with
  | Iter i' _ _ | Mul i' _ _ _ | Reset i' _ _ | Quad i' _ _ | Enter i' => i' = i
  | _ => False
  end.

Lemma works_onP (V : Type) (s : state V) t i :
  reflect (works_on s t i) ((holding (pcs s t) == Some i) && running (pcs s t)).
Proof.
  apply: (iffP idP); rewrite /works_on;
    case: (pcs s t) => [|a|a b c|a b c d|a b c|a b c|a|a b|a b|a b] //=;
    rewrite ?andbT ?andbF //; first [by move=> -> | by move/eqP; case].
Qed.

Lemma no_start (V : Type) q m known (decide : seq (cell V) -> bool) t s s1 i :
  step q m known decide t s s1 -> all_conv s -> works_on s1 t i -> works_on s t i.
Proof.
  move=> Hst Ha. rewrite /works_on.
  case: Hst => [k Ep Hi|k Ep Ha'|k Ep Hna|k j its Ep Hj Hc|k j its Ep Hj Hc|k j its ps Ep|
    k j its ps Ep|k its Ep|k j its Ep Hj|k its Ep|k j its Ep Hj Hc|k j its x Ep Hj Hc|
    k its Ep|k Ep Hl|k j Ep Hj|k Ep|k j Ep Hj Hc|k j Ep Hj Hc|k Ep|k j Ep Hj Hc|k j Ep Hj Hc|k Ep];
    rewrite /= updE eqxx Ep //.
  - by rewrite Ha in Hna.
  - by case: shifts.
  - by case: ifP.
Qed.

Theorem C26_stops_after_convergence (V : Type)
    (threads q min_num_samples max_num_samples : nat)
    (known : bool) (decide : seq (cell V) -> bool) (s s' : state V) :
  0 < q -> ~~ known || (q == 1) ->
  reachable threads q min_num_samples known decide max_num_samples s ->
  steps threads q min_num_samples known decide s s' ->
  (forall j, conv s j -> conv s' j) /\
  (all_conv s ->
    [/\ all_conv s',
        size (processed s') <= size (processed s) + threads.-1,
        (forall i, i \in processed s' ->
           i \in processed s \/ exists2 t, t < threads & works_on s t i) &
        (forall t s1, step q min_num_samples known decide t s' s1 ->
           forall i, works_on s1 t i -> works_on s' t i)]).
Proof.
  move=> Hq Hk H Hst.
  have Hs : ~~ shifts q known by rewrite /shifts; move: Hk; case: known {H Hst} => //=; lia.
  have HI := invs_reachable Hs Hq H.
  split; first by move=> j; apply: (conv_mono Hs Hq HI Hst).
  move=> Ha. have [A1 A2 A3] := after_steps Hs Hq HI Ha Hst. split=> //.
  - have := after_running Hs Hq H Ha. lia.
  - move=> i /A3 /orP [|/hasP [t]]; first by left.
    rewrite mem_iota add0n => /= Ht /works_onP Hw. right. by exists t.
  - by move=> t s1 H1 i; apply: no_start H1 A1.
Qed.
Print Assumptions C26_stops_after_convergence.

(** ** The hypotheses are met *)

(** Two threads, one inquiry, at least two of five samples.  Thread 1 starts
    sample 2, thread 0 records sample 1 and the test succeeds; thread 1 still
    adds sample 2, and samples 3 and 4 are not started. *)
Definition stop_then : seq (act bool) :=
  nseq 8 (Go bool 1) ++ nseq 4 (Go bool 0).

Definition run (l : seq (act bool)) (s : state bool) : state bool :=
  odflt s (omap fst (exec 2 1 2 false l s)).

Lemma run_steps decide l s : (forall cs, decide cs = (1 < size cs)) ->
  isSome (exec 2 1 2 false l s) ->
  omap snd (exec 2 1 2 false l s) =
    omap (fun p => [seq (o.1, 1 < size o.1) | o <- p.2]) (exec 2 1 2 false l s) ->
  steps 2 1 2 false decide s (run l s).
Proof.
  move=> Hd. rewrite /run. case E: (exec _ _ _ _ _ _) => [[s' obl]|] //= _ [Eo].
  apply: exec_steps E _. elim: obl Eo => //= o obl IH [Eo Er]. split; last exact: IH.
  by rewrite Hd Eo.
Qed.

Example C26_case : exists s s' : state bool,
  [/\ reachable 2 1 2 false (fun cs => 1 < size cs) 5 s, all_conv s,
      processed s = [:: 0; 1], works_on s 1 2 &
      [/\ steps 2 1 2 false (fun cs => 1 < size cs) s s', finished 2 s' &
          processed s' = [:: 0; 1; 2] /\ used s' 0 = 2]].
Proof.
  pose s := run (stop_schedule true) (init bool 5).
  exists s, (run stop_then s). split; try by vm_compute.
  - by apply: run_steps; vm_compute.
  - split; try by vm_compute.
    + by apply: run_steps; vm_compute.
    + by split; [vm_compute|case=> [|[|t]]].
Qed.

(** The same execution meets the hypotheses of C23, C24 and C25. *)
Example C23_C24_C25_case : exists s : state bool,
  [/\ reachable 2 1 2 false (fun cs => 1 < size cs) 5 s, finished 2 s,
      1 \in take (used s 0) (processed s) & cells s 1 0 = Val true [:: 0]].
Proof.
  pose s := run (stop_schedule true) (init bool 5).
  exists (run stop_then s).
  have H1 : steps 2 1 2 false (fun cs => 1 < size cs) (init bool 5) s.
    by apply: run_steps; vm_compute.
  have H2 : steps 2 1 2 false (fun cs => 1 < size cs) s (run stop_then s).
    by apply: run_steps; vm_compute.
  split; try by vm_compute.
  - exact: steps_trans H1 H2.
  - by split; [vm_compute|case=> [|[|t]]].
Qed.
