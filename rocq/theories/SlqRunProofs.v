(** * Proofs about a run of the stochastic Lanczos quadrature *)
From Coq Require Import ZArith NArith.
From mathcomp Require Import all_ssreflect all_algebra.
From mathcomp Require Import zify.
From Verif Require Import Mem KernelModel KernelSpec LanczosSpec LanczosMath ConvModel ConvSpec ConvProofs RngModel SlqRunModel SlqRunSpec.
From Verif Require PropRng PropConv HutchVecModel HutchRunProofs.
Set Implicit Arguments.
Unset Strict Implicit.
Unset Printing Implicit Defensive.
Import Order.TTheory GRing.Theory Num.Theory.
Local Open Scope ring_scope.

Local Opaque rng_initialize.

Section Abstract.
Variable R : rcfType.
Notation num := (num R).
Notation F := (@Fin R).
Variable sample : seq bool -> seq R -> seq R -> option (seq bool * seq R).
Variables n q mn mx : nat.
Variables z zo atol rtol : R.
Hypothesis q_gt0 : (0 < q)%N.
Hypothesis z_ge0 : 0 <= z.

(** The signs drawn from generator [g] and the generator afterwards. *)
Definition signs (g : xstate) : seq Z :=
  [seq sign_of_bit (PropRng.draw g (Nat.div k 64)) (Nat.modulo k 64) | k <- iota 0 n].
Definition advance (i : nat) (g : xstate) : xstate := Nat.iter (i * (Nat.div n 64 + 1)) xoshiro_step g.

Variable g0 : xstate.
Notation vector i := [seq HutchVecModel.entry R b | b <- signs (advance i g0)].

(** Whether the flags are cleared by every sample. *)
Variable resets : bool.
Variable X : nat -> nat -> R.
Hypothesis sampleE : forall i conv, (i < mx)%N -> size conv = q ->
  exists est, [/\ sample conv (vector i) (nseq q 0) = Some (if resets then nseq q false else conv, est),
    size est = q & forall j, (j < q)%N -> resets || ~~ nth false conv j -> est`_j = X i j].

Notation sat := (satisfied z atol rtol mn X).
Notation col := (first_samples X).

(** The flag and the number of samples used of inquiry j after k samples. *)
Definition flag (j k : nat) : bool := if resets then sat j k else has (sat j) (iota 1 k).
Definition used (j k : nat) : nat := if resets then k else minn k (find (sat j) (iota 1 k)).+1.
Definition all_flags (k : nat) : bool := (mn <= k)%N && all (flag^~ k) (iota 0 q).

Definition row (k i : nat) : seq num := [seq if (i < used j k)%N then F (X i j) else NaN | j <- iota 0 q].

(** The state after k samples. *)
Definition after (k : nat) (s : rstate R) : Prop :=
  [/\ [/\ rs_table s = [:: advance k g0], (size (rs_vector s) = n)%N & rs_count s = k],
      rs_samples s = [seq row k i | i <- iota 0 k] ++ nseq (mx - k) (nseq q NaN),
      rs_order s = iota 0 k ++ nseq (mx - k) 0%N,
      [/\ size (co_error (rs_out s)) = q, co_used (rs_out s) = [seq used j k | j <- iota 0 q] &
          co_converged (rs_out s) = [seq flag j k | j <- iota 0 q]] &
      rs_all s = (0 < k)%N && all_flags k].

Lemma iota_rcons a k : iota a k.+1 = rcons (iota a k) (a + k)%N.
Proof. by rewrite -addn1 iotaD cats1. Qed.

Lemma flag_lt j k : (k < mn)%N -> flag j k = false.
Proof.
  move=> Hk. rewrite /flag. case: resets; first by rewrite /satisfied leqNgt Hk.
  apply/hasP => -[i]. rewrite mem_iota => Hi. rewrite /satisfied. have -> : (mn <= i)%N = false by lia.
  by [].
Qed.

Lemma used_not j k : ~~ flag j k -> used j k = k.
Proof.
  rewrite /flag /used. case: resets => // Hh. rewrite hasNfind // size_iota. by apply/minn_idPl.
Qed.

Lemma flagS j k : ~~ (~~ resets && flag j k) -> flag j k.+1 = sat j k.+1.
Proof.
  rewrite /flag. case: resets => //; rewrite andTb => Hh. by rewrite iota_rcons has_rcons add1n (negbTE Hh) orbF.
Qed.

Lemma usedS j k : ~~ (~~ resets && flag j k) -> used j k.+1 = k.+1.
Proof.
  rewrite /flag /used. case: resets => //; rewrite andTb => Hh. rewrite iota_rcons -cats1 find_cat (negbTE Hh) size_iota.
  apply/minn_idPl. lia.
Qed.

Lemma flag_keep j k : ~~ resets -> flag j k -> flag j k.+1 /\ used j k.+1 = used j k.
Proof.
  rewrite /flag /used. case: resets => // _ Hh. rewrite iota_rcons has_rcons Hh orbT. split=> //.
  rewrite -cats1 find_cat Hh. have := Hh. rewrite has_find size_iota => Hf.
  rewrite !(minn_idPr _) //. exact: ltnW.
Qed.

Lemma used_le j k : (used j k <= k)%N.
Proof. rewrite /used. case: resets => //. exact: geq_minl. Qed.

(** Filling the vector. *)
Lemma nth_errorE (T : Type) (d : T) s k : (k < size s)%N -> List.nth_error s k = Some (nth d s k).
Proof. elim: s k => [|x s IH] [|k] //=. exact: IH. Qed.

Lemma generate g v : size v = n ->
  generate_random_array [:: g] 0 v n = Some ([:: Nat.iter (Nat.div n 64 + 1) xoshiro_step g], signs g).
Proof.
  move=> Sv. have Hl : (n <= length v)%coq_nat by apply: ssrnat.leP; rewrite -Sv; exact: leqnn.
  have [t [a [-> [H1 [H2 [_ [H4 [_ H6]]]]]]]] :=
    PropRng.C01_random_array_is_rademacher [:: g] 0 g v n erefl Hl.
  have Et : t = [:: Nat.iter (Nat.div n 64 + 1) xoshiro_step g].
  { case: t H4 H6 => [|x [|y t]] //= [->] _. reflexivity. }
  rewrite Et. congr (Some (_, _)).
  have Sa : size a = n by rewrite -Sv; exact: H1.
  apply: (@eq_from_nth _ Z0); first by rewrite Sa size_map size_iota.
  move=> k. rewrite Sa => Hk. rewrite (nth_map 0%N) ?size_iota // nth_iota // add0n.
  have := H2 k (ssrnat.ltP Hk). rewrite (nth_errorE Z0) ?Sa // => -[->]. reflexivity.
Qed.

Lemma advanceS k g : advance k.+1 g = Nat.iter (Nat.div n 64 + 1) xoshiro_step (advance k g).
Proof.
  rewrite /advance mulSn. set m := (Nat.div n 64 + 1)%N. move: (k * m)%N => b. move: m => m.
  elim: m => [|m IH] //. rewrite addSn. change (xoshiro_step (Nat.iter (m + b) xoshiro_step g) =
    xoshiro_step (Nat.iter m xoshiro_step (Nat.iter b xoshiro_step g))). by rewrite IH.
Qed.

Lemma well_shaped_after k (samples : seq (seq num)) (r : seq num) :
  (k < mx)%N -> size r = q -> samples = rcons [seq row k i | i <- iota 0 k] r ++ nseq (mx - k.+1) (nseq q NaN) ->
  well_shaped samples (rcons (iota 0 k) k ++ nseq (mx - k.+1) 0%N) q k.+1.
Proof.
  move=> Hk Sr ->. split; first by rewrite size_cat size_rcons size_iota size_nseq leq_addr.
  move=> i Hi. rewrite nth_cat size_rcons size_iota Hi.
  have -> : rcons (iota 0 k) k = iota 0 k.+1 by rewrite iota_rcons.
  rewrite nth_iota // add0n. split.
  - rewrite size_cat size_rcons size_map size_iota size_nseq. lia.
  - rewrite nth_cat size_rcons size_map size_iota Hi nth_rcons size_map size_iota.
    case: (ltngtP i k) => Hik; [|lia|by rewrite Sr].
    by rewrite (nth_map 0%N) ?size_iota // size_map size_iota.
Qed.

Lemma iteration_after k s : (k < mx)%N -> after k s -> ~~ rs_all s ->
  exists2 s', iteration sample n q mn (F z) (F atol) (F rtol) k s = Some s' & after k.+1 s'.
Proof.
  move=> Hk [[Ht Hv Hc] Hsm Ho [He Hu Hcv] Ha] Hall. rewrite /iteration (negbTE Hall) Ht (generate _ Hv).
  rewrite [obind _ _]/= Hcv.
  have Scv : size [seq flag j k | j <- iota 0 q] = q by rewrite size_map size_iota.
  have [est [-> Se Hest]] := sampleE Hk Scv. rewrite [obind _ _]/=.
  set conv := if resets then _ else _.
  have Sc : size conv = q by rewrite /conv; case: resets; rewrite ?size_nseq.
  have Econv j : (j < q)%N -> nth false conv j = ~~ resets && flag j k.
  { move=> Hj. rewrite /conv. case: resets; first by rewrite nth_nseq Hj.
    by rewrite (nth_map 0%N) ?size_iota // nth_iota. }
  have Hmx : (mx - k = (mx - k.+1).+1)%N by lia.
  have Ssm : size [seq row k i | i <- iota 0 k] = k by rewrite size_map size_iota.
  have Erow : rd (rs_samples s) k = Some (nseq q NaN).
  { rewrite (rdE [::]) Hsm ?size_cat ?Ssm ?size_nseq; last by lia.
    by rewrite nth_cat Ssm ltnn subnn Hmx. }
  rewrite Erow [obind _ _]/=.
  set r := merge _ _ _ _. have Sr : size r = q by rewrite size_map size_iota.
  have Ew := HutchRunProofs.wr_next [seq row k i | i <- iota 0 k] (mx - k.+1) (nseq q NaN) r.
  rewrite Ssm -Hmx -Hsm in Ew. rewrite Ew [obind _ _]/=.
  have Eo := HutchRunProofs.wr_next (iota 0 k) (mx - k.+1) 0%N k.
  rewrite size_iota -Hmx -Ho in Eo. rewrite Hc Eo [obind _ _]/=.
  set samples := rcons _ r ++ _. set order := rcons _ k ++ _. set o := ConvOut _ _ _.
  have Hw : well_shaped samples order q k.+1 by exact: (well_shaped_after Hk Sr erefl).
  have Hos : out_shaped q o by split=> //; rewrite /= Hu size_map size_iota.
  have [a [o' [-> [O1 O2 O3] Ea Hj]]] := PropConv.C27_convergence_test atol rtol mn z_ge0 Hw Hos.
  rewrite [obind _ _]/=. eexists; first by [].
  (* the columns *)
  have Hval j : (j < q)%N -> ~~ (~~ resets && flag j k) ->
    PropConv.values samples order k.+1 j (col j k.+1).
  { move=> Hjq Hf. split; first by rewrite size_map size_iota.
    - by rewrite size_cat size_rcons size_iota size_nseq leq_addr.
    - move=> i Hi.
      have -> : (col j k.+1)`_i = X i j by rewrite /first_samples (nth_map 0%N) ?size_iota // nth_iota // add0n.
      rewrite /order nth_cat size_rcons size_iota Hi -[k in rcons _ k]add0n -iota_rcons nth_iota // add0n.
      rewrite /samples nth_cat size_rcons Ssm Hi nth_rcons Ssm.
      case: (ltngtP i k) => Hik; [|lia|].
      + rewrite (nth_map 0%N) ?size_iota // nth_iota // add0n /row (nth_map 0%N) ?size_iota // nth_iota // add0n.
        have -> : used j k = k; last by rewrite Hik.
        move: Hf. rewrite negb_and negbK. case Er: resets => /=; last exact: used_not.
        by rewrite /used Er.
      + rewrite Hik /r /merge (nth_map 0%N) ?size_iota // nth_iota // add0n Econv // (negbTE Hf). congr Fin.
        apply: Hest => //. rewrite (nth_map 0%N) ?size_iota // nth_iota // add0n.
        move: Hf. by rewrite negb_and negbK. }
  have Hcol j : (j < q)%N -> nth false (co_converged o') j = flag j k.+1 /\ nth 0%N (co_used o') j = used j k.+1.
  { move=> Hjq. have := Hj j Hjq. cbv zeta. rewrite [co_converged o]/= Econv //.
    case: ltnP => Hmn.
    - case=> -> _ ->. have Hf : flag j k = false by apply: flag_lt; exact: ltnW.
      split; first by rewrite flag_lt.
      by rewrite usedS // Hf andbF.
    - case: ifP => [/andP [Hr Hf]|/negbT Hf].
      + have [E1 E2] := flag_keep Hr Hf. case=> -> _ ->. rewrite E1 E2 /= Hu. split=> //.
        by rewrite (nth_map 0%N) ?size_iota // nth_iota.
      + rewrite (usedS Hf) (flagS Hf). case=> -> [H1 H2]. split=> //.
        case: (leqP k.+1 1) => Hk1.
        * rewrite (H1 Hk1). by rewrite /satisfied [(1 < _)%N]ltnNge Hk1 /= andbF.
        * have [_ ->] := H2 _ (Hval j Hjq Hf) Hk1. by rewrite /satisfied Hmn Hk1. }
  have Eflags : co_converged o' = [seq flag j k.+1 | j <- iota 0 q].
  { apply: (@eq_from_nth _ false); first by rewrite O3 size_map size_iota.
    move=> j. rewrite O3 => Hjq. rewrite (nth_map 0%N) ?size_iota // nth_iota //. by case: (Hcol j Hjq). }
  split.
  - by split; [rewrite advanceS|rewrite size_map size_iota|].
  - rewrite [LHS]/= /samples; congr (_ ++ _). rewrite iota_rcons map_rcons. congr rcons.
    + apply/eq_in_map => i. rewrite mem_iota add0n => /= Hi. rewrite /row.
      apply/eq_in_map => j. rewrite mem_iota add0n => /= Hjq.
      have [/andP [Hr Hf]|Hf] := boolP (~~ resets && flag j k).
      * by have [_ ->] := flag_keep Hr Hf.
      * rewrite usedS //. have -> : used j k = k; last by rewrite Hi ltnS ltnW.
        move: Hf. rewrite negb_and negbK. case Er: resets => /=; last exact: used_not.
        by rewrite /used Er.
    + rewrite /r /merge /row. apply/eq_in_map => j. rewrite mem_iota add0n => /= Hjq. rewrite Econv //.
      have [/andP [Hr Hf]|Hf] := boolP (~~ resets && flag j k).
      * have [_ ->] := flag_keep Hr Hf. by rewrite ltnNge used_le nth_nseq Hjq.
      * rewrite usedS // ltnSn. congr Fin. apply: Hest => //.
        rewrite (nth_map 0%N) ?size_iota // nth_iota // add0n. move: Hf. by rewrite negb_and negbK.
  - by rewrite [LHS]/= /order iota_rcons.
  - split=> //. apply: (@eq_from_nth _ 0%N); first by rewrite O2 size_map size_iota.
    move=> j. rewrite O2 => Hjq. rewrite (nth_map 0%N) ?size_iota // nth_iota //. by case: (Hcol j Hjq).
  - rewrite Ea /all_flags. congr (_ && _). apply/forallP/allP => [H j|H j].
    + rewrite mem_iota add0n => /= Hjq. have [<- _] := Hcol j Hjq. exact: (H (Ordinal Hjq)).
    + have [-> _] := Hcol j (ltn_ord j). apply: H. by rewrite mem_iota add0n /=.
Qed.

(** ** The whole run *)
Hypothesis mx_gt0 : (0 < mx)%N.

(** The number of samples processed. *)
Definition stop : nat := minn mx (find all_flags (iota 1 mx)).+1.

Lemma stop_le : (stop <= mx)%N. Proof. exact: geq_minl. Qed.
Lemma stop_gt0 : (0 < stop)%N. Proof. by rewrite leq_min mx_gt0. Qed.

Lemma stop_before k : (0 < k < stop)%N -> ~~ all_flags k.
Proof.
  move=> /andP [H0 Hk]. move: Hk. rewrite leq_min => /andP [H1 H2]. rewrite ltnS in H2.
  have Hb : (k.-1 < find all_flags (iota 1 mx))%N by rewrite prednK.
  have := before_find 0%N Hb. have Hs : (k.-1 < mx)%N by lia.
  rewrite nth_iota // add1n prednK // => ->. by [].
Qed.

Lemma stop_flags : (stop < mx)%N -> all_flags stop.
Proof.
  rewrite /stop gtn_min ltnn orFb => Hf.
  have Hh : has all_flags (iota 1 mx) by rewrite has_find size_iota ltnW.
  rewrite (minn_idPr (ltnW Hf)). have := nth_find 0%N Hh. by rewrite nth_iota ?add1n // ltnW.
Qed.

Definition average (j : nat) := average_column (F z) (F zo) (map F (col j (used j stop))).

Definition final : report R :=
  Report [seq (average j).1.2 | j <- iota 0 q] [seq (average j).2 | j <- iota 0 q]
    [seq (average j).1.1 | j <- iota 0 q]
    ([seq row stop i | i <- iota 0 stop] ++ nseq (mx - stop) (nseq q NaN))
    (iota 0 stop ++ nseq (mx - stop) 0%N)
    [seq used j stop | j <- iota 0 q] [seq flag j stop | j <- iota 0 q] (all_flags stop).

Lemma map_constant (T : Type) (c : T) (h : nat -> T) a l : (forall j, h j = c) -> [seq h j | j <- iota a l] = nseq l c.
Proof. move=> H. elim: l a => [|l IH] a //=. by rewrite H IH. Qed.

Lemma loop_after clock seed vector error : rng_initialize 1 clock seed = [:: g0] -> size vector = n ->
  size error = q ->
  exists2 s, for_ 0 mx 1 (iteration sample n q mn (F z) (F atol) (F rtol))
    (start q mx clock seed vector error) = Some s & after stop s.
Proof.
  move=> Hg Sv Se. set s0 := start _ _ _ _ _ _.
  have H0 : after (minn 0 stop) s0.
  { rewrite min0n /s0 /start Hg. split.
    - split; [exact: erefl|exact: Sv|exact: erefl].
    - by rewrite subn0.
    - by rewrite subn0.
    - split; first exact: Se.
      + symmetry. apply: map_constant => j. rewrite /used. by case: resets; rewrite ?min0n.
      + symmetry. apply: map_constant => j. rewrite /flag. case: resets; last exact: erefl.
        by rewrite /satisfied ltn0 andFb andbF.
    - exact: erefl. }
  clearbody s0. clear Hg.
  have [s E Hs] : exists2 s, for_ 0 mx 1 (iteration sample n q mn (F z) (F atol) (F rtol)) s0 = Some s &
    after (minn mx stop) s; last first.
  { rewrite (minn_idPr stop_le) in Hs. exact: (ex_intro2 _ _ s E Hs). }
  apply: (@for1_inv _ (fun k s => after (minn k stop) s)); first exact: leq0n.
  - exact: H0.
  - move=> k s /andP [_ Hk] Hs. case: (ltnP k stop) => Hks.
    + rewrite (minn_idPl (ltnW Hks)) in Hs. rewrite (minn_idPl Hks).
      have Hn : ~~ rs_all s.
      { case: Hs => _ _ _ _ ->. case: (posnP k) => [->|H0k]; first by rewrite andFb.
        rewrite andTb. apply: stop_before. by rewrite H0k Hks. }
      exact: iteration_after Hk Hs Hn.
    + rewrite (minn_idPr Hks) in Hs. rewrite (minn_idPr (leqW Hks)).
      exists s; last exact: Hs. have : rs_all s.
      { case: Hs => _ _ _ _ ->. rewrite stop_gt0. apply: stop_flags. exact: leq_ltn_trans Hks Hk. }
      by rewrite /iteration => ->.
Qed.

Lemma run_final clock seed vector error : rng_initialize 1 clock seed = [:: g0] -> size vector = n ->
  size error = q ->
  c_trace_estimator sample n q mn mx (F z) (F zo) (F atol) (F rtol) clock seed vector error = Some final.
Proof.
  move=> Hg Sv Se. rewrite /c_trace_estimator. have [s -> Hs] := loop_after Hg Sv Se. clear Hg. rewrite [obind _ _]/=.
  case: Hs => [[_ _ _] Hsm Ho [_ Hu Hcv] Ha].
  have Hcol j : (j < q)%N -> rd (co_used (rs_out s)) j = Some (used j stop) /\
    ConvModel.column (rs_samples s) (rs_order s) (used j stop) j = Some (map F (col j (used j stop))).
  { move=> Hj. rewrite Hu (rdE 0%N) ?size_map ?size_iota // (nth_map 0%N) ?size_iota // nth_iota // add0n.
    split=> //. have Hle := used_le j stop. apply/columnP. split.
    - by rewrite !size_map size_iota.
    - by rewrite Ho size_cat size_iota (leq_trans Hle) // leq_addr.
    - move=> i Hi. have Hi' := leq_trans Hi Hle.
      rewrite Ho nth_cat size_iota Hi' nth_iota // add0n /ConvModel.entry Hsm.
      rewrite (rdE [::]) ?size_cat ?size_map ?size_iota ?(ltn_addr _ Hi') //.
      rewrite nth_cat size_map size_iota Hi' (nth_map 0%N) ?size_iota // nth_iota // add0n.
      change (rd (row stop i) j = Some (nth NaN [seq F x | x <- col j (used j stop)] i)).
      rewrite (rdE NaN) ?size_map ?size_iota // (nth_map 0%N) ?size_iota // nth_iota // add0n Hi.
      by rewrite (nth_map 0) ?size_map ?size_iota // (nth_map 0%N) ?size_iota // nth_iota. }
  have [j Hj|res [-> [Sr Hr]]] := @PropConv.C29_all_inquiries R (F z) (F zo) (rs_samples s) (rs_order s) (co_used (rs_out s)) q.
  { have [A B] := Hcol j Hj. by exists (used j stop), (map F (col j (used j stop))). }
  rewrite [obind _ _]/=. rewrite Hsm Ho Hu Hcv Ha stop_gt0 andTb /final. congr Some.
  have Er : res = [seq average j | j <- iota 0 q].
  { apply: (@eq_from_nth _ (0%N, NaN, NaN)); first by rewrite Sr size_map size_iota.
    move=> j. rewrite Sr => Hj. have [A B] := Hcol j Hj. rewrite (Hr j _ _ Hj A B).
    by rewrite (nth_map 0%N) ?size_iota // nth_iota. }
  by rewrite Er -!map_comp.
Qed.

(** ** When the inquiries stop *)
Lemma used_gt0 j : (0 < used j stop)%N.
Proof. rewrite /used. case: resets; first exact: stop_gt0. by rewrite leq_min stop_gt0. Qed.

Lemma flag_sat j : flag j stop = sat j (used j stop).
Proof.
  rewrite /flag /used. case: resets => //. case: (boolP (has (sat j) (iota 1 stop))) => Hh.
  - have Hf := Hh. rewrite has_find size_iota in Hf. rewrite (minn_idPr Hf).
    have := nth_find 0%N Hh. by rewrite nth_iota // add1n => ->.
  - rewrite hasNfind // size_iota (minn_idPl (leqnSn _)). apply/esym/negbTE.
    apply: contra Hh => Hst. apply/hasP. exists stop; last exact: Hst. by rewrite mem_iota stop_gt0 add1n /=.
Qed.

Lemma each_stops j : ~~ resets -> (j < q)%N -> stops_at z atol rtol mn mx X j (used j stop).
Proof.
  clear sampleE. move=> Hr Hj. split.
  - by rewrite used_gt0 (leq_trans (used_le _ _) stop_le).
  - move=> k /andP [H0 Hk]. move: Hk. rewrite /used (negbTE Hr) leq_min => /andP [Hk1 Hk2].
    have Hb : (k.-1 < find (sat j) (iota 1 stop))%N by lia.
    have := before_find 0%N Hb. rewrite nth_iota; last by lia. by rewrite add1n prednK // => ->.
  - case: (boolP (sat j (used j stop))) => [|Hn]; [by left|right].
    have Hf : ~~ flag j stop by rewrite flag_sat.
    rewrite (used_not Hf). apply/eqP. rewrite eqn_leq stop_le leqNgt. apply: contra Hf => /stop_flags.
    rewrite /all_flags => /andP [_ /allP H]. apply: H. by rewrite mem_iota.
Qed.

Lemma all_stop : resets -> stops_together z atol rtol mn mx q X stop /\ forall j, used j stop = stop.
Proof.
  move=> Hr. split; last by move=> j; rewrite /used Hr. split.
  - by rewrite stop_gt0 stop_le.
  - move=> k Hk. have := stop_before Hk. rewrite /all_flags /flag Hr negb_and.
    case/orP => [Hm|/allPn [j]].
    + exists 0%N => //. by rewrite /satisfied (negbTE Hm).
    + rewrite mem_iota add0n => Hj Hs. by exists j.
  - move: stop_le. rewrite leq_eqVlt => /orP [/eqP|]; first by right.
    move=> /stop_flags. rewrite /all_flags /flag Hr => /andP [_ /allP H]. left=> j Hj. apply: H. by rewrite mem_iota.
Qed.

Lemma all_flagsE : all_flags stop = all (fun j => sat j (used j stop)) (iota 0 q).
Proof.
  rewrite /all_flags (eq_all (a2 := fun j => sat j (used j stop))); last by move=> j; rewrite -flag_sat.
  case: (boolP (all _ _)) => Ha; last by rewrite andbF. rewrite andbT.
  have /allP /(_ 0%N) := Ha. rewrite mem_iota q_gt0 => /(_ isT) /and3P [Hm _ _].
  exact: leq_trans Hm (used_le _ _).
Qed.

Lemma final_reports : reports z atol rtol mn mx q X zo (used^~ stop) final.
Proof.
  split=> //.
  - split=> //. rewrite /final [rp_order _]/=. split; first by rewrite size_cat size_iota size_nseq subnKC // stop_le.
    move=> j Hj. have Hu := used_le j stop. rewrite take_cat size_iota. case: ltnP => Hlt.
    + by rewrite take_iota (minn_idPl Hu).
    + have -> : used j stop = stop by apply/eqP; rewrite eqn_leq Hu. by rewrite subnn take0 cats0.
  - rewrite /final /=. by apply: eq_map => j; rewrite flag_sat.
  - exact: all_flagsE.
  - split; first by rewrite size_cat size_map size_iota size_nseq subnKC // stop_le.
    move=> i j Hi Hj. rewrite [rp_samples _]/= nth_cat size_map size_iota. case: ltnP => His.
    + by rewrite (nth_map 0%N) ?size_iota // nth_iota // add0n (nth_map 0%N) ?size_iota // nth_iota // add0n.
    + have -> : (i < used j stop)%N = false by apply/negbTE; rewrite -leqNgt (leq_trans (used_le _ _)).
      rewrite nth_nseq. have -> : (i - stop < mx - stop)%N by lia. by rewrite nth_nseq Hj.
  - split; rewrite ?size_map ?size_iota //. move=> j Hj.
    rewrite !(nth_map 0%N) ?size_iota // !nth_iota // add0n /average. set xs := col j _.
    split.
    + move=> H1 H2. have [no [er [-> A _ _ _]]] := PropConv.C29_mean_of_inliers z H1 H2. by [].
    + move=> H1. have H2 : inliers zo xs != [::] by rewrite -size_eq0 -lt0n ltnW.
      have H3 : (1 < size xs)%N by rewrite (leq_trans H1) // size_filter count_size.
      have [no [er [-> _ A _ _]]] := PropConv.C29_mean_of_inliers z H3 H2. exact: A.
    + move=> x -> H1 H2. by rewrite (PropConv.C29_one_sample x H1 H2).
Qed.
End Abstract.

(** ** Signs *)
Lemma entry_sign (R : rcfType) b k :
  HutchVecModel.entry R (sign_of_bit b k) = if N.testbit b (N.of_nat k) then 1 else -1.
Proof. rewrite /sign_of_bit. by case: N.testbit. Qed.

Lemma draw_iter g a b : PropRng.draw (Nat.iter a xoshiro_step g) b = PropRng.draw g (a + b)%N.
Proof.
  rewrite /PropRng.draw addnC. congr (fst (xoshiro_next _)).
  elim: b => [|b IH] //. rewrite addSn. change (xoshiro_step (Nat.iter b xoshiro_step (Nat.iter a xoshiro_step g)) =
    xoshiro_step (Nat.iter (b + a) xoshiro_step g)). by rewrite IH.
Qed.

Lemma vec_signs (R : rcfType) n i g :
  vec n [seq HutchVecModel.entry R b | b <- signs n (advance n i g)] = rademacher R g n i.
Proof.
  apply/colP => k. rewrite !mxE (nth_map Z0) ?size_map ?size_iota // (nth_map 0%N) ?size_iota // nth_iota // add0n.
  by rewrite entry_sign /advance draw_iter.
Qed.

Lemma rademacher_nz (R : rcfType) n i g : rademacher R g n.+1 i != 0.
Proof.
  apply/negP => /eqP /colP /(_ 0). rewrite !mxE. case: N.testbit => /eqP; first by rewrite oner_eq0.
  by rewrite oppr_eq0 oner_eq0.
Qed.

Lemma nth_error_one (T : Type) (l : seq T) y : size l = 1%N -> List.nth_error l 0 = Some y -> l = [:: y].
Proof. by case: l => [|x [|? ?]] //= _ [->]. Qed.

Lemma stream_init clock seed : rng_initialize 1 clock seed = [:: stream clock seed].
Proof.
  apply: nth_error_one; first exact: erefl.
  rewrite (@RngProofs.rng_initialize_nth 1 clock seed 0 (ssrnat.ltP (ltn0Sn 0))) /stream /PropRng.after.
  have -> : N.mul (N.add (N.of_nat 0) 1) (N.pow 2 128) = N.pow 2 128 by exact: erefl.
  reflexivity.
Qed.

(** ** Samples specified by a predicate with one solution *)
Section Unique.
Variable R : rcfType.
Notation F := (@Fin R).
Variable n' : nat.
Notation n := n'.+1.
Variables q mn mx : nat.
Variables z zo atol rtol : R.
Hypothesis q_gt0 : (0 < q)%N.
Hypothesis mx_gt0 : (0 < mx)%N.
Hypothesis z_ge0 : 0 <= z.
Variable resets : bool.
Variable P : 'cV[R]_n -> nat -> R -> Prop.
Hypothesis P_unique : forall w j x y, P w j x -> P w j y -> x = y.

Definition delivers (sample : seq bool -> seq R -> seq R -> option (seq bool * seq R)) : Prop :=
  forall conv v, size conv = q -> size v = n -> vec n v != 0 ->
  exists est, [/\ sample conv v (nseq q 0) = Some (if resets then nseq q false else conv, est), size est = q &
    forall j, (j < q)%N -> resets || ~~ nth false conv j -> P (vec n v) j est`_j].

Notation signs_of g i := [seq HutchVecModel.entry R b | b <- signs n (advance n i g)].

Definition lone (sample : seq bool -> seq R -> seq R -> option (seq bool * seq R)) (g : xstate) (i j : nat) : R :=
  (odflt ([::], [::]) (sample (nseq q false) (signs_of g i) (nseq q 0))).2`_j.

Lemma signs_ok g i : size (signs_of g i) = n /\ vec n (signs_of g i) != 0.
Proof. by rewrite !size_map size_iota vec_signs rademacher_nz. Qed.

Lemma lone_P sample g i j : delivers sample -> (j < q)%N -> P (rademacher R g n i) j (lone sample g i j).
Proof.
  move=> Hd Hj. have [Sv Hv] := signs_ok g i.
  have [est [E _ H]] := Hd (nseq q false) _ (size_nseq _ _) Sv Hv.
  rewrite /lone E /= -vec_signs. apply: H => //. by rewrite nth_nseq Hj orbT.
Qed.

Lemma delivers_sampleE sample X g : delivers sample ->
  (forall i j, (j < q)%N -> P (rademacher R g n i) j (X i j)) ->
  forall i conv, (i < mx)%N -> size conv = q ->
  exists est, [/\ sample conv (signs_of g i) (nseq q 0) = Some (if resets then nseq q false else conv, est),
    size est = q & forall j, (j < q)%N -> resets || ~~ nth false conv j -> est`_j = X i j].
Proof.
  move=> Hd HX i conv _ Sc. have [Sv Hv] := signs_ok g i. have [est [E Se H]] := Hd conv _ Sc Sv Hv.
  exists est. split=> // j Hj Hc. apply: P_unique (H j Hj Hc) _. rewrite vec_signs. exact: HX.
Qed.

Notation run sample := (c_trace_estimator sample n q mn mx (F z) (F zo) (F atol) (F rtol)).

(** The run, for all values the predicate allows. *)
Lemma run_value sample clock seed vector error X : delivers sample -> size vector = n -> size error = q ->
  (forall i j, (j < q)%N -> P (rademacher R (stream clock seed) n i) j (X i j)) ->
  run sample clock seed vector error = Some (final q mn mx z zo atol rtol resets X).
Proof.
  move=> Hd Sv Se HX.
  exact: (@run_final R sample n q mn mx z zo atol rtol q_gt0 z_ge0 (stream clock seed) resets X
    (delivers_sampleE Hd HX) mx_gt0 clock seed vector error (stream_init clock seed) Sv Se).
Qed.

Lemma run_report sample clock seed vector error : delivers sample -> size vector = n -> size error = q ->
  exists X K r,
    [/\ run sample clock seed vector error = Some r,
        forall i j, (j < q)%N -> P (rademacher R (stream clock seed) n i) j (X i j),
        if resets then exists2 K0, stops_together z atol rtol mn mx q X K0 & forall j, K j = K0
        else forall j, (j < q)%N -> stops_at z atol rtol mn mx X j (K j) &
        reports z atol rtol mn mx q X zo K r].
Proof.
  move=> Hd Sv Se. pose X := lone sample (stream clock seed).
  have HX i j : (j < q)%N -> P (rademacher R (stream clock seed) n i) j (X i j) by exact: lone_P.
  exists X, ((used mn z atol rtol resets X)^~ (stop q mn mx z atol rtol resets X)),
    (final q mn mx z zo atol rtol resets X).
  split; [exact: run_value|exact: HX| |exact: final_reports].
  case: (boolP resets) => Hr.
  - rewrite -Hr. have [H1 H2] := all_stop mn atol rtol q_gt0 z_ge0 X mx_gt0 Hr.
    eexists; first exact: H1. exact: H2.
  - rewrite -(negbTE Hr) => j Hj. exact: each_stops.
Qed.

Lemma run_same sample sample' clock clock' seed seed' vector vector' error error' : delivers sample ->
  delivers sample' -> stream clock seed = stream clock' seed' -> size vector = n -> size vector' = n ->
  size error = q -> size error' = q ->
  run sample clock seed vector error = run sample' clock' seed' vector' error'.
Proof.
  move=> Hd Hd' Es S1 S2 S3 S4. pose X := lone sample (stream clock seed).
  have HX i j : (j < q)%N -> P (rademacher R (stream clock seed) n i) j (X i j) by exact: lone_P.
  have HX' i j : (j < q)%N -> P (rademacher R (stream clock' seed') n i) j (X i j) by rewrite -Es; exact: HX.
  by rewrite (run_value Hd S1 S3 HX) (run_value Hd' S2 S4 HX').
Qed.
End Unique.

(** ** One inquiry of many *)
Lemma stops_at_unique (R : rcfType) (z atol rtol : R) mn mx X j K X' j' K' : (forall i, X i j = X' i j') ->
  stops_at z atol rtol mn mx X j K -> stops_at z atol rtol mn mx X' j' K' -> K = K'.
Proof.
  move=> EX [H1 H2 H3] [H1' H2' H3'].
  have Es k : satisfied z atol rtol mn X j k = satisfied z atol rtol mn X' j' k.
  { rewrite /satisfied. have -> // : first_samples X j k = first_samples X' j' k. exact: eq_map. }
  case: (ltngtP K K') => // Hlt.
  - have Hn : ~~ satisfied z atol rtol mn X' j' K by apply: H2'; lia.
    case: H3 => [|E]; first by rewrite Es (negbTE Hn). lia.
  - have Hn : ~~ satisfied z atol rtol mn X j K' by apply: H2; lia.
    case: H3' => [|E]; first by rewrite -Es (negbTE Hn). lia.
Qed.

Lemma together_later (R : rcfType) (z atol rtol : R) mn mx q X X' j j' K K' : (j < q)%N ->
  (forall i, X i j = X' i j') ->
  stops_together z atol rtol mn mx q X K -> stops_at z atol rtol mn mx X' j' K' -> (K' <= K)%N.
Proof.
  move=> Hj EX [H1 _ H3] [H1' H2' _].
  have Es k : satisfied z atol rtol mn X j k = satisfied z atol rtol mn X' j' k.
  { rewrite /satisfied. have -> // : first_samples X j k = first_samples X' j' k. exact: eq_map. }
  rewrite leqNgt. apply/negP => Hlt.
  have Hn : ~~ satisfied z atol rtol mn X' j' K by apply: H2'; lia.
  case: H3 => [/(_ j Hj)|E]; first by rewrite Es (negbTE Hn). lia.
Qed.

Lemma final_nth (R : rcfType) q mn mx (z zo atol rtol : R) resets X j : (j < q)%N ->
  let K := used mn z atol rtol resets X j (stop q mn mx z atol rtol resets X) in
  let a := average_column (Fin z) (Fin zo) (map (@Fin R) (first_samples X j K)) in
  let r := final q mn mx z zo atol rtol resets X in
  [/\ nth NaN (rp_trace r) j = a.1.2, nth NaN (rp_error r) j = a.2, nth 0%N (rp_outliers r) j = a.1.1 &
      nth 0%N (rp_used r) j = K].
Proof.
  move=> Hj K a r. rewrite /r /final [rp_trace _]/= [rp_error _]/= [rp_outliers _]/= [rp_used _]/=.
  by rewrite !(nth_map 0%N) ?size_iota // !nth_iota.
Qed.
