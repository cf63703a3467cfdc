(** * Invariants of the parallel sampling loop *)
From mathcomp Require Import all_ssreflect.
From mathcomp Require Import zify.
From Verif Require Import ParModel.

Set Implicit Arguments.
Unset Strict Implicit.
Unset Printing Implicit Defensive.

Section Proofs.
Variable V : Type.
Notation state := (state V).
Notation cell := (cell V).
Variables (threads q m : nat) (known : bool).
Variable decide : seq cell -> bool.
Variable N : nat.
Notation step := (step q m known decide).
Notation steps := (steps threads q m known decide).
Notation reachable := (reachable threads q m known decide N).

Lemma updE (A : Type) (f : nat -> A) k v k' :
  upd f k v k' = if k' == k then v else f k'.
Proof. by []. Qed.

(** Induction over executions. *)
Lemma steps_ind_inv (I : state -> Prop) s s' : steps s s' ->
  (forall t s1 s2, t < threads -> step t s1 s2 -> I s1 -> I s2) -> I s -> I s'.
Proof.
  move=> H Hs. elim: H => // s1 t s2 s3 Ht Hst _ IH H1. apply: IH.
  exact: Hs Ht Hst H1.
Qed.

Lemma steps_trans s1 s2 s3 : steps s1 s2 -> steps s2 s3 -> steps s1 s3.
Proof.
  elim=> // a t b c Ht Hst _ IH H3. apply: steps_more Ht Hst _. exact: IH.
Qed.

(** The sample a thread has taken and not yet recorded. *)
Definition holding (p : pc) : option nat :=
  match p with
  | Test i | Iter i _ _ | Mul i _ _ _ | Reset i _ _ | Quad i _ _ | Enter i => Some i
  | _ => None
  end.

Definition critical (p : pc) : bool :=
  match p with Few _ _ | Check _ _ | Scan _ _ => true | _ => false end.

(** The critical section, and which branch of the test it is in. *)
Definition phase_ok (k : nat) (p : pc) : Prop :=
  match p with
  | Few _ _ => k < m
  | Check _ _ | Scan _ _ => m <= k
  | _ => True
  end.

Record invL (s : state) : Prop := InvL {
  l_lock : forall t, t < threads -> critical (pcs s t) = (lock s == Some t);
  l_phase : forall t, t < threads -> phase_ok (size (processed s)) (pcs s t) }.

Lemma invL_init : invL (init V N).
Proof. by []. Qed.

Lemma invL_same s s' t p : t < threads -> invL s ->
  processed s' = processed s -> pcs s' = upd (pcs s) t p -> lock s' = lock s ->
  critical p = critical (pcs s t) ->
  (phase_ok (size (processed s)) (pcs s t) -> phase_ok (size (processed s)) p) ->
  invL s'.
Proof.
  move=> Ht [H1 H2] Ep Epc El Ec Hp. split=> u Hu; rewrite ?El ?Ep Epc updE.
  - case: eqP => [->|_]; last exact: H1. by rewrite Ec H1.
  - case: eqP => [_|_]; last exact: H2. exact: Hp (H2 _ Ht).
Qed.

Lemma invL_release s s' t : t < threads -> invL s -> critical (pcs s t) ->
  processed s' = processed s -> pcs s' = upd (pcs s) t Idle -> lock s' = None ->
  invL s'.
Proof.
  move=> Ht [H1 H2] Hc Ep Epc El. split=> u Hu; rewrite ?El ?Ep Epc updE.
  - case: eqP => // Hne. rewrite H1 //.
    move: Hc; rewrite H1 // => /eqP ->. by apply/eqP => [[E]]; apply: Hne.
  - by case: eqP => // _; apply: H2.
Qed.

Lemma invL_step t s s' : t < threads -> step t s s' -> invL s -> invL s'.
Proof.
  move=> Ht Hst HI.
  case: Hst => [i Ep Hi|i Ep Ha'|i Ep Hna|i j its Ep _ _|i j its Ep _ _|i j its ps Ep|
    i j its ps Ep|i its Ep|i j its Ep _|i its Ep|i j its Ep _ _|i j its x Ep _ _|
    i its Ep|i Ep Hl|i j Ep _|i Ep|i j Ep _ _|i j Ep _ _|i Ep|i j Ep _ _|i j Ep _ _|i Ep];
    first [by apply: (invL_same Ht HI); rewrite ?Ep //=; case: shifts
          |by apply: (invL_release Ht HI); rewrite ?Ep //
          |idtac].
  have [H1 H2] := HI.
  set p := if _ then _ else _.
  have Hp : critical p by rewrite /p; case: ifP.
  split=> u Hu /=; rewrite updE.
  - case: eqP => [->|Hne]; first by rewrite Hp eqxx.
    rewrite H1 // Hl. by apply/esym/eqP => [[E]]; apply: Hne.
  - rewrite size_rcons. case: eqP => [_|_].
      by rewrite /p; case: ltnP.
    have := H1 _ Hu. rewrite Hl. by case: (pcs s u).
Qed.

Record invA (s : state) : Prop := InvA {
  a_todo : uniq (todo s);
  a_proc : uniq (processed s);
  a_todo_lt : forall i, i \in todo s -> i < N;
  a_proc_lt : forall i, i \in processed s -> i < N;
  a_disj : forall i, i \in todo s -> i \notin processed s;
  a_hold : forall t i, t < threads -> holding (pcs s t) = Some i ->
    [/\ i \notin todo s, i \notin processed s & i < N];
  a_hold2 : forall t t' i, t < threads -> t' < threads ->
    holding (pcs s t) = Some i -> holding (pcs s t') = Some i -> t = t';
  a_cover : m <= size (processed s) \/
    forall i, i < N -> [\/ i \in todo s, i \in processed s |
      exists2 t, t < threads & holding (pcs s t) = Some i];
  a_all : all_conv s -> m <= size (processed s) }.

Lemma invA_init : invA (init V N).
Proof.
  split=> //=; first exact: iota_uniq.
  - by move=> i; rewrite mem_iota.
  - right=> i Hi. constructor 1. by rewrite mem_iota.
Qed.

(** Steps that keep the shared bookkeeping and what the thread holds. *)
Lemma invA_same s s' t p : t < threads -> invA s ->
  todo s' = todo s -> processed s' = processed s -> pcs s' = upd (pcs s) t p ->
  holding p = holding (pcs s t) -> (all_conv s' -> m <= size (processed s)) ->
  invA s'.
Proof.
  move=> Ht [H1 H2 H3 H4 H5 H6 H7 H8 H9] Et Ep Epc Eh Ha.
  have Hh u : holding (pcs s' u) = holding (pcs s u).
    by rewrite Epc updE; case: eqP => // ->.
  split; rewrite ?Et ?Ep //.
  - by move=> u i Hu; rewrite Hh; apply: H6.
  - by move=> u u' i Hu Hu'; rewrite !Hh; apply: H7.
  - case: H8 => H8; [by left|right=> i /H8 [?|?|[u Hu Eu]]];
      [by constructor 1|by constructor 2|constructor 3].
    by exists u; rewrite ?Hh.
Qed.

(** A thread drops its sample. *)
Lemma invA_drop s s' t : t < threads -> invA s ->
  todo s' = todo s -> processed s' = processed s -> pcs s' = upd (pcs s) t Idle ->
  all_conv s' = all_conv s -> m <= size (processed s) -> invA s'.
Proof.
  move=> Ht [H1 H2 H3 H4 H5 H6 H7 H8 H9] Et Ep Epc Ea Hm.
  have Hh u i : holding (pcs s' u) = Some i -> holding (pcs s u) = Some i.
    by rewrite Epc updE; case: eqP.
  split; rewrite ?Et ?Ep //.
  - by move=> u i Hu /Hh; apply: H6.
  - by move=> u u' i Hu Hu' /Hh E /Hh; apply: H7.
  - by left.
Qed.

Lemma invA_step t s s' : t < threads -> step t s s' -> invL s -> invA s -> invA s'.
Proof.
  move=> Ht Hst HL HI.
  have Ha := a_all HI.
  case: Hst => [i Ep Hi|i Ep Ha'|i Ep Hna|i j its Ep _ _|i j its Ep _ _|i j its ps Ep|
    i j its ps Ep|i its Ep|i j its Ep _|i its Ep|i j its Ep _ _|i j its x Ep _ _|
    i its Ep|i Ep Hl|i j Ep _|i Ep|i j Ep _ _|i j Ep _ _|i Ep|i j Ep _ _|i j Ep _ _|i Ep];
    first [by apply: (invA_same Ht HI); rewrite ?Ep //=; case: shifts|idtac].
  - (* take *)
    have [H1 H2 H3 H4 H5 H6 H7 H8 H9] := HI.
    split=> //=.
    + exact: rem_uniq.
    + by move=> k /mem_rem /H3.
    + by move=> k /mem_rem /H5.
    + move=> u k Hu. rewrite updE. case: eqP => [_ [<-]|_ E].
        rewrite mem_rem_uniq // inE eqxx /=. by split=> //; [exact: H5|exact: H3].
      have [Hn ? ?] := H6 _ _ Hu E. split=> //.
      by apply: contra Hn => /mem_rem.
    + move=> u u' k Hu Hu'. rewrite !updE.
      case: eqP => [-> [E]|_]; case: eqP => [-> |_] //.
      * move=> E'. have [] := H6 _ _ Hu' E'. by rewrite -E Hi.
      * move=> E' [E]. have [] := H6 _ _ Hu E'. by rewrite -E Hi.
      * exact: H7.
    + case: H8 => H8; [by left|right=> k Hk].
      have [<-|Hne] := eqVneq i k.
        by constructor 3; exists t; rewrite // updE eqxx.
      have [H|H|[u Hu Eu]] := H8 k Hk; [constructor 1|by constructor 2|constructor 3].
        by rewrite mem_rem_uniq // inE eq_sym Hne.
      exists u => //. rewrite updE. case: eqP => // E. by rewrite E Ep in Eu.
  - (* skip *)
    apply: (invA_drop Ht HI) => //. exact: Ha.
  - (* enter *)
    have [H1 H2 H3 H4 H5 H6 H7 H8 H9] := HI.
    have [Hnt Hnp HiN] : [/\ i \notin todo s, i \notin processed s & i < N].
      by apply: (H6 t); rewrite ?Ep.
    set p := if _ then _ else _.
    have Hp : holding p = None by rewrite /p; case: ifP.
    split=> //=.
    + by rewrite rcons_uniq Hnp.
    + by move=> k; rewrite mem_rcons inE => /orP [/eqP ->|/H4].
    + move=> k Hk. rewrite mem_rcons inE negb_or (H5 _ Hk) andbT.
      by apply: contraNneq Hnt => <-.
    + move=> u k Hu. rewrite updE. case: eqP => [_|Hne]; first by rewrite Hp.
      move=> E. have [? ? ?] := H6 _ _ Hu E. split=> //.
      rewrite mem_rcons inE negb_or; apply/andP; split=> //.
      apply/eqP => Eik. apply: Hne. apply: (H7 u t k) => //.
      by rewrite Ep Eik.
    + move=> u u' k Hu Hu'. rewrite !updE.
      case: eqP => _; [by rewrite Hp|]. case: eqP => _; [by rewrite Hp|].
      exact: H7.
    + rewrite size_rcons. case: H8 => H8; [left; lia|right=> k Hk].
      have [H|H|[u Hu Eu]] := H8 k Hk; [by constructor 1| |].
        by constructor 2; rewrite mem_rcons inE H orbT.
      have [E|Hne] := eqVneq u t.
        constructor 2. rewrite mem_rcons inE. by move: Eu; rewrite E Ep => [[->]]; rewrite eqxx.
      constructor 3. by exists u => //; rewrite updE (negbTE Hne).
    + move/H9. rewrite size_rcons. lia.
  - (* scan_yes *)
    apply: (invA_same Ht HI); rewrite ?Ep //= => _.
    have := l_phase HL Ht. by rewrite Ep.
Qed.

(** How many samples each result uses. *)
Record invU (s : state) : Prop := InvU {
  u_le : forall j, used s j <= size (processed s);
  u_conv : forall j, conv s j -> m <= used s j;
  u_ge : forall j, j < q -> m <= size (processed s) -> m <= used s j \/
    exists t i j0, [/\ t < threads, pcs s t = Check i j0 & j0 <= j] }.

Lemma invU_init : invU (init V N).
Proof. by split=> //= j _ H; left. Qed.

Lemma invU_same s s' t p : t < threads -> invU s -> invL s ->
  processed s' = processed s -> pcs s' = upd (pcs s) t p ->
  used s' =1 used s -> (forall j, conv s' j -> conv s j) ->
  (forall i j, pcs s t <> Check i j) -> invU s'.
Proof.
  move=> Ht [H1 H2 H3] HL Ep Epc Eu Ec Hn. split=> [j|j|j]; rewrite ?Eu ?Ep //.
  - by move/Ec; apply: H2.
  - move=> Hj Hm. case: (H3 j Hj Hm) => [|[u [i [j0 [Hu E Hle]]]]]; first by left.
    right. exists u, i, j0. split=> //. rewrite Epc updE. case: eqP => // Eut.
    by case: (Hn i j0); rewrite -Eut.
Qed.

Lemma invU_step t s s' : t < threads -> step t s s' -> invL s -> invU s -> invU s'.
Proof.
  move=> Ht Hst HL HI. have [H1 H2 H3] := HI.
  have Hph := l_phase HL Ht.
  case: Hst => [i Ep Hi|i Ep Ha'|i Ep Hna|i j its Ep _ _|i j its Ep _ _|i j its ps Ep|
    i j its ps Ep|i its Ep|i j its Ep _|i its Ep|i j its Ep _ _|i j its x Ep _ _|
    i its Ep|i Ep Hl|i j Ep Hj|i Ep|i j Ep Hj Hc|i j Ep Hj Hc|i Ep|i j Ep _ _|i j Ep _ _|i Ep];
    first [by apply: (invU_same Ht HI HL); rewrite ?Ep //=; case: shifts|idtac].
  - (* reset *)
    apply: (invU_same Ht HI HL); rewrite ?Ep //= => k. by rewrite updE; case: eqP.
  - (* enter *)
    split=> /= [k|k|k Hk].
    + rewrite size_rcons. exact: leqW.
    + exact: H2.
    + rewrite size_rcons => Hm. right. exists t, i, 0. split=> //.
      by rewrite updE eqxx ltnNge Hm.
  - (* few *)
    rewrite Ep /= in Hph. split=> /= [k|k|k Hk]; rewrite ?updE.
    + by case: eqP.
    + case: eqP => // _. exact: H2.
    + by rewrite leqNgt Hph.
  - (* check_skip *)
    rewrite Ep /= in Hph. split=> //= k Hk _.
    have [->|Hne] := eqVneq k j; first by left; apply: H2.
    have [|[u [i' [j0 [Hu E Hle]]]]] := H3 k Hk Hph; first by left.
    right. have [Eut|Hut] := eqVneq u t.
      exists t, i, j.+1. rewrite updE eqxx. split=> //.
      rewrite Eut Ep in E. case: E => _ E. lia.
    exists u, i', j0. by rewrite updE (negbTE Hut).
  - (* check *)
    rewrite Ep /= in Hph. split=> /= [k|k|k Hk _]; rewrite ?updE.
    + by case: eqP.
    + case: eqP => // _. exact: H2.
    + case: eqP => [_|/eqP Hne]; first by left.
      have [|[u [i' [j0 [Hu E Hle]]]]] := H3 k Hk Hph; first by left.
      right. have [Eut|Hut] := eqVneq u t.
        exists t, i, j.+1. rewrite updE eqxx. split=> //.
        rewrite Eut Ep in E. case: E => _ E. lia.
      exists u, i', j0. by rewrite updE (negbTE Hut).
  - (* check_end *)
    rewrite Ep /= in Hph. split=> //= k Hk _.
    have [|[u [i' [j0 [Hu E Hle]]]]] := H3 k Hk Hph; first by left.
    right. have [Eut|Hut] := eqVneq u t.
      rewrite Eut Ep in E. case: E => _ E. lia.
    exists u, i', j0. by rewrite updE (negbTE Hut).
Qed.

Lemma reachable_LAU s : reachable s -> [/\ invL s, invA s & invU s].
Proof.
  move=> H. apply: (steps_ind_inv (I := fun s => [/\ invL s, invA s & invU s]) H).
  - move=> t s1 s2 Ht Hst [HL HA HU].
    split; [exact: invL_step Hst HL|exact: invA_step Hst HL HA|exact: invU_step Hst HL HU].
  - split; [exact: invL_init|exact: invA_init|exact: invU_init].
Qed.

(** ** Operators without the eigenvalue shift, or a single inquiry *)
Definition is_val (c : cell) : bool := if c is Val _ _ then true else false.

Section NoShift.
Hypothesis noshift : ~~ shifts q known.
Hypothesis q_pos : 0 < q.

Lemma requiredE : required q known = q.
Proof.
  move: noshift; rewrite /required /shifts. by case: known => //=; lia.
Qed.

Definition local_ok (s : state) (p : pc) : Prop :=
  match p with
  | Iter i j its => [/\ size its = j, j <= q &
      forall l, l < j -> nth None its l = None -> conv s l]
  | Mul i j its _ => [/\ size its = j, j < q &
      forall l, l < j -> nth None its l = None -> conv s l]
  | Reset _ _ _ => False
  | Quad i j its => (forall l, l < q -> nth None its l = None -> conv s l) /\
      (forall l, l < j -> conv s l || is_val (cells s i l))
  | Enter i => forall l, l < q -> conv s l || is_val (cells s i l)
  | Scan _ j => forall l, l < j -> conv s l
  | _ => True
  end.

Record invB (s : state) : Prop := InvB {
  b_loc : forall t, t < threads -> local_ok s (pcs s t);
  b_proc : forall i j, i \in processed s -> j < q -> conv s j || is_val (cells s i j);
  b_used : forall i j, j < q -> i \in take (used s j) (processed s) ->
    is_val (cells s i j);
  b_dec : forall j, conv s j ->
    decide [seq cells s i j | i <- take (used s j) (processed s)];
  b_all : all_conv s -> forall j, j < q -> conv s j }.

Lemma invB_init : invB (init V N).
Proof. by []. Qed.

Lemma local_mono s s' p : (forall l, conv s l -> conv s' l) ->
  (forall i l, is_val (cells s i l) -> is_val (cells s' i l)) ->
  local_ok s p -> local_ok s' p.
Proof.
  move=> Hc Hv.
  have Ho i l : conv s l || is_val (cells s i l) -> conv s' l || is_val (cells s' i l).
    by case/orP => [/Hc ->|/Hv ->]; rewrite ?orbT.
  case: p => //=.
  - move=> i j its [H1 H2 H3]; split=> // l Hl /(H3 l Hl). exact: Hc.
  - move=> i j its ps [H1 H2 H3]; split=> // l Hl /(H3 l Hl). exact: Hc.
  - move=> i j its [H1 H2]; split=> l Hl; first by move/(H1 l Hl); apply: Hc.
    exact: Ho (H2 l Hl).
  - by move=> i H l Hl; apply: Ho (H l Hl).
  - by move=> i j H l Hl; apply: Hc (H l Hl).
Qed.

Lemma locals s s' t p : (forall l, conv s l -> conv s' l) ->
  (forall i l, is_val (cells s i l) -> is_val (cells s' i l)) ->
  pcs s' = upd (pcs s) t p -> local_ok s' p -> invB s ->
  forall u, u < threads -> local_ok s' (pcs s' u).
Proof.
  move=> Hc Hv Epc Hp HI u Hu. rewrite Epc updE. case: eqP => // _.
  exact: local_mono Hc Hv (b_loc HI Hu).
Qed.

Lemma invB_same s s' t p : invB s -> conv s' = conv s -> cells s' = cells s ->
  processed s' = processed s -> used s' = used s -> pcs s' = upd (pcs s) t p ->
  (all_conv s' -> forall j, j < q -> conv s j) -> local_ok s p -> invB s'.
Proof.
  move=> HI Ec Ev Ep Eu Epc Ha Hp. split; rewrite ?Ec ?Ev ?Ep ?Eu //.
  - apply: (locals _ _ Epc _ HI); rewrite ?Ec ?Ev //.
    by apply: local_mono Hp; rewrite ?Ec ?Ev.
  - exact: (b_proc HI).
  - exact: (b_used HI).
  - exact: (b_dec HI).
Qed.

(** Before min_num_samples nothing is converged. *)
Lemma conv_few s j : invU s -> size (processed s) < m -> conv s j = false.
Proof.
  move=> HU Hs. apply/negP => /(u_conv HU) H. have := u_le HU j. lia.
Qed.

Lemma invB_step t s s' : t < threads -> step t s s' -> invL s -> invA s -> invU s ->
  invB s -> invB s' /\ (forall j, conv s j -> conv s' j).
Proof.
  move=> Ht Hst HL HA HU HI. have Hall := b_all HI.
  have Hph := l_phase HL Ht. have Hloc := b_loc HI Ht.
  case: Hst => [i Ep Hi|i Ep Ha'|i Ep Hna|i j its Ep Hj Hc|i j its Ep Hj Hc|i j its ps Ep|
    i j its ps Ep|i its Ep|i j its Ep Hj|i its Ep|i j its Ep Hj Hc|i j its x Ep Hj Hc|
    i its Ep|i Ep Hl|i j Ep Hj|i Ep|i j Ep Hj Hc|i j Ep Hj Hc|i Ep|i j Ep Hj Hc|i j Ep Hj Hc|i Ep];
    rewrite Ep /= in Hph Hloc;
    first [by split=> //=; apply: (invB_same HI) => //|idtac].
  - (* iter_skip *)
    split=> //. apply: (invB_same HI) => //=.
    have [H1 H2 H3] := Hloc. rewrite requiredE in Hj. split=> //.
    + by rewrite size_rcons H1.
    + move=> l Hl. rewrite nth_rcons H1. case: ltngtP => [Hlt|?|->]; [exact: H3|lia|].
      by case/andP: Hc.
  - (* iter_set *)
    split=> //. apply: (invB_same HI) => //=. rewrite requiredE in Hj.
    by have [H1 H2 H3] := Hloc.
  - (* mul_end *)
    split=> //. apply: (invB_same HI) => //=.
    have [H1 H2 H3] := Hloc. split=> //.
    + by rewrite size_rcons H1.
    + move=> l Hl. rewrite nth_rcons H1. case: ltngtP => [Hlt|?|->] //; first exact: H3.
      lia.
  - (* iter_end *)
    split=> //. apply: (invB_same HI) => //=. rewrite (negbTE noshift).
    rewrite requiredE in Hloc. by have [H1 H2 H3] := Hloc; split.
  - (* quad_skip *)
    split=> //. apply: (invB_same HI) => //=. have [H1 H2] := Hloc. split=> // l Hl.
    have [->|Hne] := eqVneq l j; first by rewrite Hc. apply: H2. lia.
  - (* quad_write *)
    have [H1 H2] := Hloc.
    have [ps Eps] : exists ps, nth None its j = Some ps.
      case E: (nth None its j) => [ps|]; first by exists ps.
      by rewrite (H1 j Hj E) in Hc.
    have [_ Hnp _] : [/\ i \notin todo s, i \notin processed s & i < N].
      by apply: (a_hold HA Ht); rewrite Ep.
    split=> //=. rewrite Eps /=. set s1 := goto _ _ _.
    have Hv k l : is_val (cells s k l) -> is_val (cells s1 k l).
      rewrite /= updE. case: eqP => [->|//]. rewrite updE. by case: eqP.
    have Hsame k l : k \in processed s -> cells s1 k l = cells s k l.
      move=> Hk. rewrite /= updE. case: eqP => // E. by rewrite -E Hk in Hnp.
    split=> //.
    + apply: (locals _ Hv _ _ HI) => //=. split=> // l Hl.
      rewrite updE eqxx updE. case: eqP => [_|Hne]; first by rewrite orbT.
      apply: H2. lia.
    + move=> k l Hk Hl. rewrite Hsame //. exact: (b_proc HI).
    + move=> k l Hl Hk. rewrite Hsame ?(mem_take Hk) //. exact: (b_used HI).
    + move=> l Hcl.
      have -> : [seq cells s1 k l | k <- take (used s1 l) (processed s1)] =
                [seq cells s k l | k <- take (used s l) (processed s)].
        by apply/eq_in_map => k Hk; apply: Hsame; apply: mem_take Hk.
      exact: (b_dec HI).
  - (* quad_end *)
    split=> //. apply: (invB_same HI) => //=. by have [] := Hloc.
  - (* enter *)
    split=> //. set s1 := goto _ _ _.
    have Htake j : take (used s j) (rcons (processed s) i) = take (used s j) (processed s).
      rewrite -cats1 takel_cat //. exact: (u_le HU).
    split.
    + apply: (locals _ _ _ _ HI) => //=. by case: ifP.
    + move=> k j. rewrite /= mem_rcons inE => /orP [/eqP ->|Hk] Hj; first exact: Hloc.
      exact: (b_proc HI).
    + move=> k j Hj. rewrite /= Htake. exact: (b_used HI).
    + move=> j. rewrite /= Htake. exact: (b_dec HI).
    + exact: Hall.
  - (* few *)
    have Hcf l : conv s l = false by exact: conv_few HU Hph.
    have Hm l : conv s l -> conv (goto (set_used (set_conv s j false) j
        (size (processed s))) t (Few i j.+1)) l by rewrite Hcf.
    split; last exact: Hm. split=> //=.
    + exact: (locals Hm).
    + move=> k l Hk Hl. rewrite updE. have := b_proc HI Hk Hl. rewrite Hcf /= => ->.
      by rewrite orbT.
    + move=> k l Hl. rewrite updE. case: eqP => [_|_]; last exact: (b_used HI).
      rewrite take_size => Hk. by have := b_proc HI Hk Hl; rewrite Hcf.
    + move=> l. rewrite updE. case: eqP => //. by rewrite Hcf.
    + move=> Ha. have := a_all HA Ha. lia.
  - (* check *)
    set s1 := goto _ _ _.
    have Hm l : conv s l -> conv s1 l.
      move=> H. rewrite /= updE. case: eqP => // E. by rewrite E (negbTE Hc) in H.
    split=> //. split=> //=.
    + exact: (locals Hm).
    + move=> k l Hk Hl. have := b_proc HI Hk Hl.
      by case/orP => [/Hm /= ->|->] //; rewrite orbT.
    + move=> k l Hl. rewrite updE. case: eqP => [E|_]; last exact: (b_used HI).
      rewrite take_size => Hk. have := b_proc HI Hk Hl. by rewrite E (negbTE Hc).
    + move=> l. rewrite !updE. case: eqP => [->|_]; last exact: (b_dec HI).
      by rewrite take_size.
    + by move=> /Hall Ha l /Ha /Hm.
  - (* scan *)
    split=> //. apply: (invB_same HI) => //= l Hl.
    have [->|Hne] := eqVneq l j; first by []. apply: Hloc. lia.
Qed.

Definition invs s := [/\ invL s, invA s, invU s & invB s].

Lemma invs_step t s s' : t < threads -> step t s s' -> invs s -> invs s'.
Proof.
  move=> Ht Hst [HL HA HU HB]. split.
  - exact: invL_step Hst HL.
  - exact: invA_step Hst HL HA.
  - exact: invU_step Hst HL HU.
  - by have [] := invB_step Ht Hst HL HA HU HB.
Qed.

Lemma invs_reachable s : reachable s -> invs s.
Proof.
  move=> H. apply: (steps_ind_inv (I := invs) H) => [t s1 s2|]; first exact: invs_step.
  split; [exact: invL_init|exact: invA_init|exact: invU_init|exact: invB_init].
Qed.

Lemma conv_mono s s' j : invs s -> steps s s' -> conv s j -> conv s' j.
Proof.
  move=> HI H Hc.
  suff: invs s' /\ conv s' j by case.
  apply: (steps_ind_inv (I := fun s => invs s /\ conv s j) H) => // t s1 s2 Ht Hst [H1 H2].
  split; first exact: invs_step Ht Hst H1.
  have [HL HA HU HB] := H1. have [_] := invB_step Ht Hst HL HA HU HB. exact.
Qed.

(** After the last convergence. *)
Definition num_running (s : state) : nat :=
  count (fun t => running (pcs s t)) (iota 0 threads).

Lemma count_upd (f : nat -> pc) t p (P : pc -> bool) (n : nat) : t < n ->
  count (fun u => P (upd f t p u)) (iota 0 n) + P (f t) =
  count (fun u => P (f u)) (iota 0 n) + P p.
Proof.
  move=> Ht. have -> : iota 0 n = iota 0 t ++ t :: iota t.+1 (n - t.+1).
    by rewrite -[t :: _]/(iota t (n - t.+1).+1) -iotaD; congr iota; lia.
  rewrite !count_cat /= updE eqxx.
  have E l : (forall u, u \in l -> u != t) ->
    count (fun u => P (upd f t p u)) l = count (fun u => P (f u)) l.
    by move=> Hl; apply: eq_in_count => u /Hl Hu; rewrite updE (negbTE Hu).
  rewrite E; last by move=> u; rewrite mem_iota; lia.
  rewrite E; last by move=> u; rewrite mem_iota; lia.
  lia.
Qed.

Lemma num_running_upd s s' t p : t < threads -> pcs s' = upd (pcs s) t p ->
  num_running s' + running (pcs s t) = num_running s + running p.
Proof. by move=> Ht E; rewrite /num_running E count_upd. Qed.

Lemma num_running_not s t : t < threads -> ~~ running (pcs s t) ->
  num_running s <= threads.-1.
Proof.
  move=> Ht Hn. have := count_predC (fun t => running (pcs s t)) (iota 0 threads).
  rewrite size_iota -/(num_running s).
  have : 0 < count (predC (fun t => running (pcs s t))) (iota 0 threads).
    rewrite -has_count. apply/hasP. exists t => //. by rewrite mem_iota.
  lia.
Qed.

Lemma after_step t s s' : t < threads -> step t s s' -> invs s -> all_conv s ->
  [/\ all_conv s',
      size (processed s') + num_running s' <= size (processed s) + num_running s &
      forall i, (i \in processed s') || has (fun u => (holding (pcs s' u) == Some i)
          && running (pcs s' u)) (iota 0 threads) ->
        (i \in processed s) || has (fun u => (holding (pcs s u) == Some i)
          && running (pcs s u)) (iota 0 threads)].
Proof.
  move=> Ht Hst [HL HA HU HB] Ha. have Hm := a_all HA Ha.
  have Hph := l_phase HL Ht. have Hall := b_all HB Ha.
  have Hi0 : t \in iota 0 threads by rewrite mem_iota.
  have Hfin s1 p : pcs s1 = upd (pcs s) t p -> processed s1 = processed s ->
    all_conv s1 ->
    running p -> running (pcs s t) -> holding p = holding (pcs s t) ->
    [/\ all_conv s1,
     size (processed s1) + num_running s1 <= size (processed s) + num_running s &
    forall i, (i \in processed s1) || has (fun u => (holding (pcs s1 u) == Some i)
          && running (pcs s1 u)) (iota 0 threads) ->
        (i \in processed s) || has (fun u => (holding (pcs s u) == Some i)
          && running (pcs s u)) (iota 0 threads)].
    move=> E1 E2 Ha1 Hr1 Hr2 Eh. have := num_running_upd Ht E1. rewrite E2 Hr1 Hr2 => Hn.
    split=> //; first lia. move=> i /orP [->//|/hasP [u Hu]]. rewrite E1 updE.
    case: (u =P t) => [_|_] H; apply/orP; right; apply/hasP.
    - exists t => //. move: H. by rewrite Eh Hr1 Hr2.
    - by exists u.
  have Hfin2 s1 p : pcs s1 = upd (pcs s) t p -> processed s1 = processed s ->
    all_conv s1 -> ~~ running p ->
    [/\ all_conv s1,
     size (processed s1) + num_running s1 <= size (processed s) + num_running s &
    forall i, (i \in processed s1) || has (fun u => (holding (pcs s1 u) == Some i)
          && running (pcs s1 u)) (iota 0 threads) ->
        (i \in processed s) || has (fun u => (holding (pcs s u) == Some i)
          && running (pcs s u)) (iota 0 threads)].
    move=> E1 E2 Ha1 Hr1. have := num_running_upd Ht E1. rewrite E2 (negbTE Hr1) => Hn.
    split=> //; first lia. move=> i /orP [->//|/hasP [u Hu]]. rewrite E1 updE.
    case: (u =P t) => [_|_] H; first by rewrite (negbTE Hr1) andbF in H.
    by apply/orP; right; apply/hasP; exists u.
  case: Hst => [i Ep Hi|i Ep Ha'|i Ep Hna|i j its Ep Hj Hc|i j its Ep Hj Hc|i j its ps Ep|
    i j its ps Ep|i its Ep|i j its Ep Hj|i its Ep|i j its Ep Hj Hc|i j its x Ep Hj Hc|
    i its Ep|i Ep Hl|i j Ep Hj|i Ep|i j Ep Hj Hc|i j Ep Hj Hc|i Ep|i j Ep Hj Hc|i j Ep Hj Hc|i Ep];
    rewrite Ep /= in Hph;
    first [by eapply Hfin2; [reflexivity|reflexivity|exact: Ha|]
          |by eapply Hfin; [reflexivity|reflexivity|exact: Ha| | |]; rewrite ?Ep //|idtac].
  - by rewrite Ha in Hna.
  - (* iter_end *)
    by eapply Hfin; [reflexivity|reflexivity|exact: Ha| | |]; rewrite ?Ep //; case: shifts.
  - (* enter *)
    split=> //=.
    + set s1 := goto _ _ _. rewrite size_rcons.
      have := @num_running_upd s s1 t _ Ht erefl. rewrite Ep /=.
      have -> : running (if (size (processed s)).+1 < m then Few i 0 else Check i 0) = false.
        by case: ifP.
      rewrite /=. lia.
    + move=> k. rewrite mem_rcons inE. case/orP => [/orP [/eqP ->|->//]|/hasP [u Hu]].
        apply/orP; right; apply/hasP; exists t => //. by rewrite Ep eqxx.
      rewrite updE. case: (u =P t) => [_|_ H]; first by case: ifP.
      by apply/orP; right; apply/hasP; exists u.
  - (* few_end *) lia.
  - (* scan_no *) by rewrite (Hall j Hj) in Hc.
  - (* scan_yes *) by eapply Hfin2; [reflexivity|reflexivity|by []|].
Qed.

Lemma after_running s : reachable s -> all_conv s -> num_running s <= threads.-1.
Proof.
  move=> H. suff: invs s /\ (all_conv s -> num_running s <= threads.-1) by case.
  apply: (steps_ind_inv (I := fun s => invs s /\
    (all_conv s -> num_running s <= threads.-1)) H).
  - move=> t s1 s2 Ht Hst [HI H1]. split; first exact: invs_step Ht Hst HI.
    move=> Ha2. case Ha1: (all_conv s1).
      have [_ Hle _] := after_step Ht Hst HI Ha1.
      have : size (processed s1) <= size (processed s2).
        case: Hst {Ha2 Hle} => //= *; by rewrite size_rcons.
      have := H1 Ha1. lia.
    apply: (num_running_not Ht). move: Ha2.
    case: Hst => /= *; rewrite ?Ha1 // ?updE ?eqxx //; congruence.
  - split=> //. split; [exact: invL_init|exact: invA_init|exact: invU_init|exact: invB_init].
Qed.

Lemma after_steps s s' : invs s -> all_conv s -> steps s s' ->
  [/\ all_conv s',
      size (processed s') + num_running s' <= size (processed s) + num_running s &
      forall i, i \in processed s' ->
        (i \in processed s) || has (fun u => (holding (pcs s u) == Some i)
          && running (pcs s u)) (iota 0 threads)].
Proof.
  move=> HI Ha H.
  pose I s' := [/\ invs s', all_conv s',
      size (processed s') + num_running s' <= size (processed s) + num_running s &
      forall i, (i \in processed s') || has (fun u => (holding (pcs s' u) == Some i)
          && running (pcs s' u)) (iota 0 threads) ->
        (i \in processed s) || has (fun u => (holding (pcs s u) == Some i)
          && running (pcs s u)) (iota 0 threads)].
  suff: I s'.
    by case=> _ H1 H2 H3; split=> // i Hi; apply: H3; rewrite Hi.
  apply: (steps_ind_inv (I := I) H) => // t s1 s2 Ht Hst [H1 H2 H3 H4].
  have [A1 A2 A3] := after_step Ht Hst H1 H2.
  split=> //; [exact: invs_step Ht Hst H1|lia|].
  by move=> i /A3; apply: H4.
Qed.
End NoShift.

(** ** One thread *)
Section OneThread.
Hypothesis one : threads = 1.
Hypothesis shift : shifts q known.

Definition local1 (s : state) (p : pc) : Prop :=
  match p with
  | Iter _ j its => [/\ j <= 1, size its = j & all isSome its]
  | Mul _ j its _ => [/\ j = 0, size its = j & all isSome its]
  | Reset _ j its => [/\ size its = 1, all isSome its & forall l, l < j -> ~~ conv s l]
  | Quad i j its => [/\ size its = q, all isSome its, forall l, l < q -> ~~ conv s l &
      forall l, l < j -> is_val (cells s i l)]
  | Enter i => forall l, l < q -> is_val (cells s i l)
  | _ => True
  end.

Record inv1 (s : state) : Prop := Inv1 {
  i1_loc : local1 s (pcs s 0);
  i1_proc : forall i j, i \in processed s -> j < q -> is_val (cells s i j) }.

Lemma inv1_init : inv1 (init V N).
Proof. by []. Qed.

Lemma inv1_step t s s' : t < threads -> step t s s' -> invA s -> inv1 s -> inv1 s'.
Proof.
  move=> Ht Hst HA [Hloc Hpr]. have Ht0 := Ht.
  have Et : t = 0 by lia.
  have Hr : required q known = 1 by move: shift; rewrite /required /shifts; case: known.
  have Hq : 1 < q by move: shift; rewrite /shifts; case: known.
  rewrite Et in Hst. have Ht1 : 0 < threads by rewrite one.
  case: Hst => [i Ep Hi|i Ep Ha'|i Ep Hna|i j its Ep Hj Hc|i j its Ep Hj Hc|i j its ps Ep|
    i j its ps Ep|i its Ep|i j its Ep Hj|i its Ep|i j its Ep Hj Hc|i j its x Ep Hj Hc|
    i its Ep|i Ep Hl|i j Ep Hj|i Ep|i j Ep Hj Hc|i j Ep Hj Hc|i Ep|i j Ep Hj Hc|i j Ep Hj Hc|i Ep];
    rewrite Ep /= in Hloc; try by [].
  - by rewrite Hr andbC eq_sym (gtn_eqF Hq) in Hc.
  - split=> //=. have [H1 H2 H3] := Hloc. rewrite Hr in Hj. split=> //. lia.
  - split=> //=. have [H1 H2 H3] := Hloc. rewrite size_rcons all_rcons H2 H3 H1. by [].
  - split=> //=. rewrite shift. rewrite Hr in Hloc. have [H1 H2 H3] := Hloc. by split.
  - split=> //=. have [H1 H2 H3] := Hloc. split=> // l Hl. rewrite updE.
    case: (l =P j) => // Hne. apply: H3. lia.
  - split=> //=. have [H1 H2 H3] := Hloc. rewrite /shift_nodes shift.
    split=> //; rewrite ?size_nseq // all_nseq.
    by case: its H1 H2 {Hloc Ep} => // a its _ /= /andP [-> _]; rewrite orbT.
  - split=> //=. have [H1 H2 H3 H4] := Hloc. by rewrite (negbTE (H3 j Hj)) in Hc.
  - have [H1 H2 H3 H4] := Hloc.
    have [_ Hnp _] : [/\ i \notin todo s, i \notin processed s & i < N].
      by apply: (a_hold HA Ht1); rewrite Ep.
    have [ps Eps] : exists ps, nth None its j = Some ps.
      have : isSome (nth None its j) by apply: all_nthP; rewrite ?H1.
      by case: (nth None its j) => // ps _; exists ps.
    split=> /=.
    + split=> // l Hl. rewrite updE eqxx updE. case: (l =P j) => [_|Hne]; first by rewrite Eps.
      apply: H4. lia.
    + move=> k l Hk Hl. rewrite updE. case: (k =P i) => [E|_]; last exact: Hpr.
      by rewrite -E Hk in Hnp.
  - split=> //=. by have [] := Hloc.
  - split=> /=; first by case: ifP.
    move=> k l. rewrite mem_rcons inE => /orP [/eqP ->|Hk]; [exact: Hloc|exact: Hpr].
Qed.

Lemma inv1_reachable s : reachable s -> inv1 s.
Proof.
  move=> H. suff: [/\ invL s, invA s & inv1 s] by case.
  apply: (steps_ind_inv (I := fun s => [/\ invL s, invA s & inv1 s]) H).
  - move=> t s1 s2 Ht Hst [HL HA H1].
    split; [exact: invL_step Hst HL|exact: invA_step Hst HL HA|exact: inv1_step Hst HA H1].
  - split; [exact: invL_init|exact: invA_init|exact: inv1_init].
Qed.
End OneThread.

(** ** Which parameters a sample was computed with *)
Section Params.
(** One thread, or only one inquiry iterated. *)
Hypothesis safe : (threads <= 1) || (required q known <= 1).

(** The inquiry whose parameters the nodes of inquiry [j] come from. *)
Definition source (j : nat) : nat := if known then 0 else j.

Definition good_nodes (j : nat) (nd : nodes) : bool :=
  if nd is Some ps then all (pred1 (source j)) ps else true.

Definition good_cell (j : nat) (c : cell) : bool :=
  if c is Val _ ps then all (pred1 (source j)) ps else true.

Definition localP (s : state) (p : pc) : Prop :=
  match p with
  | Iter _ j its => size its = j /\ forall l, good_nodes l (nth None its l)
  | Mul _ j its ps => [/\ size its = j, j < required q known,
      forall l, good_nodes l (nth None its l), all (pred1 j) ps & param s = j]
  | Reset _ _ its | Quad _ _ its => forall l, good_nodes l (nth None its l)
  | _ => True
  end.

Record invP (s : state) : Prop := InvP {
  p_loc : forall t, t < threads -> localP s (pcs s t);
  p_par : required q known <= 1 -> param s = 0;
  p_cell : forall i j, good_cell j (cells s i j) }.

Lemma invP_init : invP (init V N).
Proof. by []. Qed.

Lemma invP_same s s' t p : t < threads -> invP s -> param s' = param s ->
  cells s' = cells s -> pcs s' = upd (pcs s) t p -> localP s' p -> invP s'.
Proof.
  move=> Ht [H1 H2 H3] E1 E2 E3 Hp. split; rewrite ?E1 ?E2 // => u Hu.
  rewrite E3 updE. case: (u =P t) => // _. move: (H1 u Hu).
  by case: (pcs s u) => //= i j its ps; rewrite E1.
Qed.

Lemma source_small j : j < required q known -> source j = j.
Proof. rewrite /source /required. case: known => //; lia. Qed.

Lemma invP_step t s s' : t < threads -> step t s s' -> invP s -> invP s'.
Proof.
  move=> Ht Hst HI. have [H1 H2 H3] := HI. have Hloc := H1 t Ht.
  case: Hst => [i Ep Hi|i Ep Ha'|i Ep Hna|i j its Ep Hj Hc|i j its Ep Hj Hc|i j its ps Ep|
    i j its ps Ep|i its Ep|i j its Ep Hj|i its Ep|i j its Ep Hj Hc|i j its x Ep Hj Hc|
    i its Ep|i Ep Hl|i j Ep Hj|i Ep|i j Ep Hj Hc|i j Ep Hj Hc|i Ep|i j Ep Hj Hc|i j Ep Hj Hc|i Ep];
    rewrite Ep /= in Hloc;
    first [by eapply (invP_same Ht HI); [reflexivity|reflexivity|reflexivity|]|idtac].
  - (* start *)
    eapply (invP_same Ht HI); [reflexivity|reflexivity|reflexivity|].
    by split=> // l; rewrite nth_nil.
  - (* iter_skip *)
    eapply (invP_same Ht HI); [reflexivity|reflexivity|reflexivity|].
    have [A1 A2] := Hloc. split=> [|l]; first by rewrite size_rcons A1.
    rewrite nth_rcons. by case: ltngtP.
  - (* iter_set *)
    have [A1 A2] := Hloc. split=> //=.
    + move=> u Hu. rewrite updE. case: (u =P t) => [_|Hne]; first by split.
      move: (H1 u Hu). case E: (pcs s u) => [|||i' j' its' ps'||||||] //= [B1 B2 B3 B4 B5].
      split=> //. case/orP: safe => Hs; first by lia.
      by move: Hj B2; lia.
    + by lia.
  - (* mul *)
    eapply (invP_same Ht HI); [reflexivity|reflexivity|reflexivity|].
    have [A1 A2 A3 A4 A5] := Hloc. split=> //. by rewrite all_rcons A4 A5 /= eqxx.
  - (* mul_end *)
    eapply (invP_same Ht HI); [reflexivity|reflexivity|reflexivity|].
    have [A1 A2 A3 A4 A5] := Hloc. split=> [|l]; first by rewrite size_rcons A1.
    rewrite nth_rcons A1. case: ltngtP => // ->. by rewrite /good_nodes source_small.
  - (* iter_end *)
    eapply (invP_same Ht HI); [reflexivity|reflexivity|reflexivity|].
    have [A1 A2] := Hloc. by case: shifts.
  - (* reset_end *)
    eapply (invP_same Ht HI); [reflexivity|reflexivity|reflexivity|].
    rewrite /= /shift_nodes. case Es: shifts => // l. rewrite nth_nseq.
    case: ifP => // _. have := Hloc 0. rewrite /good_nodes /source.
    move: Es; rewrite /shifts. by case: known.
  - (* quad_write *)
    split=> //=.
    + move=> u Hu. rewrite updE. case: (u =P t) => // _. exact: H1.
    + move=> k l. rewrite updE. case: (k =P i) => // _. rewrite updE. case: (l =P j) => // ->.
      have := Hloc j. by case: (nth None its j).
  - (* enter *)
    eapply (invP_same Ht HI); [reflexivity|reflexivity|reflexivity|]. by case: ifP.
Qed.

Lemma invP_reachable s : reachable s -> invP s.
Proof.
  move=> H. apply: (steps_ind_inv (I := invP) H) => [t s1 s2|]; last exact: invP_init.
  exact: invP_step.
Qed.
End Params.
End Proofs.
