(** * The parallel sampling loop ends (C23) *)
From mathcomp Require Import all_ssreflect.
From mathcomp Require Import zify.
From Verif Require Import ParModel ParProofs.

Set Implicit Arguments.
Unset Strict Implicit.
Unset Printing Implicit Defensive.

Section Ends.
Variable V : Type.
Notation state := (state V).
Notation cell := (cell V).
Variables (threads q m : nat) (known : bool).
Variable decide : seq cell -> bool.
Variable N : nat.
Notation step := (step q m known decide).
Notation steps := (steps threads q m known decide).
Notation reachable := (reachable threads q m known decide N).
Notation required := (required q known).

(** Positions inside the loops *)
Definition inside (p : pc) : bool :=
  match p with
  | Iter _ j _ => j <= required
  | Mul _ j _ _ => j < required
  | Reset _ j _ | Quad _ j _ | Few _ j | Check _ j | Scan _ j => j <= q
  | _ => true
  end.

Record invE (s : state) : Prop := InvE {
  e_in : forall t, t < threads -> inside (pcs s t);
  e_lock : if lock s is Some t then t < threads else true }.

Lemma invE_same s s' t p : invE s -> pcs s' = upd (pcs s) t p -> inside p ->
  (if lock s' is Some u then u < threads else true) -> invE s'.
Proof.
  move=> [H1 H2] E Hp Hl. split=> // u Hu. rewrite E updE. case: eqP => // _. exact: H1.
Qed.

Lemma invE_step t s s' : t < threads -> step t s s' -> invE s -> invE s'.
Proof.
  move=> Ht H HI. have Hl := e_lock HI. have := e_in HI Ht.
  case: H => [i Ep Hi|i Ep Ha'|i Ep Hna|i j its Ep Hj _|i j its Ep Hj _|i j its ps Ep|
    i j its ps Ep|i its Ep|i j its Ep Hj|i its Ep|i j its Ep Hj _|i j its x Ep Hj _|
    i its Ep|i Ep Hl'|i j Ep Hj|i Ep|i j Ep Hj _|i j Ep Hj _|i Ep|i j Ep Hj _|i j Ep _ _|i Ep];
    rewrite Ep => /= Ho; (eapply invE_same; [exact: HI|reflexivity| |]); rewrite //=.
  - by case: shifts.
  - by case: ifP.
Qed.

Lemma invE_init0 : invE (init V N).
Proof. by []. Qed.

Lemma invE_reachable s : reachable s -> invE s.
Proof.
  move=> H. apply: (steps_ind_inv (I := invE) H); last by [].
  by move=> t s1 s2 Ht H1 H2; apply: invE_step H1 H2.
Qed.

(** A run that is not over can go on (with at least one thread): nobody waits
    for a lock for ever.  The step is not one of the products, of which there
    may be any number in the model. *)
Definition advances (t : nat) (s s' : state) : Prop :=
  step t s s' /\ ~ exists i j its ps, pcs s' t = Mul i j its ps /\ exists ps', pcs s t = Mul i j its ps'.

(** What is left of the work of a thread, and of the run *)
Definition left (p : pc) : nat :=
  match p with
  | Idle => 0
  | Test _ => 2 * required + 4 * q + 12
  | Iter _ j _ => 2 * (required - j) + 4 * q + 10
  | Mul _ j _ _ => 2 * (required - j) + 4 * q + 9
  | Reset _ j _ => (q - j) + 3 * q + 9
  | Quad _ j _ => (q - j) + 2 * q + 6
  | Enter _ => 2 * q + 5
  | Few _ j => (q - j) + 1
  | Check _ j => (q - j) + q + 3
  | Scan _ j => (q - j) + 1
  end.
Definition tot (s : state) : nat := \sum_(t < threads) left (pcs s t).
Definition work (s : state) : nat := size (todo s) * (2 * required + 4 * q + 13) + tot s.

Lemma tot_upd (s s' : state) t p : t < threads -> pcs s' = upd (pcs s) t p ->
  tot s' + left (pcs s t) = tot s + left p.
Proof.
move=> Ht Es. rewrite /tot (bigD1 (Ordinal Ht)) //= (bigD1 (Ordinal Ht) (F := fun t => left (pcs s t))) //=.
rewrite Es /upd eqxx [X in _ + X + _](eq_bigr (fun t : 'I_threads => left (pcs s t))); first by lia.
by move=> k Hk; rewrite -(inj_eq val_inj) /= in Hk; rewrite (negbTE Hk).
Qed.

Lemma work_step t s s' : t < threads -> invE s -> advances t s s' -> work s' < work s.
Proof.
  move=> Ht HI [H Hn]. have := e_in HI Ht.
  have U p s0 : pcs s0 = upd (pcs s) t p -> tot s0 + left (pcs s t) = tot s + left p by apply: tot_upd.
  case: H Hn => [i Ep Hi|i Ep Ha'|i Ep Hna|i j its Ep Hj _|i j its Ep Hj _|i j its ps Ep|
    i j its ps Ep|i its Ep|i j its Ep Hj|i its Ep|i j its Ep Hj _|i j its x Ep Hj _|
    i its Ep|i Ep Hl'|i j Ep Hj|i Ep|i j Ep Hj _|i j Ep Hj _|i Ep|i j Ep Hj _|i j Ep _ _|i Ep];
    rewrite Ep in U *; rewrite /work /= => Hn Ho;
  match goal with |- context [tot ?s1] => have := U _ s1 erefl | _ => idtac end; rewrite /= => HU.
  1: { have Hz : size (todo s) = (size (rem i (todo s))).+1 by rewrite size_rem // prednK //; case: (todo s) Hi.
       rewrite Hz [_.+1 * (_ + 13)]mulSn. move: HU. set w := _ * (_ + 13). clearbody w. lia. }
  5: { exfalso. apply: Hn. exists i, j, its, (rcons ps (param s)). rewrite updE eqxx. split=> //. by exists ps. }
  6: { rewrite ltn_add2l. case: shifts HU => /= HU; lia. }
  11: { rewrite ltn_add2l. case: ifP HU => _ /= HU; lia. }
  all: rewrite ltn_add2l; lia.
Qed.

Theorem C23_progress s : V -> reachable s -> 0 < threads ->
  finished threads s \/ exists t s', t < threads /\ advances t s s'.
Proof.
  move=> x0 Hr T0. have HE := invE_reachable Hr. have [HL _ _] := reachable_LAU Hr.
  (* a step to a position that is not in the products *)
  have A t s' : step t s s' -> (forall i j its ps, pcs s' t <> Mul i j its ps) -> advances t s s'.
  { move=> H1 H2. split=> // [[i [j [its [ps [E _]]]]]]. exact: H2 E. }
  have crit t : t < threads -> critical (pcs s t) -> exists s', advances t s s'.
  { move=> Ht. have := e_in HE Ht. case E : (pcs s t) => [|i|i j its|i j its ps|i j its|i j its|i|i j|i j|i j] //= Hj _.
    - move: Hj; rewrite leq_eqVlt => /orP [/eqP Ej|Hj].
        rewrite Ej in E. eexists. apply: A; first exact: st_few_end E. by move=> ????; rewrite /= updE eqxx.
      eexists. apply: A; first exact: st_few E Hj. by move=> ????; rewrite /= updE eqxx.
    - move: Hj; rewrite leq_eqVlt => /orP [/eqP Ej|Hj].
        rewrite Ej in E. eexists. apply: A; first exact: st_check_end E. by move=> ????; rewrite /= updE eqxx.
      case C : (conv s j); eexists; apply: A.
      + exact: st_check_skip E Hj C.
      + by move=> ????; rewrite /= updE eqxx.
      + exact: st_check E Hj (negbT C).
      + by move=> ????; rewrite /= updE eqxx.
    - move: Hj; rewrite leq_eqVlt => /orP [/eqP Ej|Hj].
        rewrite Ej in E. eexists. apply: A; first exact: st_scan_yes E. by move=> ????; rewrite /= updE eqxx.
      case C : (conv s j); eexists; apply: A.
      + exact: st_scan E Hj C.
      + by move=> ????; rewrite /= updE eqxx.
      + exact: st_scan_no E Hj (negbT C).
      + by move=> ????; rewrite /= updE eqxx. }
  case El : (lock s) => [t|].
  { have Ht : t < threads by have := e_lock HE; rewrite El.
    have [|s' H] := crit t Ht; first by rewrite (l_lock HL Ht) El eqxx.
    by right; exists t, s'. }
  case: (pickP (fun t : 'I_threads => if pcs s t is Idle then false else true)) => [[t Ht]|H].
  { have Hc := crit t Ht. have := e_in HE Ht. move=> Hj Hni. right; exists t. move: Hj Hni Hc => /=.
    have Ml u s' i j its ps : step u s s' -> pcs s' u = Mul i j its ps -> ~ (exists ps', pcs s u = Mul i j its ps') -> advances u s s'.
      move=> H1 H2 H3. split=> // [[i1 [j1 [its1 [ps1 [E1 E2]]]]]]. by apply: H3; move: E1; rewrite H2 => -[-> -> -> _].
    case E : (pcs s t) => [|i|i j its|i j its ps|i j its|i j its|i|i j|i j|i j] //= Hj _ Hc;
      try (by have [s' Hs] := Hc erefl; exists s').
    - case S : (all_conv s); eexists; (split; first exact: Ht); apply: A.
      + exact: st_skip E S.
      + by move=> ????; rewrite /= updE eqxx.
      + exact: st_start E (negbT S).
      + by move=> ????; rewrite /= updE eqxx.
    - move: Hj; rewrite leq_eqVlt => /orP [/eqP Ej|Hj].
        rewrite Ej in E. eexists; split; first exact: Ht. apply: A; first exact: st_iter_end E.
        by move=> ????; rewrite /= updE eqxx; case: shifts.
      case C : (conv s j && (required == q)); eexists; (split; first exact: Ht).
      + apply: A; first exact: st_iter_skip E Hj C. by move=> ????; rewrite /= updE eqxx.
      + apply: (Ml _ _ i j its [::]); first exact: st_iter_set E Hj (negbT C).
          by rewrite /= updE eqxx.
        by rewrite E => [[]].
    - eexists; split; first exact: Ht. apply: A; first exact: st_mul_end E. by move=> ????; rewrite /= updE eqxx.
    - move: Hj; rewrite leq_eqVlt => /orP [/eqP Ej|Hj].
        rewrite Ej in E. eexists; split; first exact: Ht. apply: A; first exact: st_reset_end E.
        by move=> ????; rewrite /= updE eqxx.
      eexists; split; first exact: Ht. apply: A; first exact: st_reset E Hj. by move=> ????; rewrite /= updE eqxx.
    - move: Hj; rewrite leq_eqVlt => /orP [/eqP Ej|Hj].
        rewrite Ej in E. eexists; split; first exact: Ht. apply: A; first exact: st_quad_end E.
        by move=> ????; rewrite /= updE eqxx.
      case C : (conv s j); eexists; (split; first exact: Ht); apply: A.
      + exact: st_quad_skip E Hj C.
      + by move=> ????; rewrite /= updE eqxx.
      + exact: (st_quad_write _ _ _ x0 E Hj (negbT C)).
      + by move=> ????; rewrite /= updE eqxx.
    - eexists; split; first exact: Ht. apply: A; first exact: st_enter E El.
      by move=> ????; rewrite /= updE eqxx; case: ifP. }
  have Id t : t < threads -> pcs s t = Idle by move=> Ht; have := H (Ordinal Ht) => /=; case: (pcs s t).
  case Et : (todo s) => [|i l]; first by left.
  right. exists 0; eexists; split=> //. apply: A.
  - apply: (@st_take _ _ _ _ _ _ _ i); first exact: Id. by rewrite Et mem_head.
  - by move=> ????; rewrite /= updE eqxx.
Qed.

(** Every run can be completed, whatever has happened so far *)
Theorem C23_completes s : V -> reachable s -> 0 < threads ->
  exists2 s', steps s s' & finished threads s'.
Proof.
  move=> x0 Hr T0. have [w] := ubnP (work s). elim: w s Hr => // w IH s Hr Hw.
  have [Hf|[t [s1 [Ht Ha]]]] := C23_progress x0 Hr T0; first by exists s => //; exact: steps_refl.
  have [H _] := Ha.
  have H01 : steps s s1 by apply: steps_more Ht H _; exact: steps_refl.
  have Hr1 : reachable s1 by apply: steps_trans Hr H01.
  have [|s' H1 H2] := IH s1 Hr1; first by have := work_step Ht (invE_reachable Hr) Ha; lia.
  by exists s' => //; exact: steps_trans H01 H1.
Qed.

(** Runs counted by their steps other than the products of an iteration *)
Inductive run_of_length : nat -> state -> state -> Prop :=
  | run_0 s : run_of_length 0 s s
  | run_mul k s1 t i j its ps s2 : t < threads -> pcs s1 t = Mul i j its ps ->
      run_of_length k (goto s1 t (Mul i j its (rcons ps (param s1)))) s2 -> run_of_length k s1 s2
  | run_S k s1 t s2 s3 : t < threads -> advances t s1 s2 -> run_of_length k s2 s3 ->
      run_of_length k.+1 s1 s3.

(** The number of these steps is bounded: if every iteration ends, so does the
    loop *)
Theorem C23_terminates k s : run_of_length k (init V N) s ->
  k <= N * (2 * required + 4 * q + 13).
Proof.
  have G k0 s1 s2 : run_of_length k0 s1 s2 -> invE s1 -> k0 + work s2 <= work s1.
  { elim=> [s0|k1 s0 t i j its ps s3 Ht E _ IH|k1 s0 t s3 s4 Ht [H Hn] _ IH] // Hi.
    - have H := st_mul q m known decide E. have := IH (invE_step Ht H Hi).
      suff -> : work (goto s0 t (Mul i j its (rcons ps (param s0)))) = work s0 by [].
      have := tot_upd (s := s0) (s' := goto s0 t (Mul i j its (rcons ps (param s0)))) Ht erefl.
      rewrite E /work /=. lia.
    - have := IH (invE_step Ht H Hi). have := work_step Ht Hi (conj H Hn). lia. }
  move=> /G H. have {H} := H invE_init0. rewrite {2}/work /= size_iota /tot [X in _ <= _ + X]big1 // addn0. lia.
Qed.
End Ends.

(** The hypotheses are met by the first state of every run, so every call has a
    complete execution *)
Theorem C23_ends (V : Type) threads q m known decide N : V -> 0 < threads ->
  exists2 s : state V, reachable threads q m known decide N s & finished threads s.
Proof.
  move=> x0 T0. have Hr : reachable threads q m known decide N (init V N) by exact: steps_refl.
  exact: C23_completes x0 Hr T0.
Qed.

Definition C23_assumptions := (@C23_progress, @C23_completes, @C23_terminates, @C23_ends).
Print Assumptions C23_assumptions.
