(** * Running the sampling loop under a given schedule

    A function that performs one chosen step, proved to follow the transition
    system of ParModel; used to exhibit concrete executions. *)
From mathcomp Require Import all_ssreflect.
From Verif Require Import ParModel.

Set Implicit Arguments.
Unset Strict Implicit.
Unset Printing Implicit Defensive.

Section Exec.
Variable V : Type.
Notation state := (state V).
Notation cell := (cell V).
Variables (threads q m : nat) (known : bool).

(** What the scheduler does next: thread [t] advances; in a multiplication it
    either multiplies once more or finishes; a quadrature stores the given
    value; a column test has the given outcome. *)
Inductive act := Go of nat | More of nat | Store of nat & V | Test_is of nat & bool.

Definition act_thread (a : act) : nat :=
  match a with Go t | More t | Store t _ | Test_is t _ => t end.

(** The new state and the column tests whose outcome was assumed. *)
Definition do_act (a : act) (s : state) : option (state * seq (seq cell * bool)) :=
  let t := act_thread a in
  let ok s' := Some (s', [::]) in
  match pcs s t, a with
  | Idle, Go _ =>
      if todo s is i :: r then ok (goto (set_todo s r) t (Test i)) else None
  | Test i, Go _ => if all_conv s then ok (goto s t Idle) else ok (goto s t (Iter i 0 [::]))
  | Iter i j its, Go _ =>
      if j < required q known then
        if conv s j && (required q known == q)
        then ok (goto s t (Iter i j.+1 (rcons its None)))
        else ok (goto (set_param s j) t (Mul i j its [::]))
      else if j == required q known then
        ok (goto s t (if shifts q known then Reset i 0 its else Quad i 0 its))
      else None
  | Mul i j its ps, More _ => ok (goto s t (Mul i j its (rcons ps (param s))))
  | Mul i j its ps, Go _ => ok (goto s t (Iter i j.+1 (rcons its (Some ps))))
  | Reset i j its, Go _ =>
      if j < q then ok (goto (set_conv s j false) t (Reset i j.+1 its))
      else if j == q then ok (goto s t (Quad i 0 (shift_nodes q known its)))
      else None
  | Quad i j its, Go _ =>
      if (j < q) && conv s j then ok (goto s t (Quad i j.+1 its))
      else if j == q then ok (goto s t (Enter i))
      else None
  | Quad i j its, Store _ x =>
      if (j < q) && ~~ conv s j
      then ok (goto (set_cell s i j (quad_cell x (nth None its j))) t (Quad i j.+1 its))
      else None
  | Enter i, Go _ =>
      if lock s is None then
        ok (goto (acquire s t i) t
              (if (size (processed s)).+1 < m then Few i 0 else Check i 0))
      else None
  | Few i j, Go _ =>
      if j < q then
        ok (goto (set_used (set_conv s j false) j (size (processed s))) t (Few i j.+1))
      else if j == q then ok (goto (release s false) t Idle)
      else None
  | Check i j, Go _ =>
      if (j < q) && conv s j then ok (goto s t (Check i j.+1))
      else if j == q then ok (goto s t (Scan i 0))
      else None
  | Check i j, Test_is _ b =>
      if (j < q) && ~~ conv s j
      then Some (goto (set_used (set_conv s j b) j (size (processed s))) t (Check i j.+1),
                 [:: (column s j, b)])
      else None
  | Scan i j, Go _ =>
      if j < q then
        if conv s j then ok (goto s t (Scan i j.+1)) else ok (goto (release s false) t Idle)
      else if j == q then ok (goto (release s true) t Idle)
      else None
  | _, _ => None
  end.

Fixpoint exec (l : seq act) (s : state) : option (state * seq (seq cell * bool)) :=
  match l with
  | [::] => Some (s, [::])
  | a :: l' =>
      if act_thread a < threads then
        if do_act a s is Some (s1, o1) then
          if exec l' s1 is Some (s2, o2) then Some (s2, o1 ++ o2) else None
        else None
      else None
  end.

Variable decide : seq cell -> bool.

Fixpoint agree (obl : seq (seq cell * bool)) : Prop :=
  match obl with
  | [::] => True
  | o :: r => decide o.1 = o.2 /\ agree r
  end.

Lemma agree_cat a b : agree (a ++ b) -> agree a /\ agree b.
Proof. by elim: a => [|o a IH] //= [-> /IH [? ?]]. Qed.

Lemma do_act_step a s s' obl : do_act a s = Some (s', obl) -> agree obl ->
  step q m known decide (act_thread a) s s'.
Proof.
  rewrite /do_act. set t := act_thread a.
  case Ep: (pcs s t) => [|i|i j its|i j its ps|i j its|i j its|i|i j|i j|i j];
    case: a @t Ep => [t|t|t x|t b] //= Ep.
  - case Et: (todo s) => [|i r] // [<- _] _.
    have -> : r = rem i (todo s) by rewrite Et /= eqxx.
    by apply: st_take; rewrite // Et mem_head.
  - case: ifP => Ha [<- _] _; first exact: st_skip Ep Ha.
    by apply: st_start Ep _; rewrite Ha.
  - case: ifP => Hj; last case: eqP => // Ej.
    + case: ifP => Hc [<- _] _; first exact: st_iter_skip Ep Hj Hc.
      by apply: st_iter_set Ep Hj _; rewrite Hc.
    + case=> <- _ _. rewrite Ej in Ep. exact: st_iter_end Ep.
  - case=> <- _ _. exact: st_mul_end Ep.
  - case=> <- _ _. exact: st_mul Ep.
  - case: ifP => Hj; last case: eqP => // Ej.
    + case=> <- _ _. exact: st_reset Ep Hj.
    + case=> <- _ _. rewrite Ej in Ep. exact: st_reset_end Ep.
  - case: ifP => [/andP [Hj Hc]|_]; last case: eqP => // Ej.
    + case=> <- _ _. exact: st_quad_skip Ep Hj Hc.
    + case=> <- _ _. rewrite Ej in Ep. exact: st_quad_end Ep.
  - case: ifP => // /andP [Hj Hc] [<- _] _. exact: st_quad_write Ep Hj Hc.
  - case El: (lock s) => // [] [<- _] _. exact: st_enter Ep El.
  - case: ifP => Hj; last case: eqP => // Ej.
    + case=> <- _ _. exact: st_few Ep Hj.
    + case=> <- _ _. rewrite Ej in Ep. exact: st_few_end Ep.
  - case: ifP => [/andP [Hj Hc]|_]; last case: eqP => // Ej.
    + case=> <- _ _. exact: st_check_skip Ep Hj Hc.
    + case=> <- _ _. rewrite Ej in Ep. exact: st_check_end Ep.
  - case: ifP => // /andP [Hj Hc] [<- <-] /= [<- _]. exact: st_check Ep Hj Hc.
  - case: ifP => Hj; last case: eqP => // Ej.
    + case: ifP => Hc [<- _] _; first exact: st_scan Ep Hj Hc.
      by apply: st_scan_no Ep Hj _; rewrite Hc.
    + case=> <- _ _. rewrite Ej in Ep. exact: st_scan_yes Ep.
Qed.

Lemma exec_steps l s s' obl : exec l s = Some (s', obl) -> agree obl ->
  steps threads q m known decide s s'.
Proof.
  elim: l s obl => [|a l IH] s obl /=; first by case=> <- _ _; apply: steps_refl.
  case: ifP => // Ht. case Ea: (do_act a s) => [[s1 o1]|] //.
  case El: (exec l s1) => [[s2 o2]|] // [E <-] /agree_cat [A1 A2].
  rewrite E in El. apply: steps_more Ht (do_act_step Ea A1) _. exact: IH El A2.
Qed.

End Exec.
