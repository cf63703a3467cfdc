(** C50: the timer accumulates exactly the timed intervals. *)
Require Import ZArith List Lia.
From Verif Require Import DeviceModel.
Import ListNotations.
Local Open Scope Z_scope.

(** ** Specification *)

(** An interval timed by one tic and one toc: the clocks at the tic and at the
    toc *)
Record interval := Interval { w0 : Z; p0 : Z; w1 : Z; p1 : Z }.
Definition wall_of (i : interval) : Z := w1 i - w0 i.
Definition proc_of (i : interval) : Z := p1 i - p0 i.
Definition sum_of (f : interval -> Z) (l : list interval) : Z := fold_right (fun i s => f i + s) 0 l.
(** The calls that time the intervals one after the other *)
Definition timed (l : list interval) : list call :=
  flat_map (fun i => [Tic (w0 i) (p0 i); Toc (w1 i) (p1 i)]) l.

(** A history after which the timer is as good as new: no calls, or any calls
    with a reset at the end *)
Definition fresh (h : list call) : Prop := h = [] \/ exists h', h = h' ++ [Reset].

(** What the user reads *)
Definition observe (t : timer) : Z * Z * Z := (wall_time t, proc_time t, count t).

Definition is_reset (c : call) : bool := match c with Reset => true | _ => false end.
(** The clocks at the last tic *)
Definition last_tic (h : list call) : Z * Z :=
  fold_left (fun a c => match c with Tic w p => (w, p) | _ => a end) h (0, 0).
(** The number of positions where a tic is directly followed by a toc *)
Fixpoint pairs (h : list call) : Z :=
  match h with
  | Tic _ _ :: ((Toc _ _ :: _) as r) => 1 + pairs r
  | _ :: r => pairs r
  | [] => 0
  end.
(** The sum over the tocs of the time since the last tic *)
Definition toc_sum (clock : Z * Z -> Z) (pre cs : list call) : Z :=
  fold_right Z.add 0 (map (fun i =>
    match nth_error cs i with
    | Some (Toc w p) => clock (w, p) - clock (last_tic (pre ++ firstn i cs))
    | _ => 0
    end) (seq 0 (length cs))).

(** ** Proofs *)
Lemma run_app h a b : run h (a ++ b) = fold_left apply_call b (run h a).
Proof. apply fold_left_app. Qed.

Lemma hold_run h a : hold (run h a) = h.
Proof.
  unfold run. assert (H : forall t, hold (fold_left apply_call a t) = hold t).
  { induction a as [|c a IH]; intros t; [reflexivity|]. simpl. rewrite IH.
    destruct c; simpl; unfold toc; try destruct (tic_initiated t); reflexivity. }
  now rewrite H.
Qed.

Lemma fresh_zero h a : fresh a ->
  wall_time (run h a) = 0 /\ proc_time (run h a) = 0 /\ count (run h a) = 0 /\ tic_initiated (run h a) = false.
Proof. intros [->|[h' ->]]; [now repeat split|]. rewrite run_app. now repeat split. Qed.

(** The times of the intervals timed after [a] *)
Theorem C50_hold a l : fresh a ->
  observe (run true (a ++ timed l)) = (sum_of wall_of l, sum_of proc_of l, Z.of_nat (length l)).
Proof.
  intros F. destruct (fresh_zero true a F) as (Hw & Hp & Hc & _). rewrite run_app.
  assert (H : forall t, hold t = true -> observe (fold_left apply_call (timed l) t) =
     (wall_time t + sum_of wall_of l, proc_time t + sum_of proc_of l, count t + Z.of_nat (length l))).
  { clear. induction l as [|i l IH]; intros t Ht; simpl.
    - unfold observe. (f_equal; [f_equal|]); lia.
    - rewrite IH; [|exact Ht]. unfold toc, tic; cbn -[Z.of_nat]. rewrite Ht. cbn -[Z.of_nat].
      unfold wall_of, proc_of. (f_equal; [f_equal|]); lia. }
  rewrite H by apply hold_run. now rewrite Hw, Hp, Hc.
Qed.

Theorem C50_no_hold a l i : fresh a ->
  observe (run false (a ++ timed (l ++ [i]))) = (wall_of i, proc_of i, Z.of_nat (length (l ++ [i]))).
Proof.
  intros F. destruct (fresh_zero false a F) as (_ & _ & Hc & _). rewrite run_app.
  assert (E : timed (l ++ [i]) = timed l ++ timed [i]) by apply flat_map_app.
  rewrite E, fold_left_app.
  assert (H : forall t, count (fold_left apply_call (timed l) t) = count t + Z.of_nat (length l)).
  { clear. induction l as [|j l IH]; intros t; cbn -[Z.of_nat]; [lia|].
    rewrite IH. unfold toc, tic; cbn -[Z.of_nat]. lia. }
  assert (G : hold (fold_left apply_call (timed l) (run false a)) = false).
  { rewrite <- run_app. apply hold_run. }
  specialize (H (run false a)). rewrite Hc in H.
  revert G H. generalize (fold_left apply_call (timed l) (run false a)). intros t G H.
  cbn. unfold toc, tic, observe; cbn. rewrite G, H, app_length, Nat2Z.inj_add. reflexivity.
Qed.

(** reset() clears what the user reads, and what is read afterwards is what a new
    timer would show, as soon as tic is called before toc *)
Theorem C50_reset h a : observe (run h (a ++ [Reset])) = (0, 0, 0).
Proof. now rewrite run_app. Qed.

Theorem C50_reset_as_new h a w p b :
  observe (run h (a ++ Reset :: Tic w p :: b)) = observe (run h (Tic w p :: b)).
Proof.
  change (Tic w p :: b) with ([] ++ Tic w p :: b) at 2. rewrite !run_app. simpl.
  replace (tic w p (reset (run h a))) with (tic w p (run h [])); [reflexivity|].
  unfold tic, reset. simpl. now rewrite hold_run.
Qed.

(** Any calls at all: [count] is the number of complete pairs since the last
    reset, and with hold every toc adds the time since the last tic *)
Lemma init_run h a : (init_wall_time (run h a), init_proc_time (run h a)) = last_tic a.
Proof.
  unfold run, last_tic. change (0, 0) with (init_wall_time (new_timer h), init_proc_time (new_timer h)).
  generalize (new_timer h). induction a as [|c a IH]; intros t; [reflexivity|]. simpl.
  rewrite IH. destruct c; simpl; unfold toc; try destruct (tic_initiated t); reflexivity.
Qed.

Lemma pairs_snoc cs c : pairs (cs ++ [c]) =
  pairs cs + (match last cs Reset, c with Tic _ _, Toc _ _ => 1 | _, _ => 0 end).
Proof.
  induction cs as [|d cs IH]; [now destruct c|].
  destruct cs as [|e cs]; [now destruct d, c|].
  change (last (d :: e :: cs) Reset) with (last (e :: cs) Reset).
  change ((d :: e :: cs) ++ [c]) with (d :: e :: (cs ++ [c])).
  change ((e :: cs) ++ [c]) with (e :: (cs ++ [c])) in IH.
  destruct d as [w p|w p|], e as [w' p'|w' p'|]; cbn [pairs]; cbn [pairs] in IH; rewrite IH; ring.
Qed.

Theorem C50_count h a cs : fresh a -> forallb (fun c => negb (is_reset c)) cs = true ->
  count (run h (a ++ cs)) = pairs cs.
Proof.
  intros F. destruct (fresh_zero h a F) as (_ & _ & Hc & Hi).
  enough (forallb (fun c => negb (is_reset c)) cs = true -> count (run h (a ++ cs)) = pairs cs /\
    tic_initiated (run h (a ++ cs)) = match last cs Reset with Tic _ _ => true | _ => false end) by (intros; now apply H).
  induction cs as [|c cs IH] using rev_ind; intros HR.
  - rewrite app_nil_r. auto.
  - rewrite forallb_app in HR. apply andb_prop in HR. destruct HR as [HR Hc'].
    destruct (IH HR) as [I1 I2]. rewrite app_assoc, run_app, pairs_snoc, last_last. simpl.
    destruct c as [w p|w p|]; [simpl|simpl|discriminate].
    + split; [|reflexivity]. rewrite I1. destruct (last cs Reset); ring.
    + unfold toc. rewrite I2. destruct (last cs Reset); simpl; rewrite I1; split; (reflexivity || ring).
Qed.

Lemma fold_add_app l m : fold_right Z.add 0 (l ++ m) = fold_right Z.add 0 l + fold_right Z.add 0 m.
Proof. induction l as [|x l IH]; simpl; [reflexivity|rewrite IH; ring]. Qed.

Lemma toc_sum_snoc f a cs c : toc_sum f a (cs ++ [c]) =
  toc_sum f a cs + match c with Toc w p => f (w, p) - f (last_tic (a ++ cs)) | _ => 0 end.
Proof.
  unfold toc_sum. rewrite app_length, Nat.add_1_r, seq_S, map_app, fold_add_app. simpl. f_equal.
  - f_equal. apply map_ext_in. intros i Hi. apply in_seq in Hi.
    rewrite nth_error_app1 by lia. rewrite firstn_app.
    replace (i - length cs)%nat with 0%nat by lia. now rewrite app_nil_r.
  - rewrite nth_error_app2, Nat.sub_diag by lia. simpl.
    rewrite firstn_app, firstn_all, Nat.sub_diag, app_nil_r. destruct c; ring.
Qed.

Theorem C50_hold_any a cs : fresh a -> forallb (fun c => negb (is_reset c)) cs = true ->
  wall_time (run true (a ++ cs)) = toc_sum fst a cs /\ proc_time (run true (a ++ cs)) = toc_sum snd a cs.
Proof.
  intros F. destruct (fresh_zero true a F) as (Hw & Hp & _).
  induction cs as [|c cs IH] using rev_ind; intros HR.
  - rewrite app_nil_r. auto.
  - rewrite forallb_app in HR. apply andb_prop in HR. destruct HR as [HR Hc'].
    destruct (IH HR) as [I1 I2]. rewrite !toc_sum_snoc, <- I1, <- I2, <- (init_run true), app_assoc, run_app.
    destruct c as [w p|w p|]; [simpl; split; ring|simpl|discriminate].
    unfold toc. rewrite hold_run. destruct (tic_initiated (run true (a ++ cs))); simpl; split; ring.
Qed.

(** The documentation allows several tocs after one tic and says that the
    measured time is then the time since the last tic. With the default
    hold=True the first interval is added again. *)
Theorem C50_repeated_toc_refuted u p v q x r : u < v -> v <= x ->
  wall_time (run true [Tic u p; Toc v q; Toc x r]) = (v - u) + (x - u) /\
  x - u < wall_time (run true [Tic u p; Toc v q; Toc x r]).
Proof. intros H1 H2. cbn. lia. Qed.

(** ** Cases *)
Example C50_example : observe (run true ([Tic 3 1; Reset] ++ timed [Interval 10 5 17 8; Interval 20 9 25 20])) = (12, 14, 2).
Proof. reflexivity. Qed.
Example C50_example_fresh : fresh [Tic 3 1; Reset].
Proof. right. now exists [Tic 3 1]. Qed.
Example C50_example_no_hold : observe (run false (timed [Interval 10 5 17 8; Interval 20 9 25 20])) = (5, 11, 2).
Proof. reflexivity. Qed.
Example C50_example_any : wall_time (run true [Tic 1 0; Toc 3 0; Toc 7 0]) = 8 /\ pairs [Tic 1 0; Toc 3 0; Toc 7 0] = 1.
Proof. split; reflexivity. Qed.

Print Assumptions C50_hold.
Print Assumptions C50_no_hold.
Print Assumptions C50_reset.
Print Assumptions C50_reset_as_new.
Print Assumptions C50_count.
Print Assumptions C50_hold_any.
Print Assumptions C50_repeated_toc_refuted.
