(** C16: a linear operator hands out an operator for the requested device
    configuration. *)
Require Import Arith Bool List Lia.
From Verif Require Import CacheModel.
Import ListNotations.

(** ** Specification *)
(** The number of devices a request means: 0 means all *)
Definition meant (all_devices n : nat) : nat := if n =? 0 then all_devices else n.
(** A request the machine can meet *)
Definition possible (all_devices : nat) (gpu_dtype : bool) (r : request) : Prop :=
  ok r = true /\ (gpu r = true -> gpu_dtype = true /\ 0 < all_devices /\ devices r <= all_devices).
(** The right answer *)
Definition right_answer (all_devices : nat) (r : request) : operator :=
  if gpu r then Gpu (meant all_devices (devices r)) else Cpu.
(** The devices asked for in the last GPU request of a history *)
Definition last_gpu (h : list event) : option nat :=
  fold_left (fun a e => if gpu (request_of e) then Some (devices (request_of e)) else a) h None.
(** Every request for the CPU that comes after one for the GPU asks for the same
    number of devices as that one *)
Definition steady (all_devices : nat) (h : list event) : Prop :=
  forall h1 e h2 n, h = h1 ++ e :: h2 -> gpu (request_of e) = false -> last_gpu h1 = Some n ->
    meant all_devices (devices (request_of e)) = meant all_devices n.

(** ** Proofs *)
Section C16.
Variables (all_devices : nat) (gpu_dtype : bool).
Notation state_after := (state_after all_devices gpu_dtype).
Notation answer := (answer all_devices gpu_dtype).
Notation possible := (possible all_devices gpu_dtype).
Notation meant := (meant all_devices).

Lemma get_state s r : fst (get_linear_operator all_devices gpu_dtype s r) = fst (initialize all_devices gpu_dtype s r).
Proof. unfold get_linear_operator. now destruct initialize. Qed.

Lemma step_request s e : step all_devices gpu_dtype s e = fst (initialize all_devices gpu_dtype s (request_of e)).
Proof. destruct e; [reflexivity|apply get_state]. Qed.

Lemma state_after_snoc h e : state_after (h ++ [e]) = fst (initialize all_devices gpu_dtype (state_after h) (request_of e)).
Proof. unfold CacheModel.state_after. rewrite fold_left_app. apply step_request. Qed.

Lemma last_gpu_snoc h e : last_gpu (h ++ [e]) = if gpu (request_of e) then Some (devices (request_of e)) else last_gpu h.
Proof. unfold last_gpu. now rewrite fold_left_app. Qed.

(** A request for the CPU is always met, whatever happened before *)
Lemma cpu_flag h : on_cpu (state_after h) = true -> cpu_op (state_after h) = true.
Proof.
  induction h as [|e h IH] using rev_ind; [discriminate|].
  rewrite state_after_snoc. revert IH. generalize (state_after h). intros s IH.
  unfold initialize. cbv zeta.
  destruct (gpu (request_of e)), (negb (on_gpu s)), (construct_gpu all_devices gpu_dtype (request_of e)),
    (devices (request_of e) =? num s), (gpu_op s), (on_cpu s) eqn:E, (ok (request_of e));
  repeat match goal with |- context [if ?b then false else _] => destruct b end;
  simpl; try rewrite E; trivial; auto.
Qed.

Theorem C16_cpu h r : gpu r = false -> ok r = true -> answer h r = Done Cpu.
Proof.
  intros G K. unfold CacheModel.answer, get_linear_operator, initialize. rewrite G, K.
  destruct (on_cpu (state_after h)) eqn:E; simpl; [|reflexivity].
  rewrite (cpu_flag h E); try rewrite E; reflexivity.
Qed.

(** The state after a steady history of possible requests *)
Lemma steady_prefix h e : steady all_devices (h ++ [e]) -> steady all_devices h.
Proof. intros S h1 f h2 n -> . apply (S h1 f (h2 ++ [e]) n). now rewrite <- app_assoc. Qed.

Lemma construct_possible r : possible r -> gpu r = true -> construct_gpu all_devices gpu_dtype r = Done (meant (devices r)).
Proof.
  intros [K P] G. destruct (P G) as (D & A & L). unfold construct_gpu, PropCache.meant. rewrite K, D. simpl.
  destruct (Nat.eqb_spec all_devices 0); [lia|]. destruct (Nat.eqb_spec (devices r) 0); [reflexivity|].
  destruct (Nat.ltb_spec all_devices (devices r)); [lia|reflexivity].
Qed.

Lemma meant_cases a b : 0 < all_devices -> meant a = meant b ->
  a = b \/ (a = 0 /\ b = all_devices) \/ (a = all_devices /\ b = 0).
Proof.
  unfold PropCache.meant. intros H. destruct (Nat.eqb_spec a 0), (Nat.eqb_spec b 0); lia.
Qed.

(** Serving a possible request for the GPU *)
Lemma serve_gpu s r d : possible r -> gpu r = true ->
  (if on_gpu s then gpu_op s = Op d /\ meant (num s) = d else gpu_op s = NoOp) ->
  initialize all_devices gpu_dtype s r =
  (State (cpu_op s) (Op (meant (devices r))) (devices r) (on_cpu s) true, Done tt).
Proof.
  intros P G I. assert (C := construct_possible r P G). destruct P as [_ P]. destruct (P G) as (_ & A & _).
  unfold initialize. rewrite G, C. destruct s as [co go nu oc og]; simpl in *. destruct og; simpl; [|reflexivity].
  destruct I as [-> Id].
  destruct (Nat.eqb_spec (devices r) nu) as [E|N]; [now subst|].
  destruct (Nat.eqb_spec (devices r) 0) as [Z|Z]; simpl.
  - destruct (Nat.eqb_spec nu all_devices) as [E1|N1]; simpl.
    + subst. f_equal. f_equal. unfold PropCache.meant. rewrite Z. simpl. now destruct (Nat.eqb_spec all_devices 0).
    + destruct (Nat.eqb_spec (devices r) all_devices); [lia|]. reflexivity.
  - destruct (Nat.eqb_spec (devices r) all_devices) as [E2|N2]; simpl; [|reflexivity].
    destruct (Nat.eqb_spec nu 0) as [E3|N3]; [|reflexivity].
    rewrite <- Id, E3, E2. unfold PropCache.meant. simpl. destruct (Nat.eqb_spec all_devices 0); [lia|reflexivity].
Qed.

Lemma steady_state h : steady all_devices h -> (forall e, In e h -> possible (request_of e)) ->
  match last_gpu h with
  | Some n => on_gpu (state_after h) = true /\ gpu_op (state_after h) = Op (meant n) /\ meant (num (state_after h)) = meant n
  | None => on_gpu (state_after h) = false /\ gpu_op (state_after h) = NoOp
  end.
Proof.
  induction h as [|e h IH] using rev_ind; intros S P; [split; reflexivity|].
  specialize (IH (steady_prefix _ _ S) (fun f Hf => P f (in_or_app _ _ _ (or_introl Hf)))).
  assert (Pe : possible (request_of e)) by (apply P, in_or_app; right; now left).
  rewrite state_after_snoc, last_gpu_snoc. destruct (gpu (request_of e)) eqn:G.
  - destruct (last_gpu h) as [n|].
    + destruct IH as (I1 & I2 & I3). rewrite (serve_gpu _ _ (meant n) Pe G); [|now rewrite I1].
      simpl. now repeat split.
    + destruct IH as (I1 & I2). rewrite (serve_gpu _ _ 0 Pe G); [|now rewrite I1]. simpl. now repeat split.
  - assert (Hn : forall n, last_gpu h = Some n -> meant (devices (request_of e)) = meant n).
    { intros n Hn. now apply (S h e [] n). }
    unfold initialize. rewrite G, (proj1 Pe).
    destruct (on_cpu (state_after h)); simpl; destruct (last_gpu h) as [n|];
      (destruct IH as (I1 & I2 & I3) || destruct IH as (I1 & I2)); repeat split; auto.
Qed.

Theorem C16_right_answer_partial h r : steady all_devices h -> (forall e, In e h -> possible (request_of e)) ->
  possible r -> answer h r = Done (right_answer all_devices r).
Proof.
  intros S P Pr. unfold right_answer. destruct (gpu r) eqn:G; [|now apply C16_cpu; [|apply Pr]].
  assert (I := steady_state h S P).
  unfold CacheModel.answer, get_linear_operator.
  assert (E : initialize all_devices gpu_dtype (state_after h) r =
    (State (cpu_op (state_after h)) (Op (meant (devices r))) (devices r) (on_cpu (state_after h)) true, Done tt)).
  { destruct (last_gpu h) as [n|].
    - destruct I as (I1 & I2 & I3). apply (serve_gpu _ _ (meant n) Pr G). now rewrite I1.
    - destruct I as (I1 & I2). apply (serve_gpu _ _ 0 Pr G). now rewrite I1. }
  rewrite E. now rewrite G.
Qed.

(** In particular when all requests are for the GPU *)
Theorem C16_gpu_only h r : (forall e, In e h -> gpu (request_of e) = true) ->
  (forall e, In e h -> possible (request_of e)) -> possible r -> answer h r = Done (right_answer all_devices r).
Proof.
  intros G P Pr. apply C16_right_answer_partial; trivial.
  intros h1 e h2 n -> F. rewrite G in F; [discriminate|]. apply in_or_app. right. now left.
Qed.

Lemma first_gpu a : gpu_dtype = true -> 0 < all_devices -> a <= all_devices ->
  state_after [Get (Request true a true)] = State false (Op (meant a)) a false true.
Proof.
  intros D A La. change [Get (Request true a true)] with ([] ++ [Get (Request true a true)]).
  rewrite state_after_snoc, (serve_gpu _ _ 0); [reflexivity|split; simpl; auto|reflexivity|reflexivity].
Qed.

(** The full statement is false: a request for the CPU in between resets the
    number of devices, and the stale operator is handed out. The library asks for
    the CPU operator with the default 0 devices (trace_estimator.pyx 251). *)
Theorem C16_stale_refuted a b : gpu_dtype = true -> 0 < all_devices -> a <= all_devices -> b <= all_devices ->
  meant a <> meant b ->
  exists h r, (forall e, In e h -> possible (request_of e)) /\ possible r /\ gpu r = true /\
    answer h r = Done (Gpu (meant a)) /\ answer h r <> Done (right_answer all_devices r).
Proof.
  intros D A La Lb N.
  exists [Get (Request true a true); Get (Request false b true)], (Request true b true).
  assert (Ans : answer [Get (Request true a true); Get (Request false b true)] (Request true b true) = Done (Gpu (meant a))).
  { unfold CacheModel.answer. change [Get (Request true a true); Get (Request false b true)] with
      ([Get (Request true a true)] ++ [Get (Request false b true)]).
    rewrite state_after_snoc, first_gpu by trivial. simpl.
    unfold get_linear_operator, initialize. simpl. now rewrite Nat.eqb_refl. }
  split; [|split; [|split; [reflexivity|split; [exact Ans|]]]].
  - intros e H. split; [destruct H as [<-|[<-|[]]]; reflexivity|].
    destruct H as [<-|[<-|[]]]; simpl; [auto|discriminate].
  - split; simpl; auto.
  - rewrite Ans. unfold right_answer. simpl. intros E. now injection E.
Qed.

(** An exception while a new operator is built loses the old one for good: later
    requests for the configuration that worked before fail *)
Theorem C16_interrupted_refuted a b : gpu_dtype = true -> 0 < all_devices -> a <= all_devices ->
  meant a <> meant b ->
  answer [Get (Request true a true); Get (Request true b false)] (Request true a true) = Fail AttributeError.
Proof.
  intros D A La N. unfold CacheModel.answer.
  change [Get (Request true a true); Get (Request true b false)] with
      ([Get (Request true a true)] ++ [Get (Request true b false)]).
  rewrite state_after_snoc, first_gpu by trivial.
  assert (Nab : b <> a) by congruence.
  unfold initialize at 1. simpl. destruct (Nat.eqb_spec b a); [lia|].
  assert (R : (if (b =? 0) && (a =? all_devices) then false else if (b =? all_devices) && (a =? 0) then false else true) = true).
  { unfold PropCache.meant in N.
    destruct (Nat.eqb_spec b 0), (Nat.eqb_spec a all_devices), (Nat.eqb_spec b all_devices), (Nat.eqb_spec a 0); simpl; try reflexivity; lia. }
  rewrite R. unfold construct_gpu. simpl.
  unfold get_linear_operator, initialize. simpl. now rewrite Nat.eqb_refl.
Qed.
End C16.

(** ** Cases: four devices *)
Example C16_example_steady :
  let h := [Get (Request false 0 true); Initialize (Request true 2 true); Get (Request false 2 true);
            Get (Request true 4 true); Get (Request false 0 true)] in
  steady 4 h /\ (forall e, In e h -> possible 4 true (request_of e)) /\
  answer 4 true h (Request true 0 true) = Done (Gpu 4).
Proof.
  split; [|split; [|reflexivity]].
  - intros h1 e h2 n E F L.
    do 5 (destruct h1 as [|? h1]; [injection E as <- <-; simpl in *; (discriminate || (injection L as <-; reflexivity))|injection E as <- E]).
    destruct h1; discriminate.
  - intros e H. unfold possible. simpl in H.
    destruct H as [<-|[<-|[<-|[<-|[<-|[]]]]]]; simpl; repeat split; trivial; lia || discriminate.
Qed.
Example C16_example_stale :
  answer 4 true [Get (Request true 2 true); Get (Request false 0 true)] (Request true 0 true) = Done (Gpu 2).
Proof. reflexivity. Qed.

Print Assumptions C16_cpu.
Print Assumptions C16_right_answer_partial.
Print Assumptions C16_gpu_only.
Print Assumptions C16_stale_refuted.
Print Assumptions C16_interrupted_refuted.
