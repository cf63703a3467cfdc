(** The parallel generation of dense correlation matrices: C45 (the loop). *)
Require Import ZArith List Arith Lia.
From Verif Require Import DenseCorrModel.
Import ListNotations.

(** The matrix, stored by rows, fits in 32-bit indices: at most 46340 points *)
Definition fits (n : nat) : Prop := (Z.of_nat n * Z.of_nat n <= 2 ^ 31)%Z.

Section Run.
Variable V : Type.
Variable K : nat -> nat -> V.
Variables (n threads : nat).
Hypothesis Hfits : fits n.

Local Notation step := (step V K n).
Local Notation steps := (steps V K n threads).
Local Notation reachable := (reachable V K n threads).
Local Notation finished := (finished V threads).
Local Notation state := (state V).
Local Notation address := (address n).

(** Position of entry (i, j) *)
Definition pos (i j : nat) : Z := (Z.of_nat i * Z.of_nat n + Z.of_nat j)%Z.

Lemma wrap32_id z : (0 <= z < 2 ^ 31)%Z -> wrap32 z = z.
Proof. intros H. unfold wrap32. rewrite Z.mod_small; lia. Qed.

Lemma address_pos i j : i < n -> j < n -> address i j = pos i j.
Proof.
intros Hi Hj. unfold DenseCorrModel.address, pos, fits in *.
rewrite (wrap32_id (Z.of_nat i * Z.of_nat n)) by nia. apply wrap32_id. nia.
Qed.

Lemma pos_inj i j i' j' : j < n -> j' < n -> pos i j = pos i' j' -> i = i' /\ j = j'.
Proof.
unfold pos. intros Hj Hj' E.
assert (i = i') by nia. subst i'. split; [reflexivity|lia].
Qed.

Definition held (p : pc V) : option nat :=
  match p with
  | Idle _ => None
  | Compute _ i _ | Fetch _ i _ | Put _ i _ _ => Some i
  end.

(** Entries (i, k) and (k, i) for the columns before j *)
Definition written (m : Z -> V) (i j : nat) : Prop :=
  forall k, i <= k -> k < j -> m (pos i k) = K i k /\ m (pos k i) = K i k.

Definition pc_ok (m : Z -> V) (p : pc V) : Prop :=
  match p with
  | Idle _ => True
  | Compute _ i j => i < n /\ i <= j /\ j <= n /\ written m i j
  | Fetch _ i j => i < j /\ j < n /\ written m i j /\ m (pos i j) = K i j
  | Put _ i j v => i < j /\ j < n /\ written m i j /\ m (pos i j) = K i j /\ v = K i j
  end.

Variable m0 : Z -> V.

Record inv (s : state) : Prop := Inv {
  i_ok : forall t, t < threads -> pc_ok (mem V s) (pcs V s t);
  i_todo : forall i, In i (todo V s) -> i < n;
  i_held : forall t i, t < threads -> held (pcs V s t) = Some i -> ~ In i (todo V s);
  i_dis : forall t t' i, t < threads -> t' < threads -> held (pcs V s t) = Some i ->
     held (pcs V s t') = Some i -> t = t';
  i_done : forall i, i < n -> In i (todo V s) \/
     (exists t, t < threads /\ held (pcs V s t) = Some i) \/ written (mem V s) i n;
  i_out : forall a, (a < 0 \/ Z.of_nat n * Z.of_nat n <= a)%Z -> mem V s a = m0 a }.

(** A write of row i does not change the entries of another row *)
Lemma store_other m i j v i' k : i < n -> i <= j -> j < n -> i' <= k -> k < n -> i <> i' ->
  (store V (store V m (pos i j) v) (pos j i) v (pos i' k) = m (pos i' k) /\
   store V (store V m (pos i j) v) (pos j i) v (pos k i') = m (pos k i')) /\
  (store V m (pos i j) v (pos i' k) = m (pos i' k) /\
   store V m (pos i j) v (pos k i') = m (pos k i')) /\
  (store V m (pos j i) v (pos i' k) = m (pos i' k) /\
   store V m (pos j i) v (pos k i') = m (pos k i')).
Proof.
intros. unfold store.
assert (E1 : pos i' k <> pos i j) by (intros E; apply pos_inj in E; lia).
assert (E2 : pos i' k <> pos j i) by (intros E; apply pos_inj in E; lia).
assert (E3 : pos k i' <> pos i j) by (intros E; apply pos_inj in E; lia).
assert (E4 : pos k i' <> pos j i) by (intros E; apply pos_inj in E; lia).
apply Z.eqb_neq in E1, E2, E3, E4. rewrite E1, E2, E3, E4. repeat split; reflexivity.
Qed.

(** m' differs from m in entries (i, j) or (j, i) at most *)
Definition near (m m' : Z -> V) (i j : nat) : Prop :=
  forall a, a <> pos i j -> a <> pos j i -> m' a = m a.

Lemma near_entry m m' i j i' k : near m m' i j -> i < n -> i <= j -> j < n -> i' <= k -> k < n ->
  (i', k) <> (i, j) -> m' (pos i' k) = m (pos i' k) /\ m' (pos k i') = m (pos k i').
Proof.
intros N Hi Hij Hj Hik Hk D.
assert (D' : i' <> i \/ k <> j).
{ destruct (Nat.eq_dec i' i); [right|left; assumption]. intros ->. subst. apply D. reflexivity. }
split; apply N; intros E; apply pos_inj in E; lia.
Qed.

Lemma near_written m m' i j i' c : near m m' i j -> i < n -> i <= j -> j < n -> c <= n ->
  i' <> i \/ c <= j -> written m i' c -> written m' i' c.
Proof.
intros N Hi Hij Hj Hc D W k Hk Hkc. destruct (W k Hk Hkc) as [W1 W2].
destruct (near_entry _ _ _ _ i' k N Hi Hij Hj Hk) as [E1 E2]; [lia| |].
{ intros E. injection E. lia. }
rewrite E1, E2. split; assumption.
Qed.

Lemma near_pc m m' i j p : near m m' i j -> i < n -> i <= j -> j < n -> held p <> Some i ->
  pc_ok m p -> pc_ok m' p.
Proof.
intros N Hi Hij Hj Hp. destruct p as [|i' c|i' c|i' c v]; simpl in *; try tauto.
- intros (A & B & C & W). repeat split; try assumption; try lia.
  + apply (near_written _ _ _ _ _ _ N Hi Hij Hj C) in W; [|left; congruence].
    apply (W k); assumption.
  + apply (near_written _ _ _ _ _ _ N Hi Hij Hj C) in W; [|left; congruence].
    apply (W k); assumption.
- intros (A & B & W & E). split; [assumption|]. split; [assumption|]. split.
  + apply (near_written _ _ _ _ _ _ N Hi Hij Hj); [lia|left; congruence|assumption].
  + rewrite <- E. apply (near_entry _ _ _ _ i' c N Hi Hij Hj); try lia.
    intros E'. injection E'. congruence.
- intros (A & B & W & E & Ev). split; [assumption|]. split; [assumption|]. split.
  + apply (near_written _ _ _ _ _ _ N Hi Hij Hj); [lia|left; congruence|assumption].
  + split; [|assumption].
    rewrite <- E. apply (near_entry _ _ _ _ i' c N Hi Hij Hj); try lia.
    intros E'. injection E'. congruence.
Qed.

Lemma near_refl m i j : near m m i j.
Proof. intros a _ _. reflexivity. Qed.
Lemma near_store1 m i j v : near m (store V m (pos i j) v) i j.
Proof. intros a H1 H2. unfold store. apply Z.eqb_neq in H1. rewrite H1. reflexivity. Qed.
Lemma near_store2 m i j v : near m (store V m (pos j i) v) i j.
Proof. intros a H1 H2. unfold store. apply Z.eqb_neq in H2. rewrite H2. reflexivity. Qed.
Lemma store_same m a v : store V m a v a = v.
Proof. unfold store. rewrite Z.eqb_refl. reflexivity. Qed.
Lemma store_diff m a v b : b <> a -> store V m a v b = m b.
Proof. intros H. unfold store. apply Z.eqb_neq in H. rewrite H. reflexivity. Qed.

Lemma upd_same f t p : upd V f t p t = p.
Proof. unfold upd. rewrite Nat.eqb_refl. reflexivity. Qed.
Lemma upd_diff f t p t' : t' <> t -> upd V f t p t' = f t'.
Proof. intros H. unfold upd. apply Nat.eqb_neq in H. rewrite H. reflexivity. Qed.

Lemma pos_range i j : i < n -> j < n -> (0 <= pos i j < Z.of_nat n * Z.of_nat n)%Z.
Proof. unfold pos. nia. Qed.

(** A step within row i that keeps the row *)
Lemma inv_row s t i j p m' : inv s -> t < threads -> held (pcs V s t) = Some i ->
  held p = Some i -> i < n -> i <= j -> j < n -> near (mem V s) m' i j ->
  pc_ok m' p -> inv (State V (todo V s) (upd V (pcs V s) t p) m').
Proof.
intros [Iok Itodo Iheld Idis Idone Iout] Ht Hh Hp Hi Hij Hj N Hpc. constructor; simpl.
- intros t' Ht'. destruct (Nat.eq_dec t' t) as [->|D]; [rewrite upd_same; assumption|].
  rewrite upd_diff by assumption. apply (near_pc _ _ _ _ _ N Hi Hij Hj); [|auto].
  intros E. apply D. apply (Idis t' t i); assumption.
- assumption.
- intros t' i' Ht' E. destruct (Nat.eq_dec t' t) as [->|D].
  + rewrite upd_same in E. apply (Iheld t); congruence.
  + rewrite upd_diff in E by assumption. apply (Iheld t'); assumption.
- intros t1 t2 i' H1 H2 E1 E2.
  assert (E1' : held (pcs V s t1) = Some i').
  { destruct (Nat.eq_dec t1 t) as [->|D]; [rewrite upd_same in E1; congruence|].
    rewrite upd_diff in E1; assumption. }
  assert (E2' : held (pcs V s t2) = Some i').
  { destruct (Nat.eq_dec t2 t) as [->|D]; [rewrite upd_same in E2; congruence|].
    rewrite upd_diff in E2; assumption. }
  apply (Idis t1 t2 i'); assumption.
- intros r Hr. destruct (Nat.eq_dec r i) as [->|D].
  + right. left. exists t. split; [assumption|]. rewrite upd_same. assumption.
  + destruct (Idone r Hr) as [H|[(t' & Ht' & E)|W]]; [left; assumption| |].
    * right. left. exists t'. split; [assumption|]. rewrite upd_diff; [assumption|].
      intros ->. congruence.
    * right. right. apply (near_written _ _ _ _ _ _ N Hi Hij Hj); [lia|left; assumption|assumption].
- intros a Ha. rewrite <- (Iout a Ha). apply N; intros ->.
  + assert (H := pos_range i j Hi Hj). lia.
  + assert (H := pos_range j i Hj Hi). lia.
Qed.

Lemma inv_step s t s' : t < threads -> inv s -> step t s s' -> inv s'.
Proof.
intros Ht J S. assert (Iok := i_ok s J t Ht).
destruct S as [i Ep Hin|i Ep Hlt|i j Ep Hlt D|i j Ep|i j v Ep|i Ep]; rewrite Ep in Iok; simpl in Iok.
- (* take *)
  destruct J as [I1 Itodo Iheld Idis Idone Iout]. constructor; simpl.
  + intros t' Ht'. destruct (Nat.eq_dec t' t) as [->|Dt]; [rewrite upd_same|].
    * simpl. assert (i < n) by auto. repeat split; try lia.
    * rewrite upd_diff by assumption. apply I1; assumption.
  + intros i' Hi'. apply in_remove in Hi'. apply Itodo. tauto.
  + intros t' i' Ht' E Hi'. apply in_remove in Hi'. destruct Hi' as [Hi' Dn].
    destruct (Nat.eq_dec t' t) as [->|Dt]; [rewrite upd_same in E; simpl in E; congruence|].
    rewrite upd_diff in E by assumption. apply (Iheld t' i'); assumption.
  + intros t1 t2 i' H1 H2 E1 E2.
    destruct (Nat.eq_dec t1 t) as [->|D1]; destruct (Nat.eq_dec t2 t) as [->|D2]; try reflexivity;
      rewrite ?upd_same, ?upd_diff in E1 by assumption;
      rewrite ?upd_same, ?upd_diff in E2 by assumption; simpl in *.
    * injection E1 as <-. exfalso. apply (Iheld t2 i); assumption.
    * injection E2 as <-. exfalso. apply (Iheld t1 i); assumption.
    * apply (Idis t1 t2 i'); assumption.
  + intros r Hr. destruct (Nat.eq_dec r i) as [->|Dr].
    * right. left. exists t. rewrite upd_same. split; [assumption|reflexivity].
    * destruct (Idone r Hr) as [H|[(t' & Ht' & E)|W]].
      -- left. apply in_in_remove; assumption.
      -- right. left. exists t'. split; [assumption|]. rewrite upd_diff; [assumption|].
         intros ->. rewrite Ep in E. discriminate.
      -- right. right. assumption.
  + assumption.
- (* diagonal *)
  destruct Iok as (A & B & C & W). rewrite address_pos by lia.
  apply (inv_row s t i i); try assumption; try lia; try reflexivity.
  + rewrite Ep. reflexivity.
  + apply near_store1.
  + simpl. repeat split; try lia.
    * assert (k = i) by lia. subst k. apply store_same.
    * assert (k = i) by lia. subst k. apply store_same.
- (* off-diagonal *)
  destruct Iok as (A & B & C & W). rewrite address_pos by lia.
  apply (inv_row s t i j); try assumption; try lia; try reflexivity.
  + rewrite Ep. reflexivity.
  + apply near_store1.
  + simpl. split; [lia|]. split; [assumption|]. split; [|apply store_same].
    apply (near_written (mem V s) _ i j); try assumption; try lia. apply near_store1.
- (* fetch *)
  destruct Iok as (A & B & W & E). rewrite address_pos by lia.
  apply (inv_row s t i j); try assumption; try lia; try reflexivity.
  + rewrite Ep. reflexivity.
  + apply near_refl.
  + simpl. repeat split; try assumption; try lia.
    * apply (W k); assumption.
    * apply (W k); assumption.
- (* put *)
  destruct Iok as (A & B & W & E & Ev). rewrite address_pos by lia.
  apply (inv_row s t i j); try assumption; try lia; try reflexivity.
  + rewrite Ep. reflexivity.
  + apply near_store2.
  + simpl. split; [lia|]. split; [lia|]. split; [lia|].
    intros k Hk Hk'. destruct (Nat.eq_dec k j) as [->|Dk].
    * split; [|rewrite store_same; assumption].
      rewrite store_diff; [assumption|]. intros E'. apply pos_inj in E'; lia.
    * assert (W' : written (store V (mem V s) (pos j i) v) i j).
      { apply (near_written (mem V s) _ i j); try assumption; try lia. apply near_store2. }
      apply W'; lia.
- (* the end *)
  destruct Iok as (A & B & C & W). destruct J as [I1 Itodo Iheld Idis Idone Iout]. constructor; simpl.
  + intros t' Ht'. destruct (Nat.eq_dec t' t) as [->|Dt]; [rewrite upd_same; exact I|].
    rewrite upd_diff by assumption. apply I1; assumption.
  + assumption.
  + intros t' i' Ht' E. destruct (Nat.eq_dec t' t) as [->|Dt]; [rewrite upd_same in E; discriminate|].
    rewrite upd_diff in E by assumption. apply (Iheld t'); assumption.
  + intros t1 t2 i' H1 H2 E1 E2.
    destruct (Nat.eq_dec t1 t) as [->|D1]; [rewrite upd_same in E1; discriminate|].
    destruct (Nat.eq_dec t2 t) as [->|D2]; [rewrite upd_same in E2; discriminate|].
    rewrite upd_diff in E1, E2 by assumption. apply (Idis t1 t2 i'); assumption.
  + intros r Hr. destruct (Idone r Hr) as [H|[(t' & Ht' & E)|W']]; [left; assumption| |right; right; assumption].
    destruct (Nat.eq_dec t' t) as [->|Dt].
    * rewrite Ep in E. injection E as <-. right. right. assumption.
    * right. left. exists t'. rewrite upd_diff by assumption. split; assumption.
  + assumption.
Qed.

Lemma inv_init : inv (init V n m0).
Proof.
constructor; simpl; try (intros; discriminate).
- intros; exact I.
- intros i H. apply in_seq in H. lia.
- intros i H. left. apply in_seq. lia.
- reflexivity.
Qed.

Lemma inv_reachable s : reachable m0 s -> inv s.
Proof.
intros R. assert (H := inv_init). unfold DenseCorrModel.reachable in R.
revert H. induction R as [s|s1 t s2 s3 Ht S R IH]; [auto|]. intros H. apply IH.
exact (inv_step s1 t s2 Ht H S).
Qed.
End Run.

(** C45: whatever the schedule, when the loop is over entry (i, j) of the matrix is
    the value of the kernel for points i and j, in either triangle, and nothing
    outside the matrix has been written at any time. *)
Theorem C45_loop V K n threads m0 s : fits n -> reachable V K n threads m0 s -> finished V threads s ->
  forall i j, i < n -> j < n ->
    mem V s (Z.of_nat i * Z.of_nat n + Z.of_nat j) = K (min i j) (max i j).
Proof.
intros Hf R [Ht Hp] i j Hi Hj. assert (I := inv_reachable V K n threads Hf m0 s R).
assert (W : forall r, r < n -> written V K n (mem V s) r n).
{ intros r Hr. destruct (i_done _ _ _ _ _ _ I r Hr) as [H|[(t & Htt & E)|H]]; [| |assumption].
  - rewrite Ht in H. destruct H.
  - rewrite (Hp t Htt) in E. discriminate. }
destruct (le_ge_dec i j) as [H|H].
- rewrite Nat.min_l, Nat.max_r by assumption. apply (W i Hi j); assumption.
- rewrite Nat.min_r, Nat.max_l by assumption. apply (W j Hj i); assumption.
Qed.

Theorem C45_inside V K n threads m0 s : fits n -> reachable V K n threads m0 s ->
  forall a, (a < 0 \/ Z.of_nat n * Z.of_nat n <= a)%Z -> mem V s a = m0 a.
Proof. intros Hf R. exact (i_out _ _ _ _ _ _ (inv_reachable V K n threads Hf m0 s R)). Qed.

(** A run that is not over can go on (with at least one thread) *)
Theorem C45_progress V K n threads m0 s : fits n -> 0 < threads -> reachable V K n threads m0 s ->
  finished V threads s \/ exists t s', t < threads /\ step V K n t s s'.
Proof.
intros Hf Hth R. assert (I := inv_reachable V K n threads Hf m0 s R).
assert (D : (forall t, t < threads -> pcs V s t = Idle V) \/
            exists t, t < threads /\ pcs V s t <> Idle V).
{ clear. induction threads as [|k IH]; [left; lia|]. destruct IH as [IH|(t & H & E)].
  - destruct (pcs V s k) eqn:E.
    + left. intros t Ht. destruct (Nat.eq_dec t k) as [->|Dk]; [assumption|]. apply IH. lia.
    + right. exists k. split; [lia|]. congruence.
    + right. exists k. split; [lia|]. congruence.
    + right. exists k. split; [lia|]. congruence.
  - right. exists t. split; [lia|assumption]. }
destruct D as [D|(t & Ht & D)].
- destruct (todo V s) as [|i l] eqn:E; [left; split; assumption|].
  right. exists 0. eexists. split; [assumption|]. apply (st_take V K n 0 s i); [auto|].
  rewrite E. left. reflexivity.
- right. exists t. assert (Iok := i_ok _ _ _ _ _ _ I t Ht).
  destruct (pcs V s t) as [|i j|i j|i j v] eqn:E; simpl in Iok; [congruence| | |].
  + destruct (Nat.eq_dec j n) as [->|Dj]; [eexists; split; [assumption|exact (st_end V K n t s i E)]|].
    destruct (Nat.eq_dec i j) as [<-|Dij].
    * eexists; split; [assumption|apply (st_diag V K n t s i E); lia].
    * eexists; split; [assumption|apply (st_off V K n t s i j E); lia].
  + eexists; split; [assumption|exact (st_fetch V K n t s i j E)].
  + eexists; split; [assumption|exact (st_put V K n t s i j v E)].
Qed.

(** Every step makes the work that is left smaller *)
Section Work.
Variable V : Type.
Variable K : nat -> nat -> V.
Variables (n threads : nat).

Definition pc_work (p : pc V) : nat :=
  match p with
  | Idle _ => 0
  | Compute _ _ j => 3 * (n - j) + 1
  | Fetch _ _ j => 3 * (n - j)
  | Put _ _ j _ => 3 * (n - j) - 1
  end.
Fixpoint pcs_work (k : nat) (f : nat -> pc V) : nat :=
  match k with O => 0 | S k => pcs_work k f + pc_work (f k) end.
Definition work (s : state V) : nat :=
  (3 * n + 2) * length (todo V s) + pcs_work threads (pcs V s).

Lemma pcs_work_upd k f t p : t < k ->
  pcs_work k (upd V f t p) + pc_work (f t) = pcs_work k f + pc_work p.
Proof.
induction k as [|k IH]; intros H; [lia|]. simpl. destruct (Nat.eq_dec t k) as [->|D].
- rewrite upd_same. clear IH H.
  assert (E : forall j, j <= k -> pcs_work j (upd V f k p) = pcs_work j f).
  { induction j as [|j IH]; intros Hj; [reflexivity|]. simpl. rewrite IH by lia.
    rewrite upd_diff by lia. reflexivity. }
  rewrite E by lia. lia.
- rewrite (upd_diff V f t p k) by congruence. assert (H' := IH ltac:(lia)). lia.
Qed.

Lemma length_remove i l : In i l -> length (remove Nat.eq_dec i l) < length l.
Proof.
assert (L : forall l, length (remove Nat.eq_dec i l) <= length l).
{ induction l0 as [|x l0 IH]; [auto|]. simpl. destruct (Nat.eq_dec i x); simpl; lia. }
induction l as [|x l IH]; [intros []|]. simpl. intros [->|H].
- destruct (Nat.eq_dec i i) as [_|F]; [|congruence]. specialize (L l). lia.
- specialize (IH H). destruct (Nat.eq_dec i x); simpl; lia.
Qed.

Lemma work_step m0 s t s' : inv V K n threads m0 s -> t < threads -> step V K n t s s' -> work s' < work s.
Proof.
intros J Ht S. assert (Iok := i_ok _ _ _ _ _ _ J t Ht). unfold work.
destruct S as [i Ep Hin|i Ep Hlt|i j Ep Hlt D|i j Ep|i j v Ep|i Ep]; rewrite Ep in Iok; simpl in Iok; simpl;
 match goal with |- context [pcs_work threads (upd V (pcs V s) t ?p)] =>
   assert (E := pcs_work_upd threads (pcs V s) t p Ht); rewrite Ep in E; simpl in E end.
- assert (L := length_remove i (todo V s) Hin). assert (i < n) by (apply (i_todo _ _ _ _ _ _ J); assumption). nia.
- lia.
- lia.
- lia.
- lia.
- lia.
Qed.
End Work.

(** Every run ends: it can be completed, whatever has happened so far *)
Theorem C45_completes V K n threads m0 s : fits n -> 0 < threads -> reachable V K n threads m0 s ->
  exists s', steps V K n threads s s' /\ finished V threads s'.
Proof.
intros Hf Hth R. remember (work V n threads s) as w eqn:Ew. assert (Hw : work V n threads s <= w) by lia.
clear Ew. revert s R Hw. induction w as [|w IH]; intros s R Hw;
  (destruct (C45_progress V K n threads m0 s Hf Hth R) as [F|(t & s1 & Ht & S)];
   [exists s; split; [apply steps_refl|assumption]|]);
  assert (L := work_step V K n threads m0 s t s1 (inv_reachable V K n threads Hf m0 s R) Ht S); [lia|].
destruct (IH s1) as (s' & S' & F).
- clear - R Ht S. unfold reachable in *. induction R as [s|s0 t0 s2 s3 Ht0 S0 R IH].
  + eapply steps_more; [exact Ht|exact S|apply steps_refl].
  + eapply steps_more; [exact Ht0|exact S0|apply IH; assumption].
- lia.
- exists s'. split; [|assumption]. eapply steps_more; [exact Ht|exact S|exact S'].
Qed.

(** and has no more than 3 n^2 + 2 n steps *)
Inductive run_of_length V K n threads : nat -> state V -> state V -> Prop :=
  | run_0 s : run_of_length V K n threads 0 s s
  | run_S k s1 t s2 s3 : t < threads -> step V K n t s1 s2 ->
      run_of_length V K n threads k s2 s3 -> run_of_length V K n threads (S k) s1 s3.

Theorem C45_terminates V K n threads m0 k s : fits n ->
  run_of_length V K n threads k (init V n m0) s -> k <= (3 * n + 2) * n.
Proof.
intros Hf R.
assert (G : forall s0, inv V K n threads m0 s0 -> run_of_length V K n threads k s0 s ->
  k + work V n threads s <= work V n threads s0).
{ clear R. intros s0 J R. induction R as [s|k s1 t s2 s3 Ht S R IH]; [lia|].
  assert (L := work_step V K n threads m0 s1 t s2 J Ht S).
  assert (J' := inv_step V K n threads Hf m0 s1 t s2 Ht J S). specialize (IH J'). lia. }
specialize (G _ (inv_init V K n threads m0) R).
assert (W : work V n threads (init V n m0) = (3 * n + 2) * n).
{ unfold work. simpl. rewrite seq_length.
  assert (E : forall j, pcs_work V n j (fun _ => Idle V) = 0).
  { induction j as [|j IH]; [reflexivity|]. simpl. rewrite IH. reflexivity. }
  rewrite E. lia. }
lia.
Qed.

(** With one point more, the last entry of the matrix is written outside the
    matrix (up to 65536 points: before it) *)
Lemma wrap32_add a b : wrap32 (wrap32 a + b) = wrap32 (a + b).
Proof.
unfold wrap32. f_equal.
replace ((a + 2 ^ 31) mod 2 ^ 32 - 2 ^ 31 + b + 2 ^ 31)%Z with ((a + 2 ^ 31) mod 2 ^ 32 + b)%Z by ring.
rewrite Zplus_mod_idemp_l. f_equal. ring.
Qed.

Lemma address_last n : (46341 <= Z.of_nat n <= 65536)%Z -> (address n (n - 1) (n - 1) < 0)%Z.
Proof.
intros H. unfold address. rewrite wrap32_add. unfold wrap32.
assert (E : (Z.of_nat (n - 1) * Z.of_nat n + Z.of_nat (n - 1) = Z.of_nat n * Z.of_nat n - 1)%Z).
{ replace (Z.of_nat (n - 1)) with (Z.of_nat n - 1)%Z by lia. ring. }
rewrite E. assert (H1 : (2 ^ 31 <= Z.of_nat n * Z.of_nat n - 1 < 2 ^ 32)%Z) by nia.
replace (Z.of_nat n * Z.of_nat n - 1 + 2 ^ 31)%Z
  with (Z.of_nat n * Z.of_nat n - 1 - 2 ^ 31 + 1 * 2 ^ 32)%Z by ring.
rewrite Z_mod_plus_full, Z.mod_small; lia.
Qed.

Theorem C45_index_refuted V K n threads m0 : (46341 <= Z.of_nat n <= 65536)%Z -> 0 < threads ->
  exists s a, reachable V K n threads m0 s /\ (a < 0)%Z /\ mem V s a = K (n - 1) (n - 1).
Proof.
intros Hn Hth. eexists. exists (address n (n - 1) (n - 1)). split.
- eapply steps_more; [exact Hth| |].
  + apply (st_take V K n 0 _ (n - 1)); [reflexivity|]. apply in_seq. lia.
  + eapply steps_more; [exact Hth| |apply steps_refl].
    apply (st_diag V K n 0 _ (n - 1)); [reflexivity|lia].
- split; [apply address_last; assumption|]. simpl. unfold store. rewrite Z.eqb_refl. reflexivity.
Qed.

(** The hypothesis is met by every matrix up to 46340 points *)
Example C45_fits n : (Z.of_nat n <= 46340)%Z -> fits n.
Proof. unfold fits. nia. Qed.

(** The other hypotheses are met for every size and number of threads *)
Example C45_run V K n threads m0 : fits n -> 0 < threads ->
  exists s, reachable V K n threads m0 s /\ finished V threads s.
Proof. intros Hf Hth. apply (C45_completes V K n threads m0); auto. apply steps_refl. Qed.
