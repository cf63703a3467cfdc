(** Theorems C54: filling random arrays with several threads. *)
From Coq Require Import NArith ZArith List Arith Lia Permutation.
From Verif Require Import RngModel RngGf2 RngProofs FillModel.
Import ListNotations.

(** ** Specification *)

(** The chunks 0 .. n-1 are split among [num_threads] threads in order. *)
Definition splits (lo : nat -> nat) (num_threads n : nat) : Prop :=
  lo 0 = 0 /\ (forall p, p < num_threads -> lo p <= lo (S p)) /\ lo num_threads = n.

(** The value of the (k+1)-st call of next() on generator [g]. *)
Definition draw (g : xstate) (k : nat) : N :=
  fst (xoshiro_next (Nat.iter k xoshiro_step g)).

Definition sign (bits : N) (j : nat) : Z :=
  if N.testbit bits (N.of_nat j) then 1%Z else (-1)%Z.

(** [outcome]: the call started on [table] and [a] may return with the array
    [a'], for some order of the threads' steps. *)
Definition outcome (lo : nat -> nat) (num_threads : nat) (table : list xstate)
    (a : list Z) (size : nat) (a' : list Z) : Prop :=
  exists sched s table',
    run lo (start num_threads table a) sched = Some s /\ finished s /\
    finish size s = Some (table', a').

(** ** Lists *)

Lemma upd_upd {A} (l : list A) i v w l' :
  upd l i v = Some l' -> upd l' i w = upd l i w.
Proof.
  revert i l'. induction l as [|a l IH]; intros i l' H; destruct i as [|i]; cbn in H; try discriminate.
  - injection H as <-. reflexivity.
  - destruct (upd l i v) as [l''|] eqn:E; cbn in H; [|discriminate]. injection H as <-.
    cbn. rewrite (IH _ _ E). reflexivity.
Qed.

Lemma upd_same {A} (l : list A) i v l' : upd l i v = Some l' -> nth_error l' i = Some v.
Proof. intros H. rewrite (upd_nth _ _ _ _ i H), Nat.eqb_refl. reflexivity. Qed.

Lemma upd_id {A} (l : list A) i v : nth_error l i = Some v -> upd l i v = Some l.
Proof.
  revert i. induction l as [|a l IH]; intros i H; destruct i as [|i]; cbn in H; try discriminate.
  - injection H as ->. reflexivity.
  - cbn. rewrite (IH _ H). reflexivity.
Qed.

Lemma nth_lt {A} (l : list A) i v : nth_error l i = Some v -> i < length l.
Proof. intros H. apply nth_error_Some. rewrite H. discriminate. Qed.

(** ** The invariant *)

Section Inv.
Variables (lo : nat -> nat) (T n : nat).
Hypothesis Hs : splits lo T n.

Lemma lo_le p : p < T -> lo p <= lo (S p).
Proof. apply Hs. Qed.

Lemma lo_top p : p <= T -> lo p <= n.
Proof.
  intros Hp. destruct Hs as (_ & Hm & <-).
  remember (T - p) as d eqn:Ed. revert p Hp Ed. induction d as [|d IH]; intros p Hp Ed.
  - replace p with T by lia. lia.
  - specialize (Hm p ltac:(lia)). specialize (IH (S p) ltac:(lia) ltac:(lia)). lia.
Qed.

Lemma owner c : c < n -> exists p, p < T /\ lo p <= c < lo (S p).
Proof.
  intros Hc. destruct Hs as (H0 & _ & Hn). rewrite <- Hn in Hc. clear Hs Hn.
  induction T as [|t IH]; [lia|].
  destruct (le_lt_dec (lo t) c) as [H|H].
  - exists t. lia.
  - destruct (IH H) as (p & Hp & Hq). exists p. lia.
Qed.

Definition okpc (p : nat) (c : pc) : Prop :=
  match c with
  | Loop i => lo p <= i <= lo (S p)
  | Draw i g _ _ _ => lo p <= i < lo (S p) /\ g < T
  | Fill i _ => lo p <= i < lo (S p)
  | _ => True
  end.

Definition prog (p : nat) (c : pc) : nat :=
  match c with
  | Enter => lo p | Loop i => i | Draw i _ _ _ _ => i | Fill i _ => i
  | Done => lo (S p)
  end.

Definition is_sign (v : option Z) : Prop := v = Some 1%Z \/ v = Some (-1)%Z.

Record inv (a0 : list Z) (s : state) : Prop := {
  inv_gens : length (gens s) = T;
  inv_pcs : length (pcs s) = T;
  inv_arr : length (arr s) = length a0;
  inv_tid : tid s < T;
  inv_ok : forall p c, nth_error (pcs s) p = Some c -> okpc p c;
  inv_filled : forall p c, nth_error (pcs s) p = Some c ->
    forall k, lo p * 64 <= k < prog p c * 64 -> is_sign (nth_error (arr s) k);
  inv_outside : forall k, n * 64 <= k -> nth_error (arr s) k = nth_error a0 k }.

Lemma sign_is_sign b j : is_sign (Some (sign_of_bit b j)).
Proof. unfold is_sign, sign_of_bit. destruct (N.testbit _ _); auto. Qed.

(* A step that only moves thread [p] and may change the shared variables. *)
Lemma goto_inv a0 s p c c' t g a :
  inv a0 s -> nth_error (pcs s) p = Some c ->
  t < T -> length g = T -> length a = length a0 ->
  okpc p c' ->
  (forall k, is_sign (nth_error (arr s) k) -> is_sign (nth_error a k)) ->
  (forall k, lo p * 64 <= k < prog p c' * 64 ->
     lo p * 64 <= k < prog p c * 64 \/ is_sign (nth_error a k)) ->
  (forall k, n * 64 <= k -> nth_error a k = nth_error (arr s) k) ->
  exists s', goto p c' (State t g a (pcs s)) = Some s' /\ inv a0 s'.
Proof.
  intros I Hp Ht Hg Ha Hok Hk Hf Ho.
  destruct (upd_some (pcs s) p c' (nth_lt _ _ _ Hp)) as (l & El).
  exists (State t g a l). unfold goto. cbn [pcs tid gens arr]. rewrite El. split; [reflexivity|].
  constructor; cbn [pcs tid gens arr]; try assumption.
  - rewrite (upd_length _ _ _ _ El). apply I.
  - intros q d Hq. rewrite (upd_nth _ _ _ _ q El) in Hq.
    destruct (Nat.eqb_spec q p) as [->|Hne].
    + injection Hq as <-. assumption.
    + apply (inv_ok _ _ I _ _ Hq).
  - intros q d Hq k Hk'. rewrite (upd_nth _ _ _ _ q El) in Hq.
    destruct (Nat.eqb_spec q p) as [->|Hne].
    + injection Hq as <-. destruct (Hf k Hk') as [H|H]; [|assumption].
      apply Hk. apply (inv_filled _ _ I _ _ Hp k H).
    + apply Hk. apply (inv_filled _ _ I _ _ Hq k Hk').
  - intros k Hk'. rewrite Ho by assumption. apply I. assumption.
Qed.

Lemma step_inv a0 s p : n * 64 <= length a0 -> inv a0 s ->
  exists s', step lo s p = Some s' /\ inv a0 s'.
Proof.
  intros Hlen I. unfold step.
  destruct (nth_error (pcs s) p) as [c|] eqn:Ep; [|exists s; auto].
  assert (HpT : p < T) by (rewrite <- (inv_pcs _ _ I); apply (nth_lt _ _ _ Ep)).
  pose proof (inv_ok _ _ I _ _ Ep) as Hok. pose proof (inv_tid _ _ I) as Ht.
  destruct c as [|i|i g k r t|i r|]; cbn [okpc] in Hok.
  - apply (goto_inv _ s p Enter); auto; try exact (inv_gens _ _ I); try exact (inv_arr _ _ I); cbn [okpc prog]; try (pose proof (lo_le p HpT); lia).
  - destruct (Nat.ltb_spec i (lo (S p))).
    + change s with (State (tid s) (gens s) (arr s) (pcs s)) at 2 || idtac.
      destruct s as [ti ge ar pc0]. cbn [tid gens arr pcs] in *.
      apply (goto_inv _ (State ti ge ar pc0) p (Loop i)); auto; try exact (inv_gens _ _ I); try exact (inv_arr _ _ I); cbn [okpc prog]; try lia.
      auto.
    + destruct s as [ti ge ar pc0]. cbn [tid gens arr pcs] in *.
      apply (goto_inv _ (State ti ge ar pc0) p (Loop i)); auto; try exact (inv_gens _ _ I); try exact (inv_arr _ _ I); cbn [okpc prog]; try exact Logic.I.
      intros k Hk. left. lia.
  - destruct Hok as (Hi & Hg).
    destruct (nth_error (gens s) g) as [w|] eqn:Eg.
    2:{ apply nth_error_None in Eg. rewrite (inv_gens _ _ I) in Eg. lia. }
    destruct (next_stmt i g k r t w) as [w' c'] eqn:En.
    destruct (upd_some (gens s) g w' (nth_lt _ _ _ Eg)) as (l & El). rewrite El.
    assert (Hc : c' = Fill i r \/ exists k' r' t', c' = Draw i g k' r' t').
    { unfold next_stmt in En.
      do 8 (destruct k as [|k]; [injection En as <- <-; eauto|]). injection En as <- <-. eauto. }
    apply (goto_inv _ s p (Draw i g k r t)); auto; try exact (inv_gens _ _ I); try exact (inv_arr _ _ I).
    + rewrite (upd_length _ _ _ _ El). apply I.
    + destruct Hc as [->|(k' & r' & t' & ->)]; cbn [okpc]; auto.
    + intros k0 Hk0. left. destruct Hc as [->|(k' & r' & t' & ->)]; cbn [prog] in *; lia.
  - assert (Hi : (i + 1) * 64 <= length a0).
    { pose proof (lo_top (S p) ltac:(lia)). lia. }
    destruct (fill_bits_spec r (i * 64) 0 64 (arr s)) as (a & Ea & La & Ha).
    { rewrite (inv_arr _ _ I). lia. }
    rewrite Ea.
    apply (goto_inv _ s p (Fill i r)); auto; try exact (inv_gens _ _ I); try exact (inv_arr _ _ I).
    + rewrite La. apply I.
    + cbn [okpc]. lia.
    + intros k Hk. rewrite Ha.
      destruct ((_ <=? k) && (k <? _))%bool; [apply sign_is_sign|assumption].
    + cbn [prog]. intros k Hk.
      destruct (le_lt_dec (i * 64) k) as [H|H]; [right|left; lia].
      rewrite Ha. destruct (Nat.leb_spec (i * 64 + 0) k), (Nat.ltb_spec k (i * 64 + 0 + 64)); try lia.
      apply sign_is_sign.
    + intros k Hk. rewrite Ha.
      pose proof (lo_top (S p) ltac:(lia)).
      destruct (Nat.ltb_spec k (i * 64 + 0 + 64)); [lia|].
      rewrite Bool.andb_false_r. reflexivity.
  - exists s. auto.
Qed.

Lemma run_inv a0 sched : forall s, n * 64 <= length a0 -> inv a0 s ->
  exists s', run lo s sched = Some s' /\ inv a0 s'.
Proof.
  induction sched as [|p sched IH]; intros s Hl I; [exists s; auto|].
  cbn [run]. destruct (step_inv a0 s p Hl I) as (s1 & E & I1). rewrite E. apply IH; assumption.
Qed.

Lemma start_inv table a0 : 0 < T -> length table = T -> inv a0 (start T table a0).
Proof.
  intros HT Hl. constructor; cbn; auto.
  - apply repeat_length.
  - intros p c H. apply nth_error_In, repeat_spec in H. subst c. exact I.
  - intros p c H k Hk. apply nth_error_In, repeat_spec in H. subst c. cbn in Hk. lia.
Qed.

End Inv.

(** ** C54: what holds in every schedule *)

(** C54. Whatever the order of the threads' steps, no array is accessed outside
    its bounds, and a call that returns has written +1 or -1 to every position
    and nothing after them. *)
Theorem C54_filled :
  forall (lo : nat -> nat) (num_threads : nat) (table : list xstate) (a : list Z)
         (size : nat) (sched : list nat),
    0 < num_threads -> length table = num_threads -> size <= length a ->
    splits lo num_threads (size / 64) ->
    exists s, run lo (start num_threads table a) sched = Some s /\
      (finished s ->
       exists table' a', finish size s = Some (table', a') /\
         length a' = length a /\
         (forall k, k < size -> nth_error a' k = Some 1%Z \/ nth_error a' k = Some (-1)%Z) /\
         (forall k, size <= k -> nth_error a' k = nth_error a k)).
Proof.
  intros lo T table a size sched HT Ht Hsz Hs.
  assert (Hn : size / 64 * 64 <= size) by (rewrite Nat.mul_comm; apply Nat.mul_div_le; lia).
  destruct (run_inv lo T (size / 64) Hs a sched (start T table a)) as (s & E & Is);
    [lia|apply start_inv; assumption|].
  exists s. split; [assumption|]. intros Hf.
  assert (Hg : exists g, nth_error (gens s) (tid s) = Some g).
  { destruct (nth_error (gens s) (tid s)) eqn:Eg; [eauto|]. apply nth_error_None in Eg.
    rewrite (inv_gens _ _ _ _ _ Is) in Eg. pose proof (inv_tid _ _ _ _ _ Is). lia. }
  destruct Hg as (g & Hg).
  destruct (rng_next_spec _ _ _ Hg) as (table' & En & _).
  unfold finish. rewrite En.
  destruct (fill_bits_spec (fst (xoshiro_next g)) (size / 64 * 64) 0 (size - size / 64 * 64) (arr s))
    as (a' & Ea & La & Ha).
  { rewrite (inv_arr _ _ _ _ _ Is). lia. }
  rewrite Ea. exists table', a'. split; [reflexivity|].
  split; [rewrite La; apply Is|]. split.
  - intros k Hk. rewrite Ha.
    destruct (Nat.leb_spec (size / 64 * 64 + 0) k) as [H|H].
    + destruct (Nat.ltb_spec k (size / 64 * 64 + 0 + (size - size / 64 * 64))); [|lia].
      apply sign_is_sign.
    + cbn [andb]. destruct (owner lo T (size / 64) Hs (k / 64)) as (p & Hp & Hq).
      { apply Nat.div_lt_upper_bound; lia. }
      destruct (nth_error (pcs s) p) as [c|] eqn:Ep.
      2:{ apply nth_error_None in Ep. rewrite (inv_pcs _ _ _ _ _ Is) in Ep. lia. }
      assert (c = Done) as ->.
      { unfold finished in Hf. rewrite Forall_forall in Hf. symmetry. apply Hf.
        apply (nth_error_In _ _ Ep). }
      apply (inv_filled _ _ _ _ _ Is _ _ Ep). cbn [prog].
      pose proof (Nat.div_mod k 64 ltac:(lia)). pose proof (Nat.mod_upper_bound k 64 ltac:(lia)). lia.
  - intros k Hk. rewrite Ha.
    destruct (Nat.ltb_spec k (size / 64 * 64 + 0 + (size - size / 64 * 64))); [lia|].
    rewrite Bool.andb_false_r. apply (inv_outside _ _ _ _ _ Is). lia.
Qed.
Print Assumptions C54_filled.

(** ** Every call returns *)

Definition kok (c : pc) : Prop := match c with Draw _ _ k _ _ => k < 8 | _ => True end.

(** The steps a thread still takes *)
Definition left (lo : nat -> nat) (p : nat) (c : pc) : nat :=
  match c with
  | Enter => 10 * (lo (S p) - lo p) + 2
  | Loop i => 10 * (lo (S p) - i) + 1
  | Draw i _ k _ _ => 10 * (lo (S p) - i) - k
  | Fill i _ => 10 * (lo (S p) - i) - 8
  | Done => 0
  end.

Lemma goto_moves p c s s' : goto p c s = Some s' ->
  forall q, nth_error (pcs s') q = if q =? p then Some c else nth_error (pcs s) q.
Proof.
  unfold goto. destruct (upd (pcs s) p c) as [l|] eqn:E; cbn; [|discriminate].
  intros H q. injection H as <-. cbn. apply (upd_nth _ _ _ _ q E).
Qed.

Lemma step_moves lo T n a0 s p c s' : splits lo T n -> inv lo T n a0 s ->
  nth_error (pcs s) p = Some c -> kok c -> step lo s p = Some s' ->
  (forall q, q <> p -> nth_error (pcs s') q = nth_error (pcs s) q) /\
  exists c', nth_error (pcs s') p = Some c' /\ kok c' /\
             (c <> Done -> left lo p c' < left lo p c).
Proof.
  intros Hs I Ep Hk E.
  assert (HpT : p < T) by (rewrite <- (inv_pcs _ _ _ _ _ I); apply (nth_lt _ _ _ Ep)).
  pose proof (inv_ok _ _ _ _ _ I _ _ Ep) as Hok.
  assert (G : forall c' st, goto p c' st = Some s' -> pcs st = pcs s -> kok c' ->
            (c <> Done -> left lo p c' < left lo p c) ->
            (forall q, q <> p -> nth_error (pcs s') q = nth_error (pcs s) q) /\
            exists c', nth_error (pcs s') p = Some c' /\ kok c' /\
              (c <> Done -> left lo p c' < left lo p c)).
  { intros c' st Hg Hpc Hc Hl. pose proof (goto_moves _ _ _ _ Hg) as M. split.
    - intros q Hq. rewrite M, Hpc. destruct (Nat.eqb_spec q p); congruence.
    - exists c'. rewrite M, Nat.eqb_refl. auto. }
  unfold step in E. rewrite Ep in E.
  destruct c as [|i|i g k r t|i r|]; cbn [okpc kok] in *.
  - apply (G _ _ E); cbn; auto. intros _. lia.
  - destruct (Nat.ltb_spec i (lo (S p))); apply (G _ _ E); cbn; auto; intros; lia.
  - destruct (nth_error (gens s) g) as [w|]; [|discriminate].
    destruct (next_stmt i g k r t w) as [w' c'] eqn:En.
    destruct (upd (gens s) g w') as [l|]; [|discriminate].
    apply (G _ _ E); auto; unfold next_stmt in En;
      do 8 (destruct k as [|k]; [injection En as <- <-; cbn; lia|]); lia.
  - destruct (fill_bits r (i * 64) 0 64 (arr s)) as [a|]; [|discriminate].
    apply (G _ _ E); cbn; auto. intros _. lia.
  - injection E as <-. split; auto. exists Done. split; [assumption|]. split; [exact Logic.I|congruence].
Qed.

Definition all_kok (s : state) : Prop := forall p c, nth_error (pcs s) p = Some c -> kok c.

Lemma step_kok lo T n a0 s p s' : splits lo T n -> inv lo T n a0 s -> all_kok s ->
  step lo s p = Some s' -> all_kok s'.
Proof.
  intros Hs I K E. destruct (nth_error (pcs s) p) as [c|] eqn:Ep.
  - destruct (step_moves lo T n a0 s p c s' Hs I Ep (K _ _ Ep) E) as (Ho & c' & Hc & Hk & _).
    intros q d Hq. destruct (Nat.eq_dec q p) as [->|Hne]; [congruence|].
    rewrite Ho in Hq by assumption. apply (K _ _ Hq).
  - unfold step in E. rewrite Ep in E. injection E as <-. assumption.
Qed.

Lemma run_kok lo T n a0 sched : splits lo T n -> n * 64 <= length a0 ->
  forall s s', inv lo T n a0 s -> all_kok s -> run lo s sched = Some s' -> all_kok s'.
Proof.
  intros Hs Hl. induction sched as [|p sched IH]; intros s s' I K H; cbn in H.
  - injection H as <-. assumption.
  - destruct (step_inv lo T n Hs a0 s p Hl I) as (s1 & E & I1). rewrite E in H.
    apply (IH s1); auto. apply (step_kok lo T n a0 s p); assumption.
Qed.

Lemma run_two lo s l1 l2 s1 : run lo s l1 = Some s1 -> run lo s (l1 ++ l2) = run lo s1 l2.
Proof.
  revert s. induction l1 as [|p l1 IH]; intros s H; cbn in *; [congruence|].
  destruct (step lo s p) as [s2|]; [|discriminate]. apply IH. assumption.
Qed.

Lemma thread_done lo T n a0 p : splits lo T n -> n * 64 <= length a0 -> p < T ->
  forall w s c, inv lo T n a0 s -> all_kok s -> nth_error (pcs s) p = Some c -> left lo p c <= w ->
  exists j s', run lo s (repeat p j) = Some s' /\ inv lo T n a0 s' /\ all_kok s' /\
    nth_error (pcs s') p = Some Done /\
    forall q, q <> p -> nth_error (pcs s') q = nth_error (pcs s) q.
Proof.
  intros Hs Hl Hp. induction w as [|w IH]; intros s c I K Ep Hw.
  all: assert (D : c = Done \/ c <> Done) by (destruct c; ((left; reflexivity) || (right; discriminate))).
  all: destruct D as [->|D]; [exists 0, s; cbn; auto|].
  all: destruct (step_inv lo T n Hs a0 s p Hl I) as (s1 & E & I1).
  all: destruct (step_moves lo T n a0 s p c s1 Hs I Ep (K _ _ Ep) E) as (Ho & c' & Hc & _ & Hlt).
  all: specialize (Hlt D).
  - lia.
  - destruct (IH s1 c' I1 (step_kok lo T n a0 s p s1 Hs I K E) Hc ltac:(lia)) as (j & s' & R & I' & K' & Hd & Hq).
    exists (S j), s'. cbn. rewrite E. repeat (split; [assumption|]). intros q Hne. rewrite Hq, Ho; auto.
Qed.

Lemma threads_done lo T n a0 k : splits lo T n -> n * 64 <= length a0 -> k <= T ->
  forall s, inv lo T n a0 s -> all_kok s ->
  exists sched s', run lo s sched = Some s' /\ inv lo T n a0 s' /\ all_kok s' /\
    forall q, q < k -> nth_error (pcs s') q = Some Done.
Proof.
  intros Hs Hl. induction k as [|k IH]; intros Hk s I K.
  - exists [], s. cbn. repeat (split; [auto|]). intros q Hq. lia.
  - destruct (IH ltac:(lia) s I K) as (sched & s1 & R1 & I1 & K1 & D1).
    destruct (nth_error (pcs s1) k) as [c|] eqn:Ec.
    2:{ apply nth_error_None in Ec. rewrite (inv_pcs _ _ _ _ _ I1) in Ec. lia. }
    destruct (thread_done lo T n a0 k Hs Hl ltac:(lia) (left lo k c) s1 c I1 K1 Ec (le_n _))
      as (j & s2 & R2 & I2 & K2 & D2 & O2).
    exists (sched ++ repeat k j), s2. rewrite (run_two _ _ _ _ _ R1).
    repeat (split; [assumption|]). intros q Hq.
    destruct (Nat.eq_dec q k) as [->|Hne]; [assumption|]. rewrite O2 by assumption. apply D1. lia.
Qed.

(** C54. Whatever the threads have done so far, the call can be completed, and a
    thread that has not reached the end of the region is never blocked: each of
    its steps leaves it fewer to take. *)
Theorem C54_completes :
  forall (lo : nat -> nat) (num_threads : nat) (table : list xstate) (a : list Z)
         (size : nat) (sched : list nat) (s : state),
    0 < num_threads -> length table = num_threads -> size <= length a ->
    splits lo num_threads (size / 64) ->
    run lo (start num_threads table a) sched = Some s ->
    (exists rest s', run lo s rest = Some s' /\ finished s') /\
    (forall p c, nth_error (pcs s) p = Some c -> c <> Done ->
       exists s' c', step lo s p = Some s' /\ nth_error (pcs s') p = Some c' /\
         left lo p c' < left lo p c).
Proof.
  intros lo T table a size sched s HT Ht Hsz Hs R.
  assert (Hn : size / 64 * 64 <= length a).
  { assert (size / 64 * 64 <= size) by (rewrite Nat.mul_comm; apply Nat.mul_div_le; lia). lia. }
  assert (I0 := start_inv lo T (size / 64) table a HT Ht).
  assert (K0 : all_kok (start T table a)).
  { intros p c H. apply nth_error_In, repeat_spec in H. subst c. exact I. }
  destruct (run_inv lo T (size / 64) Hs a sched _ Hn I0) as (s0 & R0 & Is).
  assert (s0 = s) by congruence. subst s0.
  assert (Ks := run_kok lo T (size / 64) a sched Hs Hn _ _ I0 K0 R). split.
  - destruct (threads_done lo T (size / 64) a T Hs Hn (le_n _) s Is Ks) as (rest & s' & R' & I' & _ & D).
    exists rest, s'. split; [assumption|]. apply Forall_forall. intros c Hc.
    apply In_nth_error in Hc. destruct Hc as (q & Hq).
    assert (q < T) by (rewrite <- (inv_pcs _ _ _ _ _ I'); apply (nth_lt _ _ _ Hq)).
    rewrite D in Hq by assumption. congruence.
  - intros p c Hc Hne. destruct (step_inv lo T (size / 64) Hs a s p Hn Is) as (s' & E & _).
    destruct (step_moves lo T (size / 64) a s p c s' Hs Is Hc (Ks _ _ Hc) E) as (_ & c' & Hc' & _ & Hl).
    exists s', c'. auto.
Qed.
Print Assumptions C54_completes.

(** ** Threads that do not interleave *)

Section Alone.
Variable lo : nat -> nat.

Lemma goto_pcs p c s l : upd (pcs s) p c = Some l ->
  goto p c s = Some (State (tid s) (gens s) (arr s) l).
Proof. intros H. unfold goto. rewrite H. reflexivity. Qed.

Lemma run_app s l1 l2 :
  run lo s (l1 ++ l2) = match run lo s l1 with None => None | Some s' => run lo s' l2 end.
Proof.
  revert s. induction l1 as [|p l1 IH]; intros s; cbn; [reflexivity|].
  destruct (step lo s p); [apply IH|reflexivity].
Qed.

(* The eight statements of next(), executed without interruption. *)
Lemma draw_alone s p i g w r t l pcs' :
  nth_error (pcs s) p = Some (Draw i g 0 r t) ->
  nth_error (gens s) g = Some w -> upd (gens s) g (xoshiro_step w) = Some l ->
  upd (pcs s) p (Fill i (fst (xoshiro_next w))) = Some pcs' ->
  run lo s (repeat p 8) = Some (State (tid s) l (arr s) pcs').
Proof.
  intros Hp Hg Hl Hp'. destruct s as [ti ge ar pc0]. cbn [tid gens arr pcs] in *.
  assert (Hstep : forall ge1 pc1 k r1 t1 w1 w2 c2,
    nth_error pc1 p = Some (Draw i g k r1 t1) -> nth_error ge1 g = Some w1 ->
    next_stmt i g k r1 t1 w1 = (w2, c2) ->
    exists ge2 pc2, upd ge1 g w2 = Some ge2 /\ upd pc1 p c2 = Some pc2 /\
      step lo (State ti ge1 ar pc1) p = Some (State ti ge2 ar pc2)).
  { intros ge1 pc1 k r1 t1 w1 w2 c2 H1 H2 H3.
    destruct (upd_some ge1 g w2 (nth_lt _ _ _ H2)) as (ge2 & E2).
    destruct (upd_some pc1 p c2 (nth_lt _ _ _ H1)) as (pc2 & E1).
    exists ge2, pc2. split; [assumption|]. split; [assumption|].
    unfold step. cbn [pcs gens]. rewrite H1, H2, H3, E2.
    exact (goto_pcs p c2 (State ti ge2 ar pc1) pc2 E1). }
  cbn [repeat run].
  destruct (Hstep ge pc0 0 r t w _ _ Hp Hg eq_refl) as (g1 & p1 & G1 & P1 & E1). rewrite E1.
  destruct (Hstep g1 p1 1 _ _ w _ _ (upd_same _ _ _ _ P1) (upd_same _ _ _ _ G1) eq_refl)
    as (g2 & p2 & G2 & P2 & E2). rewrite E2.
  destruct (Hstep g2 p2 2 _ _ _ _ _ (upd_same _ _ _ _ P2) (upd_same _ _ _ _ G2) eq_refl)
    as (g3 & p3 & G3 & P3 & E3). rewrite E3.
  destruct (Hstep g3 p3 3 _ _ _ _ _ (upd_same _ _ _ _ P3) (upd_same _ _ _ _ G3) eq_refl)
    as (g4 & p4 & G4 & P4 & E4). rewrite E4.
  destruct (Hstep g4 p4 4 _ _ _ _ _ (upd_same _ _ _ _ P4) (upd_same _ _ _ _ G4) eq_refl)
    as (g5 & p5 & G5 & P5 & E5). rewrite E5.
  destruct (Hstep g5 p5 5 _ _ _ _ _ (upd_same _ _ _ _ P5) (upd_same _ _ _ _ G5) eq_refl)
    as (g6 & p6 & G6 & P6 & E6). rewrite E6.
  destruct (Hstep g6 p6 6 _ _ _ _ _ (upd_same _ _ _ _ P6) (upd_same _ _ _ _ G6) eq_refl)
    as (g7 & p7 & G7 & P7 & E7). rewrite E7.
  destruct (Hstep g7 p7 7 _ _ _ _ _ (upd_same _ _ _ _ P7) (upd_same _ _ _ _ G7) eq_refl)
    as (g8 & p8 & G8 & P8 & E8). rewrite E8.
  rewrite (upd_upd _ _ _ _ _ G7), (upd_upd _ _ _ _ _ G6), (upd_upd _ _ _ _ _ G5),
    (upd_upd _ _ _ _ _ G4), (upd_upd _ _ _ _ _ G3), (upd_upd _ _ _ _ _ G2),
    (upd_upd _ _ _ _ _ G1) in G8.
  rewrite (upd_upd _ _ _ _ _ P7), (upd_upd _ _ _ _ _ P6), (upd_upd _ _ _ _ _ P5),
    (upd_upd _ _ _ _ _ P4), (upd_upd _ _ _ _ _ P3), (upd_upd _ _ _ _ _ P2),
    (upd_upd _ _ _ _ _ P1) in P8.
  change (upd ge g (xoshiro_step w) = Some g8) in G8.
  change (upd pc0 p (Fill i (fst (xoshiro_next w))) = Some p8) in P8.
  rewrite G8 in Hl. rewrite P8 in Hp'. congruence.
Qed.

(* One chunk. *)
Lemma chunk_alone p i g ge ge' ar ar' pc0 pc1 :
  nth_error pc0 p = Some (Loop i) -> i < lo (S p) ->
  nth_error ge p = Some g ->
  rng_next ge p = Some (fst (xoshiro_next g), ge') ->
  fill_bits (fst (xoshiro_next g)) (i * 64) 0 64 ar = Some ar' ->
  upd pc0 p (Loop (S i)) = Some pc1 ->
  run lo (State p ge ar pc0) (repeat p 10) = Some (State p ge' ar' pc1).
Proof.
  intros Hp Hi Hg Hn Hf Hu.
  destruct (upd_some pc0 p (Draw i p 0 0 0) (nth_lt _ _ _ Hp)) as (q1 & Q1).
  destruct (upd_some q1 p (Fill i (fst (xoshiro_next g))) (nth_lt _ _ _ (upd_same _ _ _ _ Q1)))
    as (q2 & Q2).
  assert (Hl : upd ge p (xoshiro_step g) = Some ge').
  { unfold rng_next in Hn. rewrite Hg in Hn. unfold xoshiro_step.
    destruct (xoshiro_next g) as [b g']. cbn [fst snd] in *.
    destruct (upd ge p g') as [l|]; cbn in Hn; congruence. }
  change (repeat p 10) with ([p] ++ repeat p 8 ++ [p]).
  rewrite run_app. cbn [run]. unfold step at 1. cbn [pcs]. rewrite Hp.
  destruct (Nat.ltb_spec i (lo (S p))); [|lia]. cbn [tid].
  rewrite (goto_pcs p _ (State p ge ar pc0) q1 Q1). cbn [tid gens arr].
  rewrite run_app.
  rewrite (draw_alone (State p ge ar q1) p i p g 0 0 ge' q2
             (upd_same _ _ _ _ Q1) Hg Hl Q2).
  cbn [tid arr run]. unfold step. cbn [pcs arr tid gens]. rewrite (upd_same _ _ _ _ Q2), Hf.
  rewrite (goto_pcs p _ (State p ge' ar' q2) pc1); [reflexivity|].
  cbn [pcs]. rewrite (upd_upd _ _ _ _ _ Q2), (upd_upd _ _ _ _ _ Q1). assumption.
Qed.

(* All chunks from [i] on. *)
Lemma loop_alone p m : forall i g ge ge' ar ar' pc0 pc1,
  nth_error pc0 p = Some (Loop i) -> i + m = lo (S p) ->
  nth_error ge p = Some g -> (i + m) * 64 <= length ar ->
  fill_chunks p i m ge ar = Some (ge', ar') ->
  upd pc0 p Done = Some pc1 ->
  run lo (State p ge ar pc0) (repeat p (10 * m + 1)) = Some (State p ge' ar' pc1).
Proof.
  induction m as [|m IH]; intros i g ge ge' ar ar' pc0 pc1 Hp Hi Hg Hlen Hf Hu.
  - cbn in Hf. injection Hf as <- <-. cbn [Nat.mul Nat.add repeat run].
    unfold step. cbn [pcs]. rewrite Hp.
    destruct (Nat.ltb_spec i (lo (S p))); [lia|].
    rewrite (goto_pcs p _ (State p ge ar pc0) pc1 Hu). reflexivity.
  - replace (10 * S m + 1) with (10 + (10 * m + 1)) by lia. rewrite repeat_app, run_app.
    cbn [fill_chunks] in Hf.
    destruct (rng_next_spec ge p g Hg) as (ge1 & En & Hg1 & Hoth & Hl1). rewrite En in Hf.
    destruct (fill_bits (fst (xoshiro_next g)) (i * 64) 0 64 ar) as [ar1|] eqn:Ef; [|discriminate].
    destruct (upd_some pc0 p (Loop (S i)) (nth_lt _ _ _ Hp)) as (q & Q).
    rewrite (chunk_alone p i g ge ge1 ar ar1 pc0 q Hp ltac:(lia) Hg En Ef Q).
    apply (IH (S i) _ _ _ _ _ _ _ (upd_same _ _ _ _ Q) ltac:(lia) Hg1); auto.
    + destruct (fill_bits_spec (fst (xoshiro_next g)) (i * 64) 0 64 ar) as (x & Ex & Lx & _); [lia|].
      rewrite Ef in Ex. injection Ex as <-. lia.
    + rewrite (upd_upd _ _ _ _ _ Q). assumption.
Qed.

(** How many steps thread [p] takes. *)
Definition steps (p : nat) : nat := 1 + (10 * (lo (S p) - lo p) + 1).

Lemma thread_alone s p g ge' ar' pc1 :
  nth_error (pcs s) p = Some Enter -> lo p <= lo (S p) ->
  nth_error (gens s) p = Some g -> lo (S p) * 64 <= length (arr s) ->
  fill_chunks p (lo p) (lo (S p) - lo p) (gens s) (arr s) = Some (ge', ar') ->
  upd (pcs s) p Done = Some pc1 ->
  run lo s (repeat p (steps p)) = Some (State p ge' ar' pc1).
Proof.
  intros Hp Hle Hg Hlen Hf Hu. unfold steps. rewrite repeat_app, run_app.
  destruct (upd_some (pcs s) p (Loop (lo p)) (nth_lt _ _ _ Hp)) as (q & Q).
  cbn [repeat run]. unfold step at 1. rewrite Hp.
  rewrite (goto_pcs p _ (State p (gens s) (arr s) (pcs s)) q Q). cbn [tid gens arr].
  apply (loop_alone p _ (lo p) g); auto.
  - apply (upd_same _ _ _ _ Q).
  - lia.
  - lia.
  - rewrite (upd_upd _ _ _ _ _ Q). assumption.
Qed.

End Alone.

(** All steps of one thread, then all steps of the next, in the given order. *)
Definition in_turn (lo : nat -> nat) (order : list nat) : list nat :=
  flat_map (fun p => repeat p (steps lo p)) order.

(* The threads of [order] run one after the other; those not in it are where
   they were. *)
Lemma in_turn_run lo T n table a (Hs : splits lo T n) order :
  length table = T -> n * 64 <= length a -> NoDup order ->
  (forall p, In p order -> p < T) ->
  exists s, run lo (start T table a) (in_turn lo order) = Some s /\
    tid s = last order 0 /\
    length (gens s) = T /\ length (arr s) = length a /\ length (pcs s) = T /\
    (forall p, p < T -> nth_error (pcs s) p =
       Some (if in_dec Nat.eq_dec p order then Done else Enter)) /\
    (forall p g, nth_error table p = Some g -> nth_error (gens s) p =
       Some (if in_dec Nat.eq_dec p order
             then Nat.iter (lo (S p) - lo p) xoshiro_step g else g)) /\
    (forall p g, In p order -> nth_error table p = Some g ->
       forall k, lo p * 64 <= k < lo (S p) * 64 ->
         nth_error (arr s) k = Some (sign (draw g (k / 64 - lo p)) (k mod 64))) /\
    (forall k, (forall p, In p order -> ~ lo p * 64 <= k < lo (S p) * 64) ->
       nth_error (arr s) k = nth_error a k).
Proof.
  intros Ht Hlen.
  induction order as [|p order IH] using rev_ind; intros Hnd Hin.
  - exists (start T table a). cbn. repeat split; auto.
    + apply repeat_length.
    + intros p Hp. rewrite nth_error_nth' with (d := Enter) by (rewrite repeat_length; assumption).
      f_equal. apply nth_repeat.
    + contradiction.
  - assert (Hnp : ~ In p order).
    { apply NoDup_remove_2 in Hnd. rewrite app_nil_r in Hnd. assumption. }
    assert (Hnd' : NoDup order).
    { apply NoDup_remove_1 in Hnd. rewrite app_nil_r in Hnd. assumption. }
    destruct (IH Hnd') as (s & E & Htid & Lg & La & Lp & Hpc & Hge & Har & Hout).
    { intros q Hq. apply Hin. apply in_or_app. auto. }
    assert (HpT : p < T) by (apply Hin; apply in_or_app; right; left; reflexivity).
    assert (Hp : nth_error (pcs s) p = Some Enter).
    { rewrite (Hpc p HpT). destruct (in_dec _ _ _); [contradiction|reflexivity]. }
    destruct (nth_error table p) as [g|] eqn:Eg.
    2:{ apply nth_error_None in Eg. lia. }
    assert (Hg : nth_error (gens s) p = Some g).
    { rewrite (Hge p g Eg). destruct (in_dec _ _ _); [contradiction|reflexivity]. }
    pose proof (lo_le lo T n Hs p HpT) as Hle.
    pose proof (lo_top lo T n Hs (S p) HpT) as Htop.
    destruct (fill_chunks_spec p (lo p) (lo (S p) - lo p) (gens s) (arr s) g Hg)
      as (ge & ar & Ef & Lar & Lge & Hgp & Hgo & Hk); [lia|].
    destruct (upd_some (pcs s) p Done (nth_lt _ _ _ Hp)) as (q & Q).
    exists (State p ge ar q). unfold in_turn. rewrite flat_map_app, run_app.
    fold (in_turn lo order). rewrite E. cbn [flat_map]. rewrite app_nil_r.
    split; [apply (thread_alone lo s p g); auto; lia|].
    cbn [tid gens arr pcs]. split; [rewrite last_last; reflexivity|].
    split; [lia|]. split; [lia|]. split; [rewrite (upd_length _ _ _ _ Q); assumption|].
    replace (lo p + (lo (S p) - lo p)) with (lo (S p)) in Hk by lia.
    split; [|split; [|split]].
    + intros r Hr. rewrite (upd_nth _ _ _ _ r Q).
      destruct (Nat.eqb_spec r p) as [->|Hne].
      * destruct (in_dec _ _ _) as [H|H]; [reflexivity|]. exfalso. apply H, in_or_app. right. left. reflexivity.
      * rewrite (Hpc r Hr).
        destruct (in_dec Nat.eq_dec r order) as [H|H], (in_dec Nat.eq_dec r (order ++ [p])) as [H'|H']; auto.
        -- exfalso. apply H', in_or_app. auto.
        -- apply in_app_or in H'. destruct H' as [H'|[->|[]]]; contradiction.
    + intros r g' Hr. destruct (Nat.eq_dec r p) as [->|Hne].
      * rewrite Hgp. rewrite Eg in Hr. injection Hr as <-.
        destruct (in_dec _ _ _) as [H|H]; [reflexivity|]. exfalso. apply H, in_or_app. right. left. reflexivity.
      * rewrite Hgo by assumption. rewrite (Hge r g' Hr).
        destruct (in_dec Nat.eq_dec r order) as [H|H], (in_dec Nat.eq_dec r (order ++ [p])) as [H'|H']; auto.
        -- exfalso. apply H', in_or_app. auto.
        -- apply in_app_or in H'. destruct H' as [H'|[->|[]]]; contradiction.
    + intros r g' Hr Eg' k Hk'. rewrite Hk.
      destruct (Nat.leb_spec (lo p * 64) k) as [H1|H1], (Nat.ltb_spec k (lo (S p) * 64)) as [H2|H2]; cbn [andb].
      { (* k is in the range of p, so r = p *)
        assert (Hrp : r = p).
        { apply in_app_or in Hr. destruct Hr as [Hr|[->|[]]]; [|reflexivity].
          exfalso. assert (Hrn : r <> p) by (intros ->; contradiction).
          assert (HrT : r < T) by (apply Hin, in_or_app; auto).
          assert (Hmono : forall x y, x <= y -> y <= T -> lo x <= lo y).
          { intros x y Hxy. induction Hxy as [|y Hxy IHx]; intros HyT; [lia|].
            specialize (IHx ltac:(lia)). pose proof (lo_le lo T n Hs y ltac:(lia)). lia. }
          destruct (Nat.lt_total r p) as [Hlt|[Heq|Hgt]]; [|contradiction|].
          - specialize (Hmono (S r) p ltac:(lia) ltac:(lia)). lia.
          - specialize (Hmono (S p) r ltac:(lia) ltac:(lia)). lia. }
        subst r. rewrite Eg in Eg'. injection Eg' as <-. reflexivity. }
      { apply in_app_or in Hr; destruct Hr as [Hr|[->|[]]]; [|lia]. apply (Har r g' Hr Eg' k Hk'). }
      { apply in_app_or in Hr; destruct Hr as [Hr|[->|[]]]; [|lia]. apply (Har r g' Hr Eg' k Hk'). }
      { apply in_app_or in Hr; destruct Hr as [Hr|[->|[]]]; [|lia]. apply (Har r g' Hr Eg' k Hk'). }
    + intros k Hk'. rewrite Hk.
      destruct (Nat.leb_spec (lo p * 64) k) as [H1|H1], (Nat.ltb_spec k (lo (S p) * 64)) as [H2|H2]; cbn [andb].
      { exfalso. apply (Hk' p); [apply in_or_app; right; left; reflexivity|lia]. }
      { apply Hout; intros r Hr; apply Hk', in_or_app; auto. }
      { apply Hout; intros r Hr; apply Hk', in_or_app; auto. }
      { apply Hout; intros r Hr; apply Hk', in_or_app; auto. }
Qed.

(** C54. When the threads run one after the other, in any order, a chunk gets
    the draws of its own thread in order, and the entries after the last chunk
    get the next draw of the thread that came last. *)
Theorem C54_in_turn :
  forall (lo : nat -> nat) (num_threads : nat) (table : list xstate) (a : list Z)
         (size : nat) (order : list nat) (before : list nat) (final : nat),
    0 < num_threads -> length table = num_threads -> size <= length a ->
    splits lo num_threads (size / 64) ->
    order = before ++ [final] -> Permutation order (seq 0 num_threads) ->
    exists a', outcome lo num_threads table a size a' /\ length a' = length a /\
      (forall p g k, p < num_threads -> nth_error table p = Some g ->
         lo p * 64 <= k < lo (S p) * 64 ->
         nth_error a' k = Some (sign (draw g (k / 64 - lo p)) (k mod 64))) /\
      (forall g k, nth_error table final = Some g -> size / 64 * 64 <= k < size ->
         nth_error a' k = Some (sign (draw g (lo (S final) - lo final)) (k mod 64))) /\
      (forall k, size <= k -> nth_error a' k = nth_error a k).
Proof.
  intros lo T table a size order before final HT Ht Hsz Hs Ho Hperm.
  assert (Hn : size / 64 * 64 <= size) by (rewrite Nat.mul_comm; apply Nat.mul_div_le; lia).
  assert (Hn2 : size < (size / 64 + 1) * 64).
  { pose proof (Nat.mul_succ_div_gt size 64 ltac:(lia)). lia. }
  assert (Hin : forall p, In p order <-> p < T).
  { intros p. split; intros H.
    - apply (Permutation_in _ Hperm), in_seq in H. lia.
    - apply (Permutation_in _ (Permutation_sym Hperm)), in_seq. lia. }
  destruct (in_turn_run lo T (size / 64) table a Hs order) as
    (s & E & Htid & Lg & La & Lp & Hpc & Hge & Har & Hout); auto; try lia.
  { apply (Permutation_NoDup (Permutation_sym Hperm)), seq_NoDup. }
  { intros p Hp. apply Hin. assumption. }
  assert (HfT : final < T) by (apply Hin; subst order; apply in_or_app; right; left; reflexivity).
  rewrite Ho, last_last in Htid.
  destruct (nth_error table final) as [g|] eqn:Eg.
  2:{ apply nth_error_None in Eg. lia. }
  assert (Hg : nth_error (gens s) final = Some (Nat.iter (lo (S final) - lo final) xoshiro_step g)).
  { rewrite (Hge final g Eg). destruct (in_dec _ _ _) as [H|H]; [reflexivity|].
    exfalso. apply H, Hin. assumption. }
  destruct (rng_next_spec _ _ _ Hg) as (table' & En & _).
  destruct (fill_bits_spec (fst (xoshiro_next (Nat.iter (lo (S final) - lo final) xoshiro_step g)))
              (size / 64 * 64) 0 (size - size / 64 * 64) (arr s)) as (a' & Ea & La' & Ha); [lia|].
  exists a'. split.
  { exists (in_turn lo order), s, table'. split; [assumption|]. split.
    - unfold finished. apply Forall_forall. intros c Hc. apply In_nth_error in Hc.
      destruct Hc as (p & Hp). assert (HpT : p < T) by (rewrite <- Lp; apply (nth_lt _ _ _ Hp)).
      rewrite (Hpc p HpT) in Hp. destruct (in_dec _ _ _) as [H|H]; [congruence|].
      exfalso. apply H, Hin. assumption.
    - unfold finish. rewrite Htid, En, Ea. reflexivity. }
  split; [lia|]. split; [|split].
  - intros p g' k Hp Eg' Hk. rewrite Ha.
    pose proof (lo_top lo T (size / 64) Hs (S p) Hp).
    destruct (Nat.leb_spec (size / 64 * 64 + 0) k); [lia|]. cbn [andb].
    apply (Har p g'); auto. apply Hin. assumption.
  - intros g' k Eg' Hk. injection Eg' as <-. rewrite Ha.
    destruct (Nat.leb_spec (size / 64 * 64 + 0) k); [|lia].
    destruct (Nat.ltb_spec k (size / 64 * 64 + 0 + (size - size / 64 * 64))); [|lia]. cbn [andb].
    assert (Hr : k mod 64 = k - size / 64 * 64).
    { symmetry. apply (Nat.mod_unique k 64 (size / 64) (k - size / 64 * 64)); lia. }
    rewrite Hr. reflexivity.
  - intros k Hk. rewrite Ha.
    destruct (Nat.ltb_spec k (size / 64 * 64 + 0 + (size - size / 64 * 64))); [lia|].
    rewrite Bool.andb_false_r. apply Hout. intros p Hp.
    pose proof (lo_top lo T (size / 64) Hs (S p) (proj1 (Hin p) Hp)). lia.
Qed.
Print Assumptions C54_in_turn.

(** ** One thread *)

Lemma step_done lo s p : finished s -> step lo s p = Some s.
Proof.
  intros H. unfold step. destruct (nth_error (pcs s) p) as [c|] eqn:E; [|reflexivity].
  unfold finished in H. rewrite Forall_forall in H.
  rewrite <- (H c (nth_error_In _ _ E)). reflexivity.
Qed.

Lemma run_done lo s sched : finished s -> run lo s sched = Some s.
Proof.
  intros H. induction sched as [|p sched IH]; cbn; [reflexivity|].
  rewrite (step_done lo s p H). assumption.
Qed.

Lemma goto_length p c s s' : goto p c s = Some s' -> length (pcs s') = length (pcs s).
Proof.
  unfold goto. destruct (upd (pcs s) p c) as [l|] eqn:E; cbn; [|discriminate].
  intros H. injection H as <-. cbn. apply (upd_length _ _ _ _ E).
Qed.

Lemma step_length lo s p s' : step lo s p = Some s' -> length (pcs s') = length (pcs s).
Proof.
  unfold step. intros H.
  destruct (nth_error (pcs s) p) as [[|i|i g k r t|i r|]|]; try (injection H as <-; reflexivity).
  - apply goto_length in H. assumption.
  - destruct (i <? lo (S p)); apply goto_length in H; assumption.
  - destruct (nth_error (gens s) g); [|discriminate].
    destruct (next_stmt i g k r t x) as [w c]. destruct (upd (gens s) g w); [|discriminate].
    apply goto_length in H. assumption.
  - destruct (fill_bits r (i * 64) 0 64 (arr s)); [|discriminate].
    apply goto_length in H. assumption.
Qed.

(* With one thread a schedule is a number of steps of thread 0. *)
Lemma run_single lo sched : forall s, length (pcs s) = 1 ->
  run lo s sched = run lo s (repeat 0 (count_occ Nat.eq_dec sched 0)).
Proof.
  induction sched as [|p sched IH]; intros s Hl; [reflexivity|].
  destruct p as [|p].
  - rewrite count_occ_cons_eq by reflexivity. cbn [repeat run].
    destruct (step lo s 0) as [s'|] eqn:E; [|reflexivity].
    apply IH. rewrite (step_length _ _ _ _ E). assumption.
  - rewrite count_occ_cons_neq by discriminate. cbn [run].
    unfold step at 1. rewrite (proj2 (nth_error_None (pcs s) (S p))) by lia. apply IH. assumption.
Qed.

(** C54. With one thread the call returns the same in every execution: what a
    serial call returns. *)
Theorem C54_one_thread :
  forall (lo : nat -> nat) (table : list xstate) (a a' : list Z) (size : nat),
    length table = 1 -> size <= length a -> splits lo 1 (size / 64) ->
    (outcome lo 1 table a size a' <->
     exists table', generate_random_array table 0 a size = Some (table', a')).
Proof.
  intros lo table a a' size Ht Hsz Hs.
  assert (Hn : size / 64 * 64 <= size) by (rewrite Nat.mul_comm; apply Nat.mul_div_le; lia).
  destruct table as [|g table0]; [discriminate|].
  destruct (fill_chunks_spec 0 0 (size / 64) (g :: table0) a g eq_refl)
    as (ge & ar & Ef & _); [lia|].
  pose proof Hs as (H0 & _ & H1).
  assert (Halone : run lo (start 1 (g :: table0) a) (repeat 0 (steps lo 0))
                   = Some (State 0 ge ar [Done])).
  { apply (thread_alone lo _ 0 g); cbn; auto; try lia. rewrite H1, H0, Nat.sub_0_r. assumption. }
  assert (Hfin : finished (State 0 ge ar [Done])) by (constructor; auto; constructor).
  assert (Hfinish : finish size (State 0 ge ar [Done]) =
                    generate_random_array (g :: table0) 0 a size).
  { unfold generate_random_array. rewrite Ef. reflexivity. }
  split.
  - intros (sched & s & table' & Hr & Hd & Hf). exists table'.
    rewrite run_single in Hr by reflexivity. set (m := count_occ _ _ _) in Hr.
    assert (Heq : s = State 0 ge ar [Done]).
    { destruct (le_lt_dec m (steps lo 0)) as [H|H].
      - replace (steps lo 0) with (m + (steps lo 0 - m)) in Halone by lia.
        rewrite repeat_app, run_app, Hr, run_done in Halone by assumption. congruence.
      - replace m with (steps lo 0 + (m - steps lo 0)) in Hr by lia.
        rewrite repeat_app, run_app, Halone, run_done in Hr by assumption. congruence. }
    subst s. rewrite Hfinish in Hf. assumption.
  - intros (table' & Hg). exists (repeat 0 (steps lo 0)), (State 0 ge ar [Done]), table'.
    rewrite Hfinish. auto.
Qed.
Print Assumptions C54_one_thread.

(** ** Several threads *)

(** C54. With two threads a seed does not determine the random array: the same
    call on ten entries may return two different arrays. *)
Theorem C54_reproducible_refuted :
  exists (clock : nat -> N) (a1 a2 : list Z),
    let table := rng_initialize 2 clock 0 in
    let lo := gomp_lo (10 / 64) 2 in
    splits lo 2 (10 / 64) /\
    outcome lo 2 table (repeat 0%Z 10) 10 a1 /\
    outcome lo 2 table (repeat 0%Z 10) 10 a2 /\ a1 <> a2.
Proof.
  exists (fun _ => 0%N).
  eexists _, _. cbv zeta. split; [|split; [|split]].
  - split; [reflexivity|]. split; [|reflexivity]. intros p Hp. destruct p as [|[|p]]; cbn; lia.
  - exists [0; 0; 1; 1]. eexists _, _. split; [vm_compute; reflexivity|].
    split; [repeat constructor|]. vm_compute. reflexivity.
  - exists [1; 1; 0; 0]. eexists _, _. split; [vm_compute; reflexivity|].
    split; [repeat constructor|]. vm_compute. reflexivity.
  - discriminate.
Qed.
Print Assumptions C54_reproducible_refuted.

(** C54. Two threads may consume the same draw: the same call on 128 entries may
    return an array whose second half repeats the first. *)
Theorem C54_repeated_draw_refuted :
  exists (clock : nat -> N) (a : list Z),
    let table := rng_initialize 2 clock 0 in
    let lo := gomp_lo (128 / 64) 2 in
    splits lo 2 (128 / 64) /\
    outcome lo 2 table (repeat 0%Z 128) 128 a /\
    firstn 64 a = skipn 64 a.
Proof.
  exists (fun _ => 0%N).
  eexists. cbv zeta. split; [|split].
  - split; [reflexivity|]. split; [|reflexivity]. intros p Hp. destruct p as [|[|p]]; cbn; lia.
  - exists ([0; 1; 0; 1; 0; 1] ++ repeat 0 9 ++ repeat 1 9).
    eexists _, _. split; [vm_compute; reflexivity|].
    split; [repeat constructor|]. vm_compute. reflexivity.
  - reflexivity.
Qed.
Print Assumptions C54_repeated_draw_refuted.

(** ** The hypotheses are met *)

(* The split of libgomp is one, for all numbers of chunks and threads. *)
Example C54_gomp_splits n T : 0 < T -> splits (gomp_lo n T) T n.
Proof.
  intros HT. unfold splits, gomp_lo. split; [reflexivity|]. split.
  - intros p _. cbn [Nat.mul]. pose proof (Nat.min_dec p (n mod T)). lia.
  - pose proof (Nat.mod_upper_bound n T ltac:(lia)).
    rewrite Nat.min_r by lia. pose proof (Nat.div_mod n T ltac:(lia)). lia.
Qed.

(* Two threads and 130 entries: two chunks and two more entries. *)
Example C54_in_turn_example :
  exists a', outcome (gomp_lo 2 2) 2 [X 1 2 3 4; X 5 6 7 8] (repeat 0%Z 131) 130 a' /\
             nth_error a' 129 = Some (sign (draw (X 1 2 3 4) 1) 1) /\
             nth_error a' 130 = Some 0%Z.
Proof.
  destruct (C54_in_turn (gomp_lo 2 2) 2 [X 1 2 3 4; X 5 6 7 8] (repeat 0%Z 131) 130
              [1; 0] [1] 0) as (a' & Ho & _ & _ & Hr & Hu).
  - lia.
  - reflexivity.
  - apply Nat.leb_le. reflexivity.
  - apply C54_gomp_splits. lia.
  - reflexivity.
  - apply perm_swap.
  - exists a'. split; [assumption|]. split.
    + rewrite (Hr (X 1 2 3 4) 129 eq_refl); [reflexivity|].
      split; [apply Nat.leb_le; reflexivity|apply Nat.ltb_lt; reflexivity].
    + rewrite Hu; [reflexivity|]. apply Nat.leb_le. reflexivity.
Qed.

(* One thread. *)
Example C54_one_thread_example :
  exists a', outcome (gomp_lo 1 1) 1 [X 1 2 3 4] (repeat 0%Z 70) 70 a' /\
             nth_error a' 69 <> Some 0%Z.
Proof.
  destruct (C54_filled (gomp_lo 1 1) 1 [X 1 2 3 4] (repeat 0%Z 70) 70
              (in_turn (gomp_lo 1 1) [0])) as (s & E & Hf).
  - lia.
  - reflexivity.
  - apply Nat.leb_le. reflexivity.
  - apply (C54_gomp_splits 1 1). lia.
  - destruct Hf as (table' & a' & Hf & _ & Hs & _).
    + vm_compute in E. injection E as <-. repeat constructor.
    + exists a'. split.
      * exists (in_turn (gomp_lo 1 1) [0]), s, table'. split; [assumption|]. split; [|assumption].
        vm_compute in E. injection E as <-. repeat constructor.
      * destruct (Hs 69) as [->| ->]; [apply Nat.ltb_lt; reflexivity|discriminate|discriminate].
Qed.
