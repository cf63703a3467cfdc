(** Theorems C01-C06: the random number generator. *)
From Coq Require Import NArith ZArith List Lia.
From Verif Require Import RngModel RngGf2 RngProofs.
Import ListNotations.
Local Open Scope N_scope.

(** Specification vocabulary.  [after n s] is the state after [n] calls of
    next(); [draw g k] the value returned by the (k+1)-st call. *)
Definition after (n : N) (s : xstate) : xstate := N.iter n xoshiro_step s.
Definition draw (g : xstate) (k : nat) : N :=
  fst (xoshiro_next (Nat.iter k xoshiro_step g)).
(** A state as C++ stores it: four 64-bit words. *)
Definition is_state (s : xstate) : Prop :=
  x0 s < 2 ^ 64 /\ x1 s < 2 ^ 64 /\ x2 s < 2 ^ 64 /\ x3 s < 2 ^ 64.

(** C01. Filling writes every position of the array with the sign given by
    the corresponding bit of the corresponding draw, nothing else; the other
    threads' generators are untouched and size/64 + 1 draws are consumed. *)
Theorem C01_random_array_is_rademacher :
  forall (table : list xstate) (thread_id : nat) (g : xstate) (arr : list Z) (size : nat),
    nth_error table thread_id = Some g -> (size <= length arr)%nat ->
    exists table' arr',
      generate_random_array table thread_id arr size = Some (table', arr') /\
      length arr' = length arr /\
      (forall k, (k < size)%nat ->
         nth_error arr' k =
         Some (if N.testbit (draw g (k / 64)) (N.of_nat (k mod 64)) then 1 else -1)%Z) /\
      (forall k, (size <= k)%nat -> nth_error arr' k = nth_error arr k) /\
      nth_error table' thread_id = Some (Nat.iter (size / 64 + 1) xoshiro_step g) /\
      (forall u, u <> thread_id -> nth_error table' u = nth_error table u) /\
      length table' = length table.
Proof. exact generate_random_array_spec. Qed.
Print Assumptions C01_random_array_is_rademacher.

(* 70 positions (one full chunk and a remainder of 6) of a 72-element array. *)
Example C01_example :
  exists t a, generate_random_array [X 1 2 3 4; X 5 6 7 8] 1 (repeat 0%Z 72) 70
              = Some (t, a) /\ nth_error a 64 = Some (-1)%Z /\ nth_error a 71 = Some 0%Z.
Proof. eexists _, _. split; [vm_compute; reflexivity|]. split; reflexivity. Qed.

(** C02. With a non-negative seed, what thread [t] draws is a function of the
    seed, [t] and the number of its earlier draws, for every schedule of
    draws over all threads and every clock. *)
Theorem C02_seed_fixes_stream :
  forall (n : nat) (clock : nat -> N) (seed : Z) (schedule : list nat),
    (0 <= seed)%Z -> (forall t, In t schedule -> (t < n)%nat) ->
    exists outs,
      run_draws (rng_initialize n clock seed) schedule = Some outs /\
      map fst outs = schedule /\
      forall t, (t < n)%nat ->
        map snd (filter (fun o => Nat.eqb (fst o) t) outs) =
        map (draw (after ((N.of_nat t + 1) * 2 ^ 128) (xoshiro_init 0 seed)))
            (seq 0 (count_occ Nat.eq_dec schedule t)).
Proof.
  intros n clock seed schedule Hs Hin.
  rewrite (rng_initialize_clock n clock (fun _ => 0) seed Hs).
  destruct (run_draws_spec (rng_initialize n (fun _ => 0) seed) schedule) as (outs & E & Hf & H).
  { intros t Ht. unfold rng_initialize. rewrite map_length, seq_length. auto. }
  exists outs. split; [assumption|]. split; [assumption|].
  intros t Ht. apply H. apply (rng_initialize_nth n (fun _ => 0) seed t Ht).
Qed.
Print Assumptions C02_seed_fixes_stream.

(* With a negative seed the clock matters. *)
Example C02_negative_seed_uses_clock :
  xoshiro_init 1 (-1) <> xoshiro_init 2 (-1).
Proof. vm_compute. discriminate. Qed.

Example C02_example :
  exists o, run_draws [X 1 2 3 4; X 5 6 7 8] [1; 0; 1]%nat = Some o
            /\ length o = 3%nat.
Proof. eexists. split; [vm_compute; reflexivity|reflexivity]. Qed.

(** C03. Jump is 2^128 calls of next(), long jump 2^192, and thread [t]'s
    generator is the seed generator advanced by (t+1)*2^128 calls. *)
Theorem C03_jump_is_2_128_steps :
  forall s, is_state s -> xoshiro_jump s = after (2 ^ 128) s.
Proof. exact jump_spec. Qed.
Print Assumptions C03_jump_is_2_128_steps.

Theorem C03_long_jump_is_2_192_steps :
  forall s, is_state s -> xoshiro_long_jump s = after (2 ^ 192) s.
Proof. exact long_jump_spec. Qed.
Print Assumptions C03_long_jump_is_2_192_steps.

Theorem C03_thread_stream :
  forall (n : nat) (clock : nat -> N) (seed : Z) (t : nat), (t < n)%nat ->
    nth_error (rng_initialize n clock seed) t =
    Some (after ((N.of_nat t + 1) * 2 ^ 128) (xoshiro_init (clock t) seed)).
Proof. exact rng_initialize_nth. Qed.
Print Assumptions C03_thread_stream.

Example C03_example : is_state (xoshiro_init 0 42) /\ xoshiro_init 0 42 <> xzero.
Proof. vm_compute. repeat split; discriminate. Qed.

(** C04. The constructor never yields the all-zero state and no sequence of
    calls on the generator reaches it; states always are four 64-bit words. *)
Theorem C04_never_all_zero :
  forall (ops : list rng_op) (clock : N) (seed : Z),
    fold_left apply_op ops (xoshiro_init clock seed) <> X 0 0 0 0.
Proof. exact never_zero. Qed.
Print Assumptions C04_never_all_zero.

Theorem C04_init_is_state :
  forall clock seed, is_state (xoshiro_init clock seed).
Proof. exact wf_init. Qed.
Print Assumptions C04_init_is_state.

(** C05. Full period from every non-zero state, and disjoint streams. *)
Theorem C05_full_period :
  forall s, is_state s -> s <> X 0 0 0 0 ->
    after (2 ^ 256 - 1) s = s /\
    (forall k, 0 < k < 2 ^ 256 - 1 -> after k s <> s).
Proof.
  intros s Hs Hnz. split; [exact (iter_period s Hs)|].
  intros k Hk. exact (period_minimal s k Hs Hnz Hk).
Qed.
Print Assumptions C05_full_period.

(** For one non-negative seed: the generators the table hands to the threads,
    each drawing fewer than 2^128 numbers, never visit a common state. *)
Theorem C05_streams_do_not_overlap :
  forall (n : nat) (clock : nat -> N) (seed : Z) (t t' : nat) (g g' : xstate) (i i' : N),
    (0 <= seed)%Z -> N.of_nat n <= 2 ^ 127 ->
    nth_error (rng_initialize n clock seed) t = Some g ->
    nth_error (rng_initialize n clock seed) t' = Some g' ->
    i < 2 ^ 128 -> i' < 2 ^ 128 -> (t, i) <> (t', i') ->
    after i g <> after i' g'.
Proof. exact table_streams_disjoint. Qed.
Print Assumptions C05_streams_do_not_overlap.

Example C05_example : forall clock,
  length (rng_initialize 8 clock 42) = 8%nat.
Proof. reflexivity. Qed.

(** C06. Distinct seeds below 2^32 give distinct generators; above that the
    property fails (the seed is or-ed with its own shift by 32). *)
Theorem C06_distinct_seeds_partial :
  forall (s s' : N) (clock clock' : N), s < 2 ^ 32 -> s' < 2 ^ 32 -> s <> s' ->
    xoshiro_init clock (Z.of_N s) <> xoshiro_init clock' (Z.of_N s').
Proof. exact seeds_distinct. Qed.
Print Assumptions C06_distinct_seeds_partial.

Theorem C06_distinct_seeds_refuted :
  exists s s' : Z, (0 <= s < 2 ^ 63 /\ 0 <= s' < 2 ^ 63)%Z /\ s <> s' /\
    forall clock clock', xoshiro_init clock s = xoshiro_init clock' s'.
Proof.
  exists 1%Z, (2 ^ 32 + 1)%Z. split; [lia|]. split; [lia|]. intros; vm_compute; reflexivity.
Qed.
Print Assumptions C06_distinct_seeds_refuted.
