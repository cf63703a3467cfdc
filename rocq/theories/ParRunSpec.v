(** * Specification of a run on several threads

    [who k] is the thread whose sample was processed as the k-th. *)
From Coq Require Import ZArith NArith.
From mathcomp Require Import all_ssreflect all_algebra.
From Verif Require Import ConvModel ConvSpec RngModel SlqRunModel SlqRunSpec ParRunModel.
From Verif Require PropRng.

Set Implicit Arguments.
Unset Strict Implicit.
Unset Printing Implicit Defensive.

Import GRing.Theory Num.Theory.
Local Open Scope ring_scope.

(** The stream of thread t: the generator of the seed, (t+1) 2^128 draws
    further (C03). *)
Definition thread_stream (clock : nat -> N) (seed : Z) (t : nat) : xstate :=
  PropRng.after (N.mul (N.add (N.of_nat t) 1) (N.pow 2 128)) (xoshiro_init (clock t) seed).

(** How many of the samples processed before the k-th belong to the same
    thread. *)
Definition turn (who : nat -> nat) (k : nat) : nat :=
  count (fun l => who l == who k) (iota 0 k).

(** The arrays left by a run with one inquiry that used the samples [X 0], ...,
    [X (K - 1)], in the order of processing.  [satisfied] is the documented
    criterion, [summary] says what trace, error and number of outliers are. *)
Definition parallel_reports (R : rcfType) (z atol rtol : R) (mn mx : nat) (X : nat -> R) (zo : R)
    (K : nat) (r : report R) : Prop :=
  let Y k (_ : nat) := X k in
  [/\ [/\ rp_used r = [:: K], rp_converged r = [:: satisfied z atol rtol mn Y 0 K] &
          rp_all r = satisfied z atol rtol mn Y 0 K],
      [/\ size (rp_order r) = mx, uniq (take K (rp_order r)) &
          forall k, (k < K)%N -> (nth 0%N (rp_order r) k < mx)%N],
      size (rp_samples r) = mx /\
      (forall k, (k < K)%N ->
        nth [::] (rp_samples r) (nth 0%N (rp_order r) k) = [:: Fin (X k)]) &
      exists trace error outliers,
        [/\ rp_trace r = [:: trace], rp_error r = [:: error], rp_outliers r = [:: outliers] &
            summary z zo [seq X k | k <- iota 0 K] trace error outliers]].

(** What every schedule of a run does: no step uses memory that is not there or
    not initialised, a schedule has at most 8 steps for each sample allowed, and
    every execution can be continued to the end of the loop.  Then there is the
    list [ws] of the threads whose samples were processed, in order, with these
    properties: the k-th sample is the quadrature sample of the vector of signs
    that its thread drew at its turn; the number K of samples used is the first at
    which the criterion holds, or the maximum; fewer than [threads] samples were
    processed in vain; the caller reads the statistics of the first K samples. *)
Definition every_schedule (R : rcfType) (n' threads mn mx : nat) (z zo atol rtol : R)
    (run : seq (nat * nat) -> pstate R -> outcome R) (s0 : pstate R)
    (P : 'cV[R]_n'.+1 -> R -> Prop) (clock : nat -> N) (seed : Z) : Prop :=
  (exists rest s, run rest s0 = Next s /\ finished threads s) /\
  forall schedule,
    match run schedule s0 with
    | Blocked => True
    | Fault => False
    | Next s =>
        [/\ (size schedule <= 8 * mx)%N,
            exists rest s', run rest s = Next s' /\ finished threads s' &
            finished threads s ->
            exists (ws : seq nat) (X : nat -> R) (K : nat) (r : report R),
              let who := nth 0%N ws in
              [/\ finish (Fin z) (Fin zo) s = Some r,
                  (forall t, t \in ws -> (t < threads)%N) /\ (K <= size ws < K + threads)%N,
                  forall k, (k < size ws)%N ->
                    P (rademacher R (thread_stream clock seed (who k)) n'.+1 (turn who k)) (X k),
                  stops_at z atol rtol mn mx (fun k _ => X k) 0 K &
                  parallel_reports z atol rtol mn mx X zo K r]]
    end.
