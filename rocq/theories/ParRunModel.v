(** * A whole run of the stochastic Lanczos quadrature on several threads

    Models /repo/imate/_c_trace_estimator/c_trace_estimator.cpp 191-307,
    cTraceEstimator::c_trace_estimator, for any number of threads and one
    inquiry: a matrix always, an affine matrix function with one parameter.
    Several inquiries are the subject of ParModel, C24 and C25.

    - A schedule is a list of events; an event is one step of one thread.
      schedule(dynamic, chunk) is over-approximated: an idle thread may take
      any iteration that nobody has taken.
    - Steps end where another thread can notice: at the accesses of
      all_converged, converged[0], samples, processed_samples_indices,
      num_processed_samples and at both ends of the critical section.  Memory
      is sequentially consistent.
    - The generator of a thread and its part of random_vectors are used by that
      thread only (random_number_generator.cpp 150-153, c_trace_estimator.cpp
      270), so that filling the vector is one step.
    - All threads set the same parameters of the operator (509), so that they
      are not part of the state.
    - Timing is left out.
    - /repo/imate/_cu_trace_estimator/cu_trace_estimator.cu 196-315 is the same
      function with the number of GPU devices in place of the number of threads. *)
From Coq Require Import ZArith NArith.
From mathcomp Require Import all_ssreflect all_algebra.
From Verif Require Import Mem KernelModel OperatorModel SlqModel ConvModel RngModel SlqRunModel.
From Verif Require HutchVecModel.
Set Implicit Arguments.
Unset Strict Implicit.
Unset Printing Implicit Defensive.
Import GRing.Theory Num.Theory.
Local Open Scope ring_scope.

(** Where a thread is; [i] is its iteration. *)
Inductive place :=
  | Idle                      (* 259-260: before taking an iteration *)
  | Test of nat               (* 262: before the test of all_converged *)
  | Draw of nat               (* 433: before filling the vector *)
  | Look of nat               (* 500: before the first look at converged[0] *)
  | Work of nat & bool        (* 509-601: with what it saw, before the second look *)
  | Enter of nat              (* 275: before the critical section *)
  | Inside of nat             (* 284: before check_convergence *)
  | Leave of nat & bool.      (* 284: before all_converged is assigned *)

Section Model.
Variable R : rcfType.
Notation num := (num R).

(** _c_stochastic_lanczos_quadrature (410-654), as in SlqRunModel. *)
Variable sample : seq bool -> seq R -> seq R -> option (seq bool * seq R).

(** num_threads, matrix_size, min_num_samples, max_num_samples *)
Variables threads n mn mx : nat.
(** The quantiles, error_atol, error_rtol, as in SlqRunModel. *)
Variables z zo atol rtol : num.

Record pstate := PState {
  ps_todo : seq nat;            (* iterations nobody has taken *)
  ps_place : nat -> place;
  ps_table : seq xstate;        (* random_number_generator *)
  ps_vector : nat -> seq Z;     (* random_vectors[matrix_size*t ...] *)
  ps_samples : seq (seq num);   (* samples *)
  ps_order : seq nat;           (* processed_samples_indices *)
  ps_count : nat;               (* num_processed_samples *)
  ps_out : conv_out R;          (* error, num_samples_used, converged *)
  ps_all : bool;                (* all_converged *)
  ps_lock : option nat }.       (* who is in the critical section *)

Definition put (A : Type) (f : nat -> A) (k : nat) (v : A) : nat -> A :=
  fun k' => if k' == k then v else f k'.

(** The thread [t] goes to [p]. *)
Definition goto (s : pstate) (t : nat) (p : place) : pstate :=
  PState (ps_todo s) (put (ps_place s) t p) (ps_table s) (ps_vector s) (ps_samples s)
    (ps_order s) (ps_count s) (ps_out s) (ps_all s) (ps_lock s).

Definition with_todo (s : pstate) (todo : seq nat) : pstate :=
  PState todo (ps_place s) (ps_table s) (ps_vector s) (ps_samples s)
    (ps_order s) (ps_count s) (ps_out s) (ps_all s) (ps_lock s).

Definition with_draw (s : pstate) (table : seq xstate) (t : nat) (v : seq Z) : pstate :=
  PState (ps_todo s) (ps_place s) table (put (ps_vector s) t v) (ps_samples s)
    (ps_order s) (ps_count s) (ps_out s) (ps_all s) (ps_lock s).

Definition with_samples (s : pstate) (samples : seq (seq num)) : pstate :=
  PState (ps_todo s) (ps_place s) (ps_table s) (ps_vector s) samples
    (ps_order s) (ps_count s) (ps_out s) (ps_all s) (ps_lock s).

(** 275-279: the critical section is entered and the sample is recorded. *)
Definition with_record (s : pstate) (t : nat) (order : seq nat) : pstate :=
  PState (ps_todo s) (ps_place s) (ps_table s) (ps_vector s) (ps_samples s)
    order (ps_count s).+1 (ps_out s) (ps_all s) (Some t).

Definition with_out (s : pstate) (o : conv_out R) : pstate :=
  PState (ps_todo s) (ps_place s) (ps_table s) (ps_vector s) (ps_samples s)
    (ps_order s) (ps_count s) o (ps_all s) (ps_lock s).

(** 284-289: all_converged is assigned and the critical section left. *)
Definition with_all (s : pstate) (b : bool) : pstate :=
  PState (ps_todo s) (ps_place s) (ps_table s) (ps_vector s) (ps_samples s)
    (ps_order s) (ps_count s) (ps_out s) b None.

(** A step is impossible now (the iteration is taken, the critical section is
    occupied), or it uses memory that is not there or not initialised, or it
    succeeds. *)
Inductive outcome := Blocked | Fault | Next of pstate.

Definition or_fault (A : Type) (x : option A) (f : A -> outcome) : outcome :=
  if x is Some a then f a else Fault.

(** samples[i][0] = x (620) *)
Definition store (samples : seq (seq num)) (i : nat) (x : num) : option (seq (seq num)) :=
  do row <- rd samples i;
  do row <- wr row 0 x;
  wr samples i row.

(** One step of thread [t]; if it is idle it takes iteration [i0]. *)
Definition step (t i0 : nat) (s : pstate) : outcome :=
  match ps_place s t with
  (* 258-260 *)
  | Idle =>
      if i0 \in ps_todo s then Next (goto (with_todo s (rem i0 (ps_todo s))) t (Test i0))
      else Blocked
  (* 262 *)
  | Test i => Next (goto s t (if ps_all s then Idle else Draw i))
  (* 433-435 *)
  | Draw i =>
      or_fault (generate_random_array (ps_table s) t (ps_vector s t) n)
        (fun g => Next (goto (with_draw s g.1 t g.2) t (Look i)))
  (* 500-506; required_num_inquiries and num_inquiries are 1 *)
  | Look i => or_fault (rd (co_converged (ps_out s)) 0) (fun b => Next (goto s t (Work i b)))
  (* 509-621: if converged[0] was set at the first look and is not set at the
     second, the quadrature is evaluated with lanczos_size[0] not initialised *)
  | Work i seen =>
      or_fault (rd (co_converged (ps_out s)) 0) (fun b =>
        if b then Next (goto s t (Enter i))
        else if seen then Fault
        else
          or_fault (sample [:: false] [seq HutchVecModel.entry R x | x <- ps_vector s t] [:: 0])
            (fun r =>
              or_fault (store (ps_samples s) i (Fin r.2`_0)) (fun samples =>
                Next (goto (with_samples s samples) t (Enter i)))))
  (* 275-279 *)
  | Enter i =>
      if ps_lock s is Some _ then Blocked
      else or_fault (wr (ps_order s) (ps_count s) i) (fun order =>
        Next (goto (with_record s t order) t (Inside i)))
  (* 284-288 *)
  | Inside i =>
      or_fault (check_convergence z atol rtol (ps_samples s) mn 1 (ps_order s) (ps_count s) (ps_out s))
        (fun c => Next (goto (with_out s c.2) t (Leave i c.1)))
  | Leave _ b => Next (goto (with_all s b) t Idle)
  end.

(** The events of the schedule, one after the other: thread, and the iteration
    it takes if it is idle. *)
Fixpoint execute (schedule : seq (nat * nat)) (s : pstate) : outcome :=
  if schedule is (t, i) :: rest then
    if (t < threads)%N then
      match step t i s with Next s' => execute rest s' | o => o end
    else Blocked
  else Next s.

(** 230-257 with the arrays of trace_estimator.pyx 152-175. *)
Definition pstart (clock : nat -> N) (seed : Z) (vector : nat -> seq Z) (error : seq num) : pstate :=
  PState (iota 0 mx) (fun _ => Idle) (rng_initialize threads clock seed) vector
    (nseq mx [:: NaN]) (nseq mx 0%N) 0 (ConvOut error [:: 0%N] [:: false]) false None.

(** The end of the parallel loop. *)
Definition finished (s : pstate) : Prop :=
  ps_todo s = [::] /\ forall t, (t < threads)%N -> ps_place s t = Idle.

(** 298-306: what the call leaves in the arrays of the caller. *)
Definition finish (s : pstate) : option (report R) :=
  do res <- average_estimates z zo (ps_samples s) (ps_order s) (co_used (ps_out s)) 1 0;
  Some (Report [seq x.1.2 | x <- res] [seq x.2 | x <- res] [seq x.1.1 | x <- res]
    (ps_samples s) (ps_order s) (co_used (ps_out s)) (co_converged (ps_out s)) (ps_all s)).

End Model.

(** The calls for a matrix and for an affine matrix function with the
    parameter [u]; [eigh] and [svd] are the LAPACK routines, [alloc] gives the
    contents of fresh memory. *)
Section Instances.
Variable R : rcfType.
Variable eps : R.
Variable alloc : nat -> seq R.
Variable eigh svd : nat -> seq R -> seq R -> option (seq R * seq R).
Variable pw f : R -> R.
Variables (n m : nat) (tol : R) (orth : int) (gram : bool).
Variables (threads mn : nat) (z atol rtol : num R).

Definition execute_matrix (A : storage R) (params : seq R) :=
  execute (slq_matrix eps alloc eigh svd pw f n m tol orth gram A params 1) threads n mn z atol rtol.

Definition execute_affine (op : affine R) (u : R) :=
  execute (slq_affine eps alloc eigh svd pw f n m tol orth gram op [:: u] 1) threads n mn z atol rtol.
End Instances.
