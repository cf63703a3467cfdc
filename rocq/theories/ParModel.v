(** * The parallel sampling loop

    Models the OpenMP loop of
    /repo/imate/_c_trace_estimator/c_trace_estimator.cpp:257-291 with the parts
    of the sampling function (410-654) and of the convergence test
    (convergence_tools.cpp:94-194) that touch shared memory, as a transition
    system in which one step is one access to a shared variable.

    - Threads are numbered; any thread may take the next step.
    - schedule(dynamic, chunk) is over-approximated: an idle thread may take any
      iteration that nobody has taken (so every chunk size is covered).
    - The numbers a thread computes privately are arbitrary: the step that
      stores a sample stores any value.  A stored sample remembers which
      parameters the linear operator had when the thread multiplied by it.
    - [converged] entries, [all_converged], the parameters of the shared linear
      operator, the rows of [samples], [processed_samples_indices] and
      [num_samples_used] are shared.  Memory is sequentially consistent.
    - The test of one column is the function [decide] of the stored entries;
      the error array is computed from the same data and is left out.
    - The random number generator state is per thread (see RngModel). *)
From mathcomp Require Import all_ssreflect.

Set Implicit Arguments.
Unset Strict Implicit.
Unset Printing Implicit Defensive.

Section Par.
Variable V : Type.

(** An entry of [samples]: not written (NaN, trace_estimator.pyx:158-160),
    computed from uninitialised nodes, or a value computed by products with
    the operator having the given parameters. *)
Inductive cell := Unwritten | Garbage | Val of V & seq nat.

(** Private nodes theta[j], tau[j] of a thread: absent, or computed while the
    operator had these parameters. *)
Definition nodes := option (seq nat).

(** Where a thread is. [i] is its sample, [j] the inquiry. *)
Inductive pc :=
  | Idle                                 (* at the loop header *)
  | Test of nat                          (* 262: before [if (!all_converged)] *)
  | Iter of nat & nat & seq nodes        (* 497-506: about to look at j *)
  | Mul of nat & nat & seq nodes & seq nat (* 509-556: iterating on j *)
  | Reset of nat & nat & seq nodes       (* 571-574: about to reset j *)
  | Quad of nat & nat & seq nodes        (* 598-621: quadrature of j *)
  | Enter of nat                         (* 275: before the critical section *)
  | Few of nat & nat                     (* convergence_tools 117-122 at j *)
  | Check of nat & nat                   (* convergence_tools 138-179 at j *)
  | Scan of nat & nat.                   (* convergence_tools 183-191 at j *)

Record state := State {
  todo : seq nat;               (* iterations nobody has taken *)
  pcs : nat -> pc;
  conv : nat -> bool;           (* converged[] *)
  cells : nat -> nat -> cell;   (* samples[][] *)
  processed : seq nat;          (* processed_samples_indices[0..num_processed-1] *)
  used : nat -> nat;            (* num_samples_used[] *)
  all_conv : bool;              (* all_converged *)
  lock : option nat;            (* who is in the critical section *)
  param : nat }.                (* inquiry whose parameters the operator has *)

Definition upd (A : Type) (f : nat -> A) (k : nat) (v : A) : nat -> A :=
  fun k' => if k' == k then v else f k'.

(** c_trace_estimator.cpp:236-257, trace_estimator.pyx:152-175. *)
Definition init (max_num_samples : nat) : state :=
  State (iota 0 max_num_samples) (fun _ => Idle) (fun _ => false)
        (fun _ _ => Unwritten) [::] (fun _ => 0) false None 0.

Variables (threads q min_num_samples : nat) (known : bool).
Variable decide : seq cell -> bool.

(** 447-457: required_num_inquiries. *)
Definition required : nat := if known then 1 else q.

(** 564: the nodes of all inquiries follow from those of the first. *)
Definition shifts : bool := known && (1 < q).

(** 576-593: every inquiry gets nodes derived from inquiry 0. *)
Definition shift_nodes (its : seq nodes) : seq nodes :=
  if shifts then nseq q (nth None its 0) else its.

Definition goto (s : state) (t : nat) (p : pc) : state :=
  State (todo s) (upd (pcs s) t p) (conv s) (cells s) (processed s) (used s)
        (all_conv s) (lock s) (param s).

Definition set_conv (s : state) (j : nat) (b : bool) : state :=
  State (todo s) (pcs s) (upd (conv s) j b) (cells s) (processed s) (used s)
        (all_conv s) (lock s) (param s).

Definition set_used (s : state) (j : nat) (k : nat) : state :=
  State (todo s) (pcs s) (conv s) (cells s) (processed s) (upd (used s) j k)
        (all_conv s) (lock s) (param s).

Definition set_cell (s : state) (i j : nat) (c : cell) : state :=
  State (todo s) (pcs s) (conv s) (upd (cells s) i (upd (cells s i) j c))
        (processed s) (used s) (all_conv s) (lock s) (param s).

Definition set_param (s : state) (p : nat) : state :=
  State (todo s) (pcs s) (conv s) (cells s) (processed s) (used s)
        (all_conv s) (lock s) p.

Definition set_todo (s : state) (l : seq nat) : state :=
  State l (pcs s) (conv s) (cells s) (processed s) (used s) (all_conv s)
        (lock s) (param s).

(** 278-279: record the sample, holding the lock. *)
Definition acquire (s : state) (t i : nat) : state :=
  State (todo s) (pcs s) (conv s) (cells s) (rcons (processed s) i) (used s)
        (all_conv s) (Some t) (param s).

(** 284-288: leave the critical section with the result of the test. *)
Definition release (s : state) (b : bool) : state :=
  State (todo s) (pcs s) (conv s) (cells s) (processed s) (used s) b None (param s).

(** The entries the column test reads. *)
Definition column (s : state) (j : nat) : seq cell :=
  [seq cells s i j | i <- processed s].

Definition quad_cell (x : V) (nd : nodes) : cell :=
  if nd is Some ps then Val x ps else Garbage.

(** One step of thread [t]. *)
Inductive step (t : nat) (s : state) : state -> Prop :=
  (* 259-260 *)
  | st_take i : pcs s t = Idle -> i \in todo s ->
      step t s (goto (set_todo s (rem i (todo s))) t (Test i))
  (* 262 *)
  | st_skip i : pcs s t = Test i -> all_conv s ->
      step t s (goto s t Idle)
  | st_start i : pcs s t = Test i -> ~~ all_conv s ->
      step t s (goto s t (Iter i 0 [::]))
  (* 497-506 *)
  | st_iter_skip i j its : pcs s t = Iter i j its -> j < required ->
      conv s j && (required == q) ->
      step t s (goto s t (Iter i j.+1 (rcons its None)))
  (* 509 *)
  | st_iter_set i j its : pcs s t = Iter i j its -> j < required ->
      ~~ (conv s j && (required == q)) ->
      step t s (goto (set_param s j) t (Mul i j its [::]))
  (* 511-556: a product with the shared operator *)
  | st_mul i j its ps : pcs s t = Mul i j its ps ->
      step t s (goto s t (Mul i j its (rcons ps (param s))))
  | st_mul_end i j its ps : pcs s t = Mul i j its ps ->
      step t s (goto s t (Iter i j.+1 (rcons its (Some ps))))
  (* 564 *)
  | st_iter_end i its : pcs s t = Iter i required its ->
      step t s (goto s t (if shifts then Reset i 0 its else Quad i 0 its))
  (* 571-574 *)
  | st_reset i j its : pcs s t = Reset i j its -> j < q ->
      step t s (goto (set_conv s j false) t (Reset i j.+1 its))
  | st_reset_end i its : pcs s t = Reset i q its ->
      step t s (goto s t (Quad i 0 (shift_nodes its)))
  (* 598-604 *)
  | st_quad_skip i j its : pcs s t = Quad i j its -> j < q -> conv s j ->
      step t s (goto s t (Quad i j.+1 its))
  (* 601-620 *)
  | st_quad_write i j its x : pcs s t = Quad i j its -> j < q -> ~~ conv s j ->
      step t s (goto (set_cell s i j (quad_cell x (nth None its j))) t (Quad i j.+1 its))
  | st_quad_end i its : pcs s t = Quad i q its ->
      step t s (goto s t (Enter i))
  (* 275-279; convergence_tools 114 *)
  | st_enter i : pcs s t = Enter i -> lock s = None ->
      step t s (goto (acquire s t i) t
        (if (size (processed s)).+1 < min_num_samples then Few i 0 else Check i 0))
  (* convergence_tools 117-122 *)
  | st_few i j : pcs s t = Few i j -> j < q ->
      step t s (goto (set_used (set_conv s j false) j (size (processed s))) t (Few i j.+1))
  (* convergence_tools 123-124 *)
  | st_few_end i : pcs s t = Few i q ->
      step t s (goto (release s false) t Idle)
  (* convergence_tools 141 *)
  | st_check_skip i j : pcs s t = Check i j -> j < q -> conv s j ->
      step t s (goto s t (Check i j.+1))
  (* convergence_tools 141-178 *)
  | st_check i j : pcs s t = Check i j -> j < q -> ~~ conv s j ->
      step t s (goto (set_used (set_conv s j (decide (column s j))) j
                               (size (processed s))) t (Check i j.+1))
  | st_check_end i : pcs s t = Check i q ->
      step t s (goto s t (Scan i 0))
  (* convergence_tools 182-193 *)
  | st_scan i j : pcs s t = Scan i j -> j < q -> conv s j ->
      step t s (goto s t (Scan i j.+1))
  | st_scan_no i j : pcs s t = Scan i j -> j < q -> ~~ conv s j ->
      step t s (goto (release s false) t Idle)
  | st_scan_yes i : pcs s t = Scan i q ->
      step t s (goto (release s true) t Idle).

(** Executions: any interleaving of the steps of the [threads] threads. *)
Inductive steps : state -> state -> Prop :=
  | steps_refl s : steps s s
  | steps_more s1 t s2 s3 : t < threads -> step t s1 s2 -> steps s2 s3 -> steps s1 s3.

Definition reachable (max_num_samples : nat) (s : state) : Prop :=
  steps (init max_num_samples) s.

(** The loop is over: nothing to take, every thread at the loop header. *)
Definition finished (s : state) : Prop :=
  todo s = [::] /\ forall t, t < threads -> pcs s t = Idle.

(** The sample a thread is working on, once it has passed the test of 262
    and until the sample is recorded. *)
Definition running (p : pc) : bool :=
  match p with
  | Iter _ _ _ | Mul _ _ _ _ | Reset _ _ _ | Quad _ _ _ | Enter _ => true
  | _ => false
  end.

End Par.
Arguments Unwritten {V}.
Arguments Garbage {V}.
