(** * A whole run of the stochastic Lanczos quadrature on one thread

    Models /repo/imate/_c_trace_estimator/c_trace_estimator.cpp 191-307,
    cTraceEstimator::c_trace_estimator, with num_threads = 1, called with the
    arrays made in /repo/imate/_trace_estimator/trace_estimator.pyx 152-178.

    - The parallel loop with one thread takes the iterations in order.
    - The operator is not part of the state: its parameters are set before
      every use (509), see SlqModel.
    - Timing is left out.
    - /repo/imate/_cu_trace_estimator/cu_trace_estimator.cu 196-315 is the same
      function with the number of GPU devices in place of the number of threads. *)
From Coq Require Import ZArith NArith.
From mathcomp Require Import all_ssreflect all_algebra.
From Verif Require Import Mem KernelModel OperatorModel SlqModel ConvModel RngModel.
From Verif Require HutchVecModel.
Set Implicit Arguments.
Unset Strict Implicit.
Unset Printing Implicit Defensive.
Import GRing.Theory Num.Theory.
Local Open Scope ring_scope.

Section Model.
Variable R : rcfType.
Notation num := (num R).

(** _c_stochastic_lanczos_quadrature (410-654) for the operator and the
    parameters of the call: converged, random_vector and trace_estimate before,
    converged and trace_estimate after. *)
Variable sample : seq bool -> seq R -> seq R -> option (seq bool * seq R).

(** matrix_size, num_inquiries, min_num_samples, max_num_samples *)
Variables n q mn mx : nat.
(** The quantile of confidence_level (convergence_tools.cpp 134-135, 280),
    that of outlier_significance_level (283-286), error_atol, error_rtol *)
Variables z zo atol rtol : num.

(** The variables of 230-243 and the output arrays. *)
Record rstate := RState {
  rs_table : seq xstate;        (* random_number_generator *)
  rs_vector : seq Z;            (* random_vectors, entries 1.0 and -1.0 *)
  rs_samples : seq (seq num);   (* samples *)
  rs_order : seq nat;           (* processed_samples_indices *)
  rs_count : nat;               (* num_processed_samples *)
  rs_out : conv_out R;          (* error, num_samples_used, converged *)
  rs_all : bool }.              (* all_converged *)

(** The row samples[i] after the call in 267-272: the entry of inquiry j is
    written unless converged[j] is set when the quadrature is evaluated
    (601-604). *)
Definition merge (conv : seq bool) (est : seq R) (row : seq num) : seq num :=
  [seq if nth false conv j then nth NaN row j else Fin (nth 0 est j) | j <- iota 0 q].

(** 262-290: iteration i. *)
Definition iteration (i : nat) (s : rstate) : option rstate :=
  if rs_all s then Some s
  else
    (* 433-435 *)
    do g <- generate_random_array (rs_table s) 0 (rs_vector s) n;
    let o := rs_out s in
    (* 267-272 *)
    do r <- sample (co_converged o) [seq HutchVecModel.entry R b | b <- g.2] (nseq q 0);
    do row <- rd (rs_samples s) i;
    do samples <- wr (rs_samples s) i (merge r.1 r.2 row);
    (* 278-279 *)
    do order <- wr (rs_order s) (rs_count s) i;
    let count := (rs_count s).+1 in
    (* 284-288 *)
    do c <- check_convergence z atol rtol samples mn q order count
              (ConvOut (co_error o) (co_used o) r.1);
    Some (RState g.1 g.2 samples order count c.2 c.1).

(** What the call leaves in the arrays of the caller: trace, error,
    num_outliers, samples, processed_samples_indices, num_samples_used,
    converged, and the value it returns. *)
Record report := Report {
  rp_trace : seq num;
  rp_error : seq num;
  rp_outliers : seq nat;
  rp_samples : seq (seq num);
  rp_order : seq nat;
  rp_used : seq nat;
  rp_converged : seq bool;
  rp_all : bool }.

(** 230-243 with the arrays of trace_estimator.pyx 152-175.  [vector] and
    [error] are the contents of fresh memory, [clock] what the constructor of
    the generator reads from the clock. *)
Definition start (clock : nat -> N) (seed : Z) (vector : seq Z) (error : seq num) : rstate :=
  RState (rng_initialize 1 clock seed) vector (nseq mx (nseq q NaN)) (nseq mx 0%N) 0
    (ConvOut error (nseq q 0%N) (nseq q false)) false.

(** 191-307 *)
Definition c_trace_estimator (clock : nat -> N) (seed : Z) (vector : seq Z) (error : seq num)
    : option report :=
  do s <- for_ 0 mx 1 iteration (start clock seed vector error);
  do res <- average_estimates z zo (rs_samples s) (rs_order s) (co_used (rs_out s)) q 0;
  Some (Report [seq x.1.2 | x <- res] [seq x.2 | x <- res] [seq x.1.1 | x <- res]
    (rs_samples s) (rs_order s) (co_used (rs_out s)) (co_converged (rs_out s)) (rs_all s)).

End Model.

(** The call for a matrix and for an affine matrix function at the parameters
    [params]. *)
Section Instances.
Variable R : rcfType.
Variable eps : R.
Variable alloc : nat -> seq R.
Variable eigh svd : nat -> seq R -> seq R -> option (seq R * seq R).
Variable pw f : R -> R.
Variables (n m : nat) (tol : R) (orth : int) (gram : bool).
Variables (q mn mx : nat) (z zo atol rtol : num R).

Definition trace_estimator_matrix (A : storage R) (params : seq R) :=
  c_trace_estimator (slq_matrix eps alloc eigh svd pw f n m tol orth gram A params q)
    n q mn mx z zo atol rtol.

Definition trace_estimator_affine (op : affine R) (params : seq R) :=
  c_trace_estimator (slq_affine eps alloc eigh svd pw f n m tol orth gram op params q)
    n q mn mx z zo atol rtol.
End Instances.
