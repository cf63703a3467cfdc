(** * What the caller of the stochastic Lanczos quadrature gets back

    Models the way from the arrays left by the C++ code to the return value:
    /repo/imate/_c_trace_estimator/py_c_trace_estimator.pyx 226-283 (float;
    343-400 double and 460-517 long double are the same text), the arrays made
    and the dictionary filled in
    /repo/imate/_trace_estimator/trace_estimator.pyx 151-174, 353-390, and the
    statistics drawn by
    /repo/imate/_trace_estimator/trace_estimator_plot_utilities.py 31-102,
    109-192, 256-290, 523-558.

    Numbers are those of [ConvModel]: exact, with the IEEE special values. *)
From mathcomp Require Import all_ssreflect all_algebra.
From Verif Require Import Mem ConvModel SlqRunModel.
From Verif Require HutchRunModel.
Set Implicit Arguments.
Unset Strict Implicit.
Unset Printing Implicit Defensive.
Import GRing.Theory Num.Theory.
Local Open Scope ring_scope.

Section Report.
Variable R : rcfType.
Notation num := (num R).

(** py_c_trace_estimator.pyx 226-234: c_samples before the call, and
    trace_estimator.pyx 158-160: samples. *)
Definition fresh_samples (mx q : nat) : seq (seq num) := nseq mx (nseq q NaN).

(** samples[i, j] = x *)
Definition set_entry (samples : seq (seq num)) (i j : nat) (x : num) : option (seq (seq num)) :=
  do row <- rd samples i; do row' <- wr row j x; wr samples i row'.

(** py_c_trace_estimator.pyx 272-274 *)
Definition copy_samples (mx q : nat) (c_samples : seq (seq num)) (order used : seq nat)
    : option (seq (seq num)) :=
  for_ 0 q 1 (fun j samples =>
    do k <- rd used j;
    for_ 0 k 1 (fun i samples =>
      do o <- rd order i;
      do x <- entry c_samples o j;
      set_entry samples i j x) samples) (fresh_samples mx q).

(** The arrays of trace_estimator.pyx after the call of pyc_trace_estimator. *)
Definition py_report (mx q : nat) (r : report R) : option (report R) :=
  do samples <- copy_samples mx q (rp_samples r) (rp_order r) (rp_used r);
  Some (Report (rp_trace r) (rp_error r) (rp_outliers r) samples (rp_order r) (rp_used r)
    (rp_converged r) (rp_all r)).

(** A number or an array; a column or a matrix. *)
Inductive shaped (T : Type) := One of T | Many of seq T.
Inductive table := Vec of seq num | Mat of seq (seq num).

(** The entries of the dictionary that depend on the run. *)
Record info := Info {
  i_absolute_error : shaped num;
  i_relative_error : shaped num;
  i_converged : shaped bool;
  i_all_converged : bool;
  i_num_samples_used : shaped nat;
  i_num_outliers : shaped nat;
  i_samples : table;
  i_samples_mean : shaped num;
  i_order : seq nat }.

(** samples[:, j] *)
Definition col (samples : seq (seq num)) (j : nat) : seq num := [seq nth NaN row j | row <- samples].

(** 361-362, 370-371; [eps] is numpy.finfo(float).eps *)
Definition relative_error (eps error trace : num) : num := ndiv error (nadd (nabs trace) eps).

(** trace_estimator.pyx 353-390; [is_array] is the negation of
    "parameters is None or a scalar" (353-356).  None is an IndexError. *)
Definition output (eps : num) (is_array : bool) (r : report R) : option (shaped num * info) :=
  if is_array then
    Some (Many (rp_trace r),
      Info (Many (rp_error r))
           (Many [seq relative_error eps x.1 x.2 | x <- zip (rp_error r) (rp_trace r)])
           (Many (rp_converged r)) (rp_all r) (Many (rp_used r)) (Many (rp_outliers r))
           (Mat (rp_samples r)) (Many (rp_trace r)) (rp_order r))
  else
    do e <- rd (rp_error r) 0;
    do t <- rd (rp_trace r) 0;
    do c <- rd (rp_converged r) 0;
    do u <- rd (rp_used r) 0;
    do o <- rd (rp_outliers r) 0;
    Some (One t,
      Info (One e) (One (relative_error eps e t)) (One c) (rp_all r) (One u) (One o)
           (Vec (col (rp_samples r) 0)) (One t) (rp_order r)).

(** ** The plot *)

Definition is_nan (x : num) : bool := if x is NaN then true else false.
Definition not_nan (xs : seq num) : seq num := [seq x <- xs | ~~ is_nan x].

(** numpy.nanmean, numpy.nanstd: not-a-number is left out *)
Definition nanmean (xs : seq num) : num := HutchRunModel.np_mean (not_nan xs).
Definition nanstd (xs : seq num) : num := HutchRunModel.np_std (not_nan xs).

(** plot_utilities 87-100 for one column of samples; [zo] is the quantile of
    82-83.  An index outside raises IndexError. *)
Definition remove_outliers (zo : num) (samples : seq num) (order : seq nat) (used : nat) : option (seq num) :=
  do valid <- HutchRunModel.select samples (take used order);
  let mean := nanmean valid in
  let std := nanstd valid in
  Some [seq if nlt (nmul zo std) (nabs (nsub x mean)) then NaN else x | x <- samples].

(** plot_utilities 172-190 for one point: the cumulative mean, the absolute and
    the relative error; [z] is the quantile of 164. *)
Definition cumulative (z : num) (samples : seq num) (order : seq nat) (i : nat) : option (num * num * num) :=
  do chosen <- HutchRunModel.select samples (take i.+1 order);
  let valid := not_nan chosen in
  if size valid == 0%N then Some (NaN, NaN, NaN)
  else
    let mean := nanmean valid in
    let abs_error := ndiv (nmul z (nanstd valid)) (nsqrt (nint R i.+1)) in
    Some (mean, abs_error, ndiv abs_error (nabs mean)).

(** All points, 168-190 *)
Fixpoint cumulatives (z : num) (samples : seq num) (order : seq nat) (n i : nat)
    : option (seq (num * num * num)) :=
  if n is n'.+1 then
    do p <- cumulative z samples order i;
    do ps <- cumulatives z samples order n' i.+1;
    Some (p :: ps)
  else Some [::].

(** What is drawn for one inquiry over the abscissae 1, 2, ..., used: the
    estimates (263-264, 273; drawn if there is one inquiry only) and the mean
    with its errors (269-270, 276-279, 399-411). *)
Definition plot_column (z zo : num) (samples : seq num) (order : seq nat) (used : nat)
    : option (seq num * seq (num * num * num)) :=
  do cleaned <- remove_outliers zo samples order used;
  do points <- cumulatives z cleaned order used 0;
  do estimates <- HutchRunModel.select cleaned (take used order);
  Some (estimates, points).

(** 516-548: what is drawn for inquiry j.  Scalars are first turned into arrays
    of one element (525-530). *)
Definition plot (z zo : num) (i : info) (j : nat) : option (seq num * seq (num * num * num)) :=
  do used <- (match i_num_samples_used i with One k => rd [:: k] j | Many ks => rd ks j end);
  let samples := match i_samples i with Vec xs => [seq [:: x] | x <- xs] | Mat m => m end in
  plot_column z zo (col samples j) (i_order i) used.

End Report.
Arguments One {T}.
Arguments Many {T}.
