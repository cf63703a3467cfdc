(** * The convergence test and the averaging of the Monte-Carlo samples

    Models /repo/imate/_c_trace_estimator/convergence_tools.cpp.

    Numbers are the IEEE special values around an exact ordered field with
    square roots: [Fin x] is a finite number, and plus infinity, minus
    infinity and NaN behave as in C++.  Rounding and overflow of finite
    values are not modelled, and there is no negative zero. *)
From mathcomp Require Import all_ssreflect all_algebra.
From Verif Require Import Mem.

Set Implicit Arguments.
Unset Strict Implicit.
Unset Printing Implicit Defensive.

Import GRing.Theory Num.Theory.
Local Open Scope ring_scope.

(** ** IEEE numbers (C++ [float]/[double] without rounding) *)
Section Ieee.
Variable R : rcfType.

Inductive num := Fin of R | PInf | NInf | NaN.

Definition nopp (a : num) : num :=
  match a with Fin x => Fin (- x) | PInf => NInf | NInf => PInf | NaN => NaN end.

Definition nadd (a b : num) : num :=
  match a, b with
  | Fin x, Fin y => Fin (x + y)
  | NaN, _ | _, NaN => NaN
  | PInf, NInf | NInf, PInf => NaN
  | PInf, _ | _, PInf => PInf
  | NInf, _ | _, NInf => NInf
  end.

Definition nsub (a b : num) : num := nadd a (nopp b).

(** An infinity times a finite number: the sign of the product, NaN for 0. *)
Definition inf_times (x : R) : num :=
  if x == 0 then NaN else if 0 < x then PInf else NInf.

Definition nmul (a b : num) : num :=
  match a, b with
  | Fin x, Fin y => Fin (x * y)
  | NaN, _ | _, NaN => NaN
  | PInf, Fin x | Fin x, PInf => inf_times x
  | NInf, Fin x | Fin x, NInf => nopp (inf_times x)
  | PInf, PInf | NInf, NInf => PInf
  | PInf, NInf | NInf, PInf => NInf
  end.

(** Division; [0 / 0] and [inf / inf] are NaN, [x / 0] is infinite. *)
Definition ndiv (a b : num) : num :=
  match a, b with
  | NaN, _ | _, NaN => NaN
  | Fin x, Fin y => if y == 0 then inf_times x else Fin (x / y)
  | Fin _, _ => Fin 0
  | PInf, Fin y => if y < 0 then NInf else PInf
  | NInf, Fin y => if y < 0 then PInf else NInf
  | _, _ => NaN
  end.

(** [a < b]; false as soon as one side is NaN. *)
Definition nlt (a b : num) : bool :=
  match a, b with
  | Fin x, Fin y => x < y
  | NaN, _ | _, NaN => false
  | NInf, NInf => false
  | NInf, _ => true
  | Fin _, PInf => true
  | _, _ => false
  end.

(** [std::max(a, b)] is [(a < b) ? b : a]. *)
Definition nmax (a b : num) : num := if nlt a b then b else a.

(** [std::abs]. *)
Definition nabs (a : num) : num :=
  match a with Fin x => Fin `|x| | PInf | NInf => PInf | NaN => NaN end.

(** [sqrt]. *)
Definition nsqrt (a : num) : num :=
  match a with
  | Fin x => if x < 0 then NaN else Fin (Num.sqrt x)
  | PInf => PInf
  | NInf | NaN => NaN
  end.

End Ieee.
Arguments PInf {R}.
Arguments NInf {R}.
Arguments NaN {R}.

Section Convergence.
Variable R : rcfType.
Notation num := (num R).

(** An integer converted to floating point. *)
Definition nint (k : nat) : num := Fin (k%:R).

(** The running sum [summand += ...] over a list of terms, from 0. *)
Definition nsum (xs : seq num) : num := foldl (@nadd R) (Fin 0) xs.

(** convergence_tools.cpp:144-149 (and 298-303): mean of a column. *)
Definition column_mean (xs : seq num) : num := ndiv (nsum xs) (nint (size xs)).

(** convergence_tools.cpp:152-165 (and 307-321): standard deviation with the
    [k - 1.0] denominator, infinity when there are not two values. *)
Definition column_std (xs : seq num) (mean : num) : num :=
  if (1 < size xs)%N
  then nsqrt (ndiv (nsum [seq nmul (nsub x mean) (nsub x mean) | x <- xs])
                   (nsub (nint (size xs)) (Fin 1)))
  else PInf.

(** convergence_tools.cpp:168: [z * std / sqrt(k)]. *)
Definition column_error (z : num) (xs : seq num) : num :=
  ndiv (nmul z (column_std xs (column_mean xs))) (nsqrt (nint (size xs))).

(** convergence_tools.cpp:171: the test of one column. *)
Definition column_converged (z atol rtol : num) (xs : seq num) : bool :=
  nlt (column_error z xs) (nmax atol (nmul rtol (column_mean xs))).

(** The entry of the samples matrix (a C array of rows). *)
Definition entry (samples : seq (seq num)) (i j : nat) : option num :=
  do row <- rd samples i; rd row j.

(** The entries [samples[processed[l]][j]], [samples[processed[l+1]][j]], ...
    ([k] of them), in the order in which the loops of 145, 155, 299, 310, 327,
    340 and 353 visit them. *)
Fixpoint column_from (samples : seq (seq num)) (processed : seq nat) (j k l : nat)
  : option (seq num) :=
  match k with
  | 0 => Some [::]
  | k'.+1 =>
      do i <- rd processed l;
      do x <- entry samples i j;
      do xs <- column_from samples processed j k' l.+1;
      Some (x :: xs)
  end.

Definition column (samples : seq (seq num)) (processed : seq nat) (k j : nat)
  : option (seq num) := column_from samples processed j k 0.

(** The outputs of [check_convergence]: error, num_samples_used, converged. *)
Record conv_out := ConvOut {
  co_error : seq num;
  co_used : seq nat;
  co_converged : seq bool }.

(** convergence_tools.cpp:114-125: too few samples. *)
Fixpoint not_enough (q k : nat) (j : nat) (o : conv_out) : option conv_out :=
  match q with
  | 0 => Some o
  | q'.+1 =>
      do e <- wr (co_error o) j PInf;
      do c <- wr (co_converged o) j false;
      do u <- wr (co_used o) j k;
      not_enough q' k j.+1 (ConvOut e u c)
  end.

(** convergence_tools.cpp:138-179: the loop over the inquiries. *)
Fixpoint check_columns (z atol rtol : num) (samples : seq (seq num))
    (processed : seq nat) (k : nat) (q j : nat) (o : conv_out)
  : option conv_out :=
  match q with
  | 0 => Some o
  | q'.+1 =>
      do cj <- rd (co_converged o) j;
      do o' <- (if cj then Some o else
        do xs <- column samples processed k j;
        do e <- wr (co_error o) j (column_error z xs);
        do c <- (if column_converged z atol rtol xs
                 then wr (co_converged o) j true else Some (co_converged o));
        do u <- wr (co_used o) j k;
        Some (ConvOut e u c));
      check_columns z atol rtol samples processed k q' j.+1 o'
  end.

(** convergence_tools.cpp:182-191: all flags set. *)
Fixpoint all_set (q j : nat) (c : seq bool) : option bool :=
  match q with
  | 0 => Some true
  | q'.+1 => do cj <- rd c j; if cj then all_set q' j.+1 c else Some false
  end.

(** convergence_tools.cpp:94-194.  [z] is [sqrt(2) * erf_inv(confidence)]
    (lines 134-135); [k] is num_processed_samples. *)
Definition check_convergence (z atol rtol : num) (samples : seq (seq num))
    (min_num_samples q : nat) (processed : seq nat) (k : nat) (o : conv_out)
  : option (bool * conv_out) :=
  if (k < min_num_samples)%N then
    do o' <- not_enough q k 0 o; Some (false, o')
  else
    do o' <- check_columns z atol rtol samples processed k q 0 o;
    do a <- all_set q 0 (co_converged o');
    Some (a, o').

(** convergence_tools.cpp:327-336: the outlier flag of each value. *)
Definition is_outlier (half mean x : num) : bool := nlt half (nabs (nsub x mean)).

(** convergence_tools.cpp:298-372 for one inquiry, from its values
    [samples[processed[0..used-1]][j]]: the number of outliers, the trace and
    the error.  The flag array of 277/293 is represented by the predicate
    [is_outlier] evaluated at the same value again. *)
Definition average_column (z_error z_outlier : num) (xs : seq num)
  : nat * num * num :=
  let mean := column_mean xs in
  let half := nmul z_outlier (column_std xs mean) in
  let outliers := count (is_outlier half mean) xs in
  let kept := [seq x <- xs | ~~ is_outlier half mean x] in
  let kept_count := nsub (nint (size xs)) (nint outliers) in
  let mean' := ndiv (nsum kept) kept_count in
  let std' :=
    if (1 + outliers < size xs)%N
    then nsqrt (ndiv (nsum [seq nmul (nsub x mean') (nsub x mean') | x <- kept])
                     (nsub kept_count (Fin 1)))
    else PInf in
  (outliers, mean', ndiv (nmul z_error std') (nsqrt kept_count)).

(** convergence_tools.cpp:255-376: the loop over the inquiries. *)
Fixpoint average_estimates (z_error z_outlier : num) (samples : seq (seq num))
    (processed used : seq nat) (q j : nat) : option (seq (nat * num * num)) :=
  match q with
  | 0 => Some [::]
  | q'.+1 =>
      do k <- rd used j;
      do xs <- column samples processed k j;
      do rest <- average_estimates z_error z_outlier samples processed used q' j.+1;
      Some (average_column z_error z_outlier xs :: rest)
  end.

End Convergence.
