(** * The sampling loop, the stopping test and the averaging of the
    Hutchinson method for the trace of the inverse

    Models /repo/imate/traceinv/_hutchinson_method.pyx (the loop) and
    /repo/imate/traceinv/_convergence_tools.py (the test and the average).
    Numbers are those of [ConvModel]: exact finite values with the IEEE
    special values; the float and the double variants (749-840, 847-938) are
    one definition.  The times of the run are left out. *)
From mathcomp Require Import all_ssreflect all_algebra.
From Verif Require Import Mem ConvModel.

Set Implicit Arguments.
Unset Strict Implicit.
Unset Printing Implicit Defensive.

Import GRing.Theory Num.Theory.
Local Open Scope ring_scope.

(** The ways the call ends: a result, or a Python exception.  [Sampling i] is
    an exception raised while the [i]-th estimate is computed. *)
Inductive exn := ZeroDivisionError | IndexError | Sampling of nat.
Inductive outcome (T : Type) := Returns of T | Raises of exn.
Arguments Raises {T}.

Definition bind (T U : Type) (r : outcome T) (k : T -> outcome U) : outcome U :=
  match r with Returns x => k x | Raises e => Raises e end.

(** An array access: outside the array Python raises [IndexError]. *)
Definition access (T : Type) (o : option T) : outcome T :=
  if o is Some x then Returns x else Raises IndexError.

Section Run.
Variable R : rcfType.
Notation num := (num R).

(** [samples[processed_samples_indices[:k]]] (numpy): the slice never raises,
    the selection raises for an index outside [samples]. *)
Fixpoint select (samples : seq num) (idx : seq nat) : option (seq num) :=
  match idx with
  | [::] => Some [::]
  | i :: idx' => do x <- rd samples i; do xs <- select samples idx'; Some (x :: xs)
  end.

Definition gather (samples : seq num) (processed : seq nat) (k : nat)
  : outcome (seq num) := access (select samples (take k processed)).

(** [numpy.mean]. *)
Definition np_mean (xs : seq num) : num := ndiv (nsum xs) (nint R (size xs)).

(** [numpy.std] with its default [ddof = 0]: the mean of the squared
    distances from the mean. *)
Definition np_std (xs : seq num) : num :=
  let m := np_mean xs in
  nsqrt (ndiv (nsum [seq nmul (nsub x m) (nsub x m) | x <- xs])
              (nint R (size xs))).

(** [numpy.max([a, b])]: NaN as soon as one of them is NaN. *)
Definition np_max (a b : num) : num :=
  match a, b with NaN, _ | _, NaN => NaN | _, _ => nmax a b end.

(** _convergence_tools.py:22-79.  [z] is [sqrt(2) * erfinv(confidence_level)]
    (54); [k] is num_processed_samples. *)
Definition check_convergence (z atol rtol : num) (samples : seq num)
    (min_num_samples : nat) (processed : seq nat) (k : nat)
  : outcome (bool * nat) :=
  if (k < min_num_samples)%N then Returns (false, k)           (* 46-51 *)
  else
    bind (gather samples processed k) (fun xs =>
      let mean := np_mean xs in                                (* 57-58 *)
      let std := if (1 < k)%N then np_std xs else PInf in      (* 61-65 *)
      let error := ndiv (nmul z std) (nsqrt (nint R k)) in     (* 68 *)
      Returns (nlt error (np_max atol (nmul rtol mean)), k)).  (* 71-79 *)

(** _convergence_tools.py:129-136: flag and count the outliers. *)
Fixpoint flag_outliers (half mean : num) (samples : seq num)
    (processed : seq nat) (n i : nat) (flags : seq bool) (count : nat)
  : option (seq bool * nat) :=
  match n with
  | 0 => Some (flags, count)
  | n'.+1 =>
      do p <- rd processed i;
      do x <- rd samples p;
      if nlt half (nabs (nsub x mean))
      then do flags' <- wr flags i true;
           flag_outliers half mean samples processed n' i.+1 flags' count.+1
      else flag_outliers half mean samples processed n' i.+1 flags count
  end.

(** _convergence_tools.py:139-142 and 147-151: the sum of [f] over the
    samples without a flag. *)
Fixpoint sum_kept (f : num -> num) (samples : seq num) (processed : seq nat)
    (flags : seq bool) (n i : nat) (summand : num) : option num :=
  match n with
  | 0 => Some summand
  | n'.+1 =>
      do b <- rd flags i;
      if b then sum_kept f samples processed flags n' i.+1 summand
      else
        do p <- rd processed i;
        do x <- rd samples p;
        sum_kept f samples processed flags n' i.+1 (nadd summand (f x))
  end.

(** _convergence_tools.py:86-161: trace, error, number of outliers.  When all
    samples are flagged, [summand] is still the Python float [0.0] of 139 and
    its division by the Python integer 0 in 143 raises. *)
Definition average_estimates (z_error z_outlier : num)
    (max_num_samples used : nat) (processed : seq nat) (samples : seq num)
  : outcome (num * num * nat) :=
  bind (gather samples processed used) (fun xs =>
    let mean := np_mean xs in                                  (* 114-115 *)
    let std := if (1 < used)%N then np_std xs else PInf in     (* 118-122 *)
    let half := nmul z_outlier std in                          (* 125 *)
    bind (access (flag_outliers half mean samples processed used 0
                    (nseq max_num_samples false) 0)) (fun '(flags, outliers) =>
    bind (access (sum_kept id samples processed flags used 0 (Fin 0)))
      (fun summand =>
    if (used - outliers)%N is 0 then Raises ZeroDivisionError  (* 143 *)
    else
      let kept := nsub (nint R used) (nint R outliers) in
      let mean' := ndiv summand kept in
      bind (if (1 + outliers < used)%N                         (* 146-155 *)
            then bind (access (sum_kept
                   (fun x => nmul (nsub x mean') (nsub x mean'))
                   samples processed flags used 0 (Fin 0)))
                   (fun s => Returns (nsqrt (ndiv s (nsub kept (Fin 1)))))
            else Returns PInf) (fun std' =>
      Returns (mean', ndiv (nmul z_error std') (nsqrt kept), outliers))))).

(** The local variables of the loop. *)
Record state := State {
  st_samples : seq num;
  st_order : seq nat;          (* processed_samples_indices *)
  st_count : nat;              (* num_processed_samples *)
  st_used : nat;               (* num_samples_used *)
  st_conv : bool }.            (* converged *)

(** _hutchinson_method.pyx:789-794 (887-892): the arrays at the start. *)
Definition start (max_num_samples : nat) : state :=
  State (nseq max_num_samples NaN) (nseq max_num_samples 0%N) 0 0 false.

(** _hutchinson_method.pyx:809-828 (907-926): the loop.  [est i] is the
    estimate from the [i]-th random vector ([HutchModel]); [None] when its
    computation raises. *)
Fixpoint sampling (est : nat -> option num) (z atol rtol : num)
    (min_num_samples : nat) (n i : nat) (s : state) : outcome state :=
  match n with
  | 0 => Returns s
  | n'.+1 =>
      bind (if st_conv s then Returns s else
        bind (if est i is Some x then Returns x else Raises (Sampling i))
          (fun x =>
        bind (access (wr (st_samples s) i x)) (fun samples =>
        bind (access (wr (st_order s) (st_count s) i)) (fun order =>
        let count := (st_count s).+1 in
        bind (check_convergence z atol rtol samples min_num_samples order count)
          (fun '(conv, used) =>
        Returns (State samples order count used conv))))))
      (fun s' => sampling est z atol rtol min_num_samples n' i.+1 s')
  end.

(** What the caller sees (_hutchinson_method.pyx:687-715). *)
Record report := Report {
  rp_trace : num;              (* the returned value, samples_mean *)
  rp_error : num;              (* absolute_error *)
  rp_outliers : nat;           (* num_outliers *)
  rp_samples : seq num;        (* samples *)
  rp_order : seq nat;          (* samples_processed_order *)
  rp_used : nat;               (* num_samples_used *)
  rp_converged : bool;         (* converged *)
  rp_min : nat;                (* min_num_samples *)
  rp_max : nat }.              (* max_num_samples *)

(** _hutchinson_method.pyx:622-740: the call with a matrix of [ncols]
    columns, after the checks of the arguments.  629-634: both numbers of
    samples are lowered to the number of columns. *)
Definition hutchinson_run (est : nat -> option num) (z_error z_outlier atol rtol : num)
    (ncols min_num_samples max_num_samples : nat) : outcome report :=
  let mx := if (ncols < max_num_samples)%N then ncols else max_num_samples in
  let mn := if (ncols < min_num_samples)%N then ncols else min_num_samples in
  bind (sampling est z_error atol rtol mn mx 0 (start mx)) (fun s =>
  bind (average_estimates z_error z_outlier mx (st_used s) (st_order s)
          (st_samples s)) (fun '(trace, error, outliers) =>
  Returns (Report trace error outliers (st_samples s) (st_order s) (st_used s)
             (st_conv s) mn mx))).

End Run.
