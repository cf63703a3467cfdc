(** Model of the arrays in which the samples are collected:
    imate/_c_trace_estimator/py_c_trace_estimator.pyx 227-234, 279-281 (float),
    344-351, 396-398 (double), 461-469, 515-517 (long double), and
    imate/_cu_trace_estimator/py_cu_trace_estimator.pyx 199-206, 252-254 (float), 318-325,
    372-374 (double).

    malloc does not fail.  What the estimator does with the arrays is any sequence of
    stores (c_trace_estimator.cpp writes samples[i][j]); reads are checked like stores
    and are left out.  The copy to the returned array is in ReportModel.v. *)
From mathcomp Require Import all_ssreflect.
From Verif Require Import Mem HeapModel.
Set Implicit Arguments.
Unset Strict Implicit.
Unset Printing Implicit Defensive.

(** sizeof of the platform *)
Record platform := Platform { of_pointer : nat; of_float : nat; of_double : nat; of_long_double : nat }.
Inductive type := Float | Double | LongDouble.

Definition sizeof (p : platform) (t : type) : nat :=
  match t with Float => of_float p | Double => of_double p | LongDouble => of_long_double p end.

(** The factors in the calls of malloc: py_c_trace_estimator.pyx 228, 345, 462 and
    231, 348, 466; py_cu_trace_estimator.pyx 200, 319 and 203, 322 *)
Definition outer_factor (p : platform) (t : type) : nat :=
  match t with Float => of_pointer p | Double => of_double p | LongDouble => of_pointer p end.
Definition row_factor (p : platform) (t : type) : nat :=
  match t with Float => of_float p | Double => of_pointer p | LongDouble => of_long_double p end.

(** Element [i] of elements with [n] bytes is inside a block with [bytes] bytes *)
Definition fits (bytes n i : nat) : bool := i.+1 * n <= bytes.

Section Arrays.
Variables (V : Type) (nan : V).

(** The block of the array of pointers, and for each row its block and its contents *)
Record buffers := Buffers { outer : nat; rows : seq (nat * seq V) }.

(** py_c_trace_estimator.pyx 227-234 etc. *)
Definition allocate (p : platform) (t : type) (max_num_samples num_inquiries : nat) (h : heap)
  : option (heap * buffers) :=
  let: (h, o) := new h in
  do (h, r) <- for_ 0 max_num_samples 1 (fun i s =>
    let: (h, r) := s in
    let: (h, b) := new h in
    if fits (outer_factor p t * max_num_samples) (of_pointer p) i then
      do row <- for_ 0 num_inquiries 1 (fun j row =>
        if fits (row_factor p t * num_inquiries) (sizeof p t) j then Some (rcons row nan) else None) [::];
      Some (h, rcons r (b, row))
    else None) (h, [::]);
  Some (h, Buffers o r).

(** samples[i][j] = v *)
Definition store (p : platform) (t : type) (max_num_samples num_inquiries : nat) (b : buffers)
    (a : nat * nat * V) : option buffers :=
  let: (i, j, v) := a in
  if fits (outer_factor p t * max_num_samples) (of_pointer p) i
     && fits (row_factor p t * num_inquiries) (sizeof p t) j then
    do (x, row) <- rd (rows b) i;
    do row <- wr row j v;
    do r <- wr (rows b) i (x, row);
    Some (Buffers (outer b) r)
  else None.

Fixpoint stores p t m q (b : buffers) (l : seq (nat * nat * V)) : option buffers :=
  if l is a :: l' then do b <- store p t m q b a; stores p t m q b l' else Some b.

(** py_c_trace_estimator.pyx 279-281 etc. *)
Definition release (max_num_samples : nat) (b : buffers) (h : heap) : option heap :=
  do h <- for_ 0 max_num_samples 1 (fun i h => do r <- rd (rows b) i; delete h r.1) h;
  delete h (outer b).

(** The wrapper: what the arrays hold at the end, and the heap *)
Definition wrapper (p : platform) (t : type) (m q : nat) (l : seq (nat * nat * V)) (h : heap)
  : option (heap * seq (seq V)) :=
  do (h, b) <- allocate p t m q h;
  do b <- stores p t m q b l;
  do h <- release m b h;
  Some (h, map snd (rows b)).
End Arrays.
