(** Model of imate/device/_timer.py and imate/device/_memory.py. *)
Require Import ZArith Reals List String Lia.
From Flocq Require Import Core.
Import ListNotations.
Local Open Scope Z_scope.

(** ** _timer.py *)

(** Times are integers (ticks of the clock); the rounding of the differences and
    sums of floating-point seconds is left out. *)
Record timer := Timer {
  init_wall_time : Z; init_proc_time : Z; tic_initiated : bool; hold : bool;
  wall_time : Z; proc_time : Z; count : Z }.

(** A call of a method; [w] and [p] are the values time.time() and
    time.process_time() return during the call (Python 3) *)
Inductive call := Tic (w p : Z) | Toc (w p : Z) | Reset.

(** 241-255 *)
Definition new_timer (h : bool) : timer := Timer 0 0 false h 0 0 0.

(** 302-310 *)
Definition tic (w p : Z) (t : timer) : timer :=
  Timer w p true (hold t) (wall_time t) (proc_time t) (count t).

(** 357-377 *)
Definition toc (w p : Z) (t : timer) : timer :=
  let wall := w - init_wall_time t in
  let proc := p - init_proc_time t in
  let wall' := if hold t then wall_time t + wall else wall in
  let proc' := if hold t then proc_time t + proc else proc in
  if tic_initiated t
  then Timer (init_wall_time t) (init_proc_time t) false (hold t) wall' proc' (count t + 1)
  else Timer (init_wall_time t) (init_proc_time t) (tic_initiated t) (hold t) wall' proc' (count t).

(** 432-435 *)
Definition reset (t : timer) : timer :=
  Timer (init_wall_time t) (init_proc_time t) false (hold t) 0 0 0.

Definition apply_call (t : timer) (c : call) : timer :=
  match c with Tic w p => tic w p t | Toc w p => toc w p t | Reset => reset t end.

(** The timer after a sequence of calls, the first call first *)
Definition run (h : bool) (calls : list call) : timer := fold_left apply_call calls (new_timer h).

(** ** _memory.py *)

(** A float64: rounding to nearest even with 53 bits. Overflow is left out: all
    the quotients are below 2^1024 for byte counts below 2^1034. *)
Definition float64 (x : R) : R := round radix2 (FLT_exp (-1074) 53) ZnearestE x.

(** 466-468: the loop, for a number of iterations; None when it has not ended.
    The first quotient is one of integers, the next ones of a float by an
    integer; both are correctly rounded. *)
Fixpoint hr_loop (fuel : nat) (mem_hr : R) (counter : nat) : option (R * nat) :=
  match fuel with
  | O => None
  | S fuel' =>
      if Rlt_bool 1024 mem_hr
      then hr_loop fuel' (float64 (mem_hr / 1024)) (S counter)
      else Some (mem_hr, counter)
  end.

(** 470-487; None is an UnboundLocalError *)
Definition unit_name (counter : nat) : option string :=
  match counter with
  | 0 => Some "b" | 1 => Some "Kb" | 2 => Some "Mb" | 3 => Some "Gb" | 4 => Some "Tb"
  | 5 => Some "Pb" | 6 => Some "Eb" | 7 => Some "Zb" | 8 => Some "Yb" | _ => None
  end%string%nat.

(** 457-489 *)
Definition human_readable (fuel : nat) (mem_bytes : Z) : option (R * string) :=
  match hr_loop fuel (IZR mem_bytes) 0 with
  | Some (mem_hr, counter) =>
      match unit_name counter with Some u => Some (mem_hr, u) | None => None end
  | None => None
  end.

(** 394-402, on Linux: ru_maxrss is the largest resident size the process has
    had, in kilobytes. [sizes] are the resident sizes of the process in kilobytes
    since it started, the latest first. *)
Definition ru_maxrss (sizes : list Z) : Z := fold_right Z.max 0 sizes.
Definition resident_memory_in_bytes (sizes : list Z) : Z := ru_maxrss sizes * 1024.

(** 191 and 280-283: start() when the history is [before], read() after
    the further sizes [during] *)
Definition mem_start (before : list Z) : Z := resident_memory_in_bytes before.
Definition mem_read (init_mem : Z) (sizes : list Z) : Z := resident_memory_in_bytes sizes - init_mem.
