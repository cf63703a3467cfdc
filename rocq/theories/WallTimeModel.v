(** Model of imate/_utilities/timer.cpp, class Timer, as used in
    imate/_c_trace_estimator/c_trace_estimator.cpp 254-255, 294-295 for the time
    "alg_wall_time" in the returned info; the branch for unix and macOS.

    double and float are rounded to nearest (IeeeModel.v); the product and the sum in
    get_wall_time are rounded separately (no fused multiplication). *)
Require Import ZArith Reals.
From Verif Require Import IeeeModel.
Local Open Scope R_scope.

(** struct timeval, as written by gettimeofday *)
Record timeval := Timeval { tv_sec : Z; tv_usec : Z }.

(** timer.cpp 136-137; 1e-6 is the double next to it *)
Definition seconds (time : timeval) : R :=
  double (double (IZR (tv_sec time)) + double (double (IZR (tv_usec time)) * double (1 / 1000000))).

(** timer.cpp 105-142, get_wall_time: [None] for the reading is a failed call, [None]
    as the result is NAN (the exception is built but not thrown) *)
Definition get_wall_time (reading : option timeval) : option R :=
  match reading with Some time => Some (seconds time) | None => None end.

(** timer.cpp 40-44: a new timer; 66-69: start; 79-82: stop; 92-95: elapsed *)
Record timer := Timer { start_time : option R; stop_time : option R }.
Definition new_timer : timer := Timer (Some 0) (Some 0).
Definition start (reading : option timeval) (t : timer) : timer := Timer (get_wall_time reading) (stop_time t).
Definition stop (reading : option timeval) (t : timer) : timer := Timer (start_time t) (get_wall_time reading).
Definition elapsed (t : timer) : option R :=
  match stop_time t, start_time t with
  | Some b, Some a => Some (double (b - a))
  | _, _ => None
  end.

(** c_trace_estimator.cpp 254-255, 294-295: alg_wall_time is a float *)
Definition alg_wall_time (reading1 reading2 : option timeval) : option R :=
  match elapsed (stop reading2 (start reading1 new_timer)) with
  | Some x => Some (single x)
  | None => None
  end.
