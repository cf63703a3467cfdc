(** * Filling an array of random signs with several threads

    Models /repo/imate/_random_generator/random_array_generator.cpp:62-165 for
    num_threads > 0, as reached through py_generate_random_array
    (py_random_array_generator.pyx:24-51) from the Hutchinson method
    (random_vectors.pyx:62-63), as a transition system.

    - [thread_id] is declared outside the parallel region (line 85), so it is
      one variable shared by all threads; each thread assigns it (114) and reads
      it again at every chunk (120).
    - The generators are shared too: a thread works on the generator whose
      number it read.  One step is one statement of
      Xoshiro256StarStar::next() (xoshiro_256_star_star.cpp:73-89).
    - schedule(static) gives thread [p] the chunks [lo p, ..., lo (p+1) - 1];
      how OpenMP splits the range is left open.
    - The writes of the 64 entries of a chunk are one step: only the thread that
      owns the chunk accesses them.
    - Memory is sequentially consistent (the data races are undefined behaviour
      in C++; the model only contains the outcomes of some interleaving). *)
From Coq Require Import NArith ZArith List Arith.
From Verif Require Import RngModel.
Import ListNotations.

(** Where a thread is. [i] is the chunk, [g] the generator it works on, [k] the
    statement of next() it is about to execute, [r] and [t] the variables
    [result] and [t] of next(). *)
Inductive pc :=
  | Enter                                  (* 112-115: before thread_id = ... *)
  | Loop (i : nat)                         (* 117-118: loop header *)
  | Draw (i g k : nat) (r t : N)           (* 121: inside next(thread_id) *)
  | Fill (i : nat) (r : N)                 (* 124-138 *)
  | Done.                                  (* at the barrier of the region *)

Record state := State {
  tid : nat;                               (* thread_id *)
  gens : list xstate;                      (* the generators *)
  arr : list Z;                            (* array *)
  pcs : list pc }.

(** xoshiro_256_star_star.cpp:75: [result]. *)
Definition next_result (w : xstate) : N :=
  mul64 (rotation_left (mul64 (x1 w) 5) 7) 9.

(** xoshiro_256_star_star.cpp:77: [t]. *)
Definition next_t (w : xstate) : N := shl64 (x1 w) 17.

(** xoshiro_256_star_star.cpp:79-86: the statements that write the state. *)
Definition next_line (k : nat) (t : N) (w : xstate) : xstate :=
  match k with
  | 2 => X (x0 w) (x1 w) (N.lxor (x2 w) (x0 w)) (x3 w)
  | 3 => X (x0 w) (x1 w) (x2 w) (N.lxor (x3 w) (x1 w))
  | 4 => X (x0 w) (N.lxor (x1 w) (x2 w)) (x2 w) (x3 w)
  | 5 => X (N.lxor (x0 w) (x3 w)) (x1 w) (x2 w) (x3 w)
  | 6 => X (x0 w) (x1 w) (N.lxor (x2 w) t) (x3 w)
  | 7 => X (x0 w) (x1 w) (x2 w) (rotation_left (x3 w) 45)
  | _ => w
  end.

(** One statement of next(): the new state of the generator and what the thread
    does next. *)
Definition next_stmt (i g k : nat) (r t : N) (w : xstate) : xstate * pc :=
  match k with
  | 0 => (w, Draw i g 1 (next_result w) t)
  | 1 => (w, Draw i g 2 r (next_t w))
  | 7 => (next_line 7 t w, Fill i r)
  | _ => (next_line k t w, Draw i g (S k) r t)
  end.

Section Fill.
Variable lo : nat -> nat.

(** [goto p c s]: thread [p] continues at [c]. *)
Definition goto (p : nat) (c : pc) (s : state) : option state :=
  option_map (State (tid s) (gens s) (arr s)) (upd (pcs s) p c).

(** One step of thread [p]; [None] is an access outside an array. A number that
    is not a thread's does nothing. *)
Definition step (s : state) (p : nat) : option state :=
  match nth_error (pcs s) p with
  | None | Some Done => Some s
  | Some Enter =>                          (* 112-115 *)
      goto p (Loop (lo p)) (State p (gens s) (arr s) (pcs s))
  | Some (Loop i) =>                       (* 118, 121: reads thread_id *)
      if i <? lo (S p) then goto p (Draw i (tid s) 0 0 0) s else goto p Done s
  | Some (Draw i g k r t) =>
      match nth_error (gens s) g with
      | None => None
      | Some w =>
          let '(w', c) := next_stmt i g k r t w in
          match upd (gens s) g w' with
          | None => None
          | Some l => goto p c (State (tid s) l (arr s) (pcs s))
          end
      end
  | Some (Fill i r) =>
      match fill_bits r (i * 64) 0 64 (arr s) with
      | None => None
      | Some a => goto p (Loop (S i)) (State (tid s) (gens s) a (pcs s))
      end
  end.

(** The order in which the threads take their steps. *)
Fixpoint run (s : state) (sched : list nat) : option state :=
  match sched with
  | [] => Some s
  | p :: rest => match step s p with None => None | Some s' => run s' rest end
  end.

End Fill.

(** 85, 108: the beginning of the region with [num_threads] threads. *)
Definition start (num_threads : nat) (table : list xstate) (a : list Z) : state :=
  State 0 table a (repeat Enter num_threads).

(** The barrier at the end of the region (139) is passed. *)
Definition finished (s : state) : Prop := Forall (eq Done) (pcs s).

(** 146-164: the entries after the last full chunk. *)
Definition finish (array_size : nat) (s : state) : option (list xstate * list Z) :=
  match rng_next (gens s) (tid s) with
  | None => None
  | Some (bits, table) =>
      option_map (pair table)
        (fill_bits bits (array_size / 64 * 64) 0
                   (array_size - array_size / 64 * 64) (arr s))
  end.

(** The split of libgomp: the first [n mod num_threads] threads get one more. *)
Definition gomp_lo (n num_threads p : nat) : nat :=
  p * (n / num_threads) + Nat.min p (n mod num_threads).
