(** Model of imate/_random_generator: SplitMix64, xoshiro256**, the per-thread
    generator table and the filling of arrays with random signs.
    64-bit words are [N] values below 2^64; every operation that wraps in C++
    has an explicit [mod 2^64]. *)
From Coq Require Import NArith ZArith List.
Import ListNotations.
Local Open Scope N_scope.

Definition word_mod : N := 2 ^ 64.

(** uint64_t addition, multiplication and shifts (C++ wraps modulo 2^64). *)
Definition add64 (a b : N) : N := (a + b) mod word_mod.
Definition mul64 (a b : N) : N := (a * b) mod word_mod.
Definition shl64 (x k : N) : N := (N.shiftl x k) mod word_mod.
Definition shr64 (x k : N) : N := N.shiftr x k.

(** ** SplitMix64 *)

(** split_mix_64.cpp 28-47: constructor.  [clock] is the value returned by
    get_highres_time_stamp(), used only for a negative seed. *)
Definition splitmix_init (clock : N) (seed : Z) : N :=
  let s := if (0 <=? seed)%Z then Z.to_N seed else clock in
  N.lor (shl64 s 32) s.

(** split_mix_64.cpp 60-63: the output mixing of the advanced state. *)
Definition splitmix_mix (z : N) : N :=
  let z := mul64 (N.lxor z (shr64 z 30)) 0xbf58476d1ce4e5b9 in
  let z := mul64 (N.lxor z (shr64 z 27)) 0x94d049bb133111eb in
  N.lxor z (shr64 z 31).

(** split_mix_64.cpp 57-64: next(); returns the new state and the output. *)
Definition splitmix_next (state : N) : N * N :=
  let state := add64 state 0x9e3779b97f4a7c15 in
  (state, splitmix_mix state).

(** ** xoshiro256** *)

(** The four-word array [state] of Xoshiro256StarStar. *)
Record xstate := X { x0 : N; x1 : N; x2 : N; x3 : N }.

(** xoshiro_256_star_star.cpp 192-197: rotation_left. *)
Definition rotation_left (x k : N) : N :=
  N.lor (shl64 x k) (shr64 x (64 - k)).

(** xoshiro_256_star_star.cpp 33-46: constructor, four SplitMix64 draws. *)
Definition xoshiro_init (clock : N) (seed : Z) : xstate :=
  let s := splitmix_init clock seed in
  let '(s, a) := splitmix_next s in
  let '(s, b) := splitmix_next s in
  let '(s, c) := splitmix_next s in
  let '(s, d) := splitmix_next s in
  X a b c d.

(** xoshiro_256_star_star.cpp 73-89: next(), the in-place updates in order. *)
Definition xoshiro_next (s : xstate) : N * xstate :=
  let result := mul64 (rotation_left (mul64 (x1 s) 5) 7) 9 in
  let t := shl64 (x1 s) 17 in
  let s2 := N.lxor (x2 s) (x0 s) in
  let s3 := N.lxor (x3 s) (x1 s) in
  let s1 := N.lxor (x1 s) s2 in
  let s0 := N.lxor (x0 s) s3 in
  let s2 := N.lxor s2 t in
  let s3 := rotation_left s3 45 in
  (result, X s0 s1 s2 s3).

Definition xoshiro_step (s : xstate) : xstate := snd (xoshiro_next s).

(** xoshiro_256_star_star.cpp 119-122: s0..s3 ^= state[0..3]. *)
Definition xxor (a b : xstate) : xstate :=
  X (N.lxor (x0 a) (x0 b)) (N.lxor (x1 a) (x1 b))
    (N.lxor (x2 a) (x2 b)) (N.lxor (x3 a) (x3 b)).

Definition xzero : xstate := X 0 0 0 0.

Fixpoint nrange (start : N) (len : nat) : list N :=
  match len with O => [] | S k => start :: nrange (start + 1) k end.

(** xoshiro_256_star_star.cpp 113-127 and 158-172: the double loop over the
    words of the table and the 64 bits of each; carries (s0..s3, state). *)
Definition jump_bit (w : N) (p : xstate * xstate) (b : N) : xstate * xstate :=
  let '(acc, st) := p in
  ((if N.testbit w b then xxor acc st else acc), xoshiro_step st).

Definition jump_word (p : xstate * xstate) (w : N) : xstate * xstate :=
  fold_left (jump_bit w) (nrange 0 64) p.

Definition jump_table (table : list N) (s : xstate) : xstate :=
  fst (fold_left jump_word table (xzero, s)).

(** xoshiro_256_star_star.cpp 102-106. *)
Definition JUMP : list N :=
  [0x180ec6d33cfd0aba; 0xd5a61266f0c9392c;
   0xa9582618e03fc9aa; 0x39abdc4529b1661c].

(** xoshiro_256_star_star.cpp 147-151. *)
Definition LONG_JUMP : list N :=
  [0x76e15d3efefdcbbf; 0xc5004e441c522fb3;
   0x77710069854ee241; 0x39109bb02acbe635].

(** xoshiro_256_star_star.cpp 100-133 and 145-178. *)
Definition xoshiro_jump (s : xstate) : xstate := jump_table JUMP s.
Definition xoshiro_long_jump (s : xstate) : xstate := jump_table LONG_JUMP s.

(** ** RandomNumberGenerator: one generator per thread *)

(** random_number_generator.cpp 120-137: initialize.  [clock t] is the time
    stamp read while the generator of thread [t] is constructed. *)
Definition rng_initialize (num_threads : nat) (clock : nat -> N) (seed : Z)
  : list xstate :=
  map (fun t => Nat.iter (t + 1) xoshiro_jump (xoshiro_init (clock t) seed))
      (seq 0 num_threads).

(** Replace position [i] of an array; [None] models an access outside it. *)
Fixpoint upd {A} (l : list A) (i : nat) (v : A) : option (list A) :=
  match l, i with
  | [], _ => None
  | _ :: l', O => Some (v :: l')
  | a :: l', S i' => option_map (cons a) (upd l' i' v)
  end.

(** random_number_generator.cpp 150-153: next(thread_id). *)
Definition rng_next (table : list xstate) (thread_id : nat)
  : option (N * list xstate) :=
  match nth_error table thread_id with
  | None => None
  | Some g =>
      let '(bits, g') := xoshiro_next g in
      option_map (pair bits) (upd table thread_id g')
  end.

(** ** RandomArrayGenerator, serial call (num_threads = 0) *)

(** random_array_generator.cpp 126-137 / 153-161: one sign from one bit;
    +1.0 is [1], -1.0 is [-1]. *)
Definition sign_of_bit (bits : N) (j : nat) : Z :=
  if N.testbit bits (N.of_nat j) then 1%Z else (-1)%Z.

(** random_array_generator.cpp 124-138: the inner loop over the 64 bits. *)
Fixpoint fill_bits (bits : N) (base j n : nat) (arr : list Z)
  : option (list Z) :=
  match n with
  | O => Some arr
  | S n' =>
      match upd arr (base + j) (sign_of_bit bits j) with
      | None => None
      | Some arr' => fill_bits bits base (S j) n' arr'
      end
  end.

(** random_array_generator.cpp 117-139: the loop over the chunks of 64. *)
Fixpoint fill_chunks (thread_id i n : nat) (table : list xstate) (arr : list Z)
  : option (list xstate * list Z) :=
  match n with
  | O => Some (table, arr)
  | S n' =>
      match rng_next table thread_id with
      | None => None
      | Some (bits, table') =>
          match fill_bits bits (i * 64) 0 64 arr with
          | None => None
          | Some arr' => fill_chunks thread_id (S i) n' table' arr'
          end
      end
  end.

(** random_array_generator.cpp 62-165 with num_threads = 0: executed by one
    thread of the caller's parallel region, whose number is [thread_id]. *)
Definition generate_random_array (table : list xstate) (thread_id : nat)
    (arr : list Z) (array_size : nat) : option (list xstate * list Z) :=
  let num_chunks := Nat.div array_size 64 in
  match fill_chunks thread_id 0 num_chunks table arr with
  | None => None
  | Some (table', arr') =>
      match rng_next table' thread_id with
      | None => None
      | Some (bits, table'') =>
          option_map (pair table'')
            (fill_bits bits (num_chunks * 64) 0 (array_size - num_chunks * 64)
                       arr')
      end
  end.

(** ** Histories of draws *)

(** A schedule is the order in which threads call next() (random_number_
    generator.cpp 150-153); the result lists (thread, value) in that order. *)
Fixpoint run_draws (table : list xstate) (schedule : list nat)
  : option (list (nat * N)) :=
  match schedule with
  | [] => Some []
  | t :: rest =>
      match rng_next table t with
      | None => None
      | Some (bits, table') => option_map (cons (t, bits)) (run_draws table' rest)
      end
  end.

(** What the public interface of one generator can do to its state. *)
Inductive rng_op := OpNext | OpJump | OpLongJump.

(** xoshiro_256_star_star.cpp 73-89, 100-133, 145-178. *)
Definition apply_op (s : xstate) (o : rng_op) : xstate :=
  match o with
  | OpNext => xoshiro_step s
  | OpJump => xoshiro_jump s
  | OpLongJump => xoshiro_long_jump s
  end.
