(** Model of the parallel loop of
    imate/sample_matrices/_dense_correlation_matrix.pyx (_generate_matrix
    41-147), as a transition system in which one step is one access to shared
    memory.

    - Threads are numbered; any thread may take the next step.  Memory is
      sequentially consistent.
    - schedule='static' is over-approximated: an idle thread may take any row
      that nobody has taken (so every chunk size and number of threads is
      covered).
    - [K i j] is the value of kernel_function(euclidean_distance(...)) for points
      i and j, computed privately from data that nobody writes.
    - The counter, its lock and the printing (133-147) are left out.
    - i, j and matrix_size are C int (82, 43): the index i*matrix_size + j is
      computed in 32-bit arithmetic, with wrap-around where it overflows. *)
Require Import ZArith List Arith.
Import ListNotations.

(** The value of a 32-bit signed integer *)
Definition wrap32 (z : Z) : Z := ((z + 2 ^ 31) mod 2 ^ 32 - 2 ^ 31)%Z.

Section Model.
Variable V : Type.
Variable K : nat -> nat -> V.
Variables (n threads : nat).

(** i*matrix_size + j *)
Definition address (i j : nat) : Z :=
  wrap32 (wrap32 (Z.of_nat i * Z.of_nat n) + Z.of_nat j).

(** Where a thread is: i is its row, j the column *)
Inductive pc :=
  | Idle                       (* at the loop header, 115 *)
  | Compute (i j : nat)        (* 116-125, about to write entry (i, j) *)
  | Fetch (i j : nat)          (* 131, about to read entry (i, j) *)
  | Put (i j : nat) (v : V).   (* 130, about to write entry (j, i) *)

Record state := State {
  todo : list nat;
  pcs : nat -> pc;
  mem : Z -> V }.

Definition upd (f : nat -> pc) (t : nat) (p : pc) : nat -> pc :=
  fun t' => if Nat.eqb t' t then p else f t'.
Definition store (m : Z -> V) (a : Z) (v : V) : Z -> V :=
  fun a' => if Z.eqb a' a then v else m a'.

(** [m] is the memory before the loop, position 0 being the first entry of the
    matrix *)
Definition init (m : Z -> V) : state := State (seq 0 n) (fun _ => Idle) m.

(** One step of thread [t] *)
Inductive step (t : nat) (s : state) : state -> Prop :=
  (* 115 *)
  | st_take i : pcs s t = Idle -> In i (todo s) ->
      step t s (State (remove Nat.eq_dec i (todo s)) (upd (pcs s) t (Compute i i)) (mem s))
  (* 119-125, 129 *)
  | st_diag i : pcs s t = Compute i i -> i < n ->
      step t s (State (todo s) (upd (pcs s) t (Compute i (S i)))
                      (store (mem s) (address i i) (K i i)))
  | st_off i j : pcs s t = Compute i j -> j < n -> i <> j ->
      step t s (State (todo s) (upd (pcs s) t (Fetch i j))
                      (store (mem s) (address i j) (K i j)))
  (* 131 *)
  | st_fetch i j : pcs s t = Fetch i j ->
      step t s (State (todo s) (upd (pcs s) t (Put i j (mem s (address i j)))) (mem s))
  (* 130 *)
  | st_put i j v : pcs s t = Put i j v ->
      step t s (State (todo s) (upd (pcs s) t (Compute i (S j)))
                      (store (mem s) (address j i) v))
  (* the end of the row *)
  | st_end i : pcs s t = Compute i n ->
      step t s (State (todo s) (upd (pcs s) t Idle) (mem s)).

(** Executions: any interleaving of the steps of the threads *)
Inductive steps : state -> state -> Prop :=
  | steps_refl s : steps s s
  | steps_more s1 t s2 s3 : t < threads -> step t s1 s2 -> steps s2 s3 -> steps s1 s3.

Definition reachable (m : Z -> V) (s : state) : Prop := steps (init m) s.

(** The loop is over *)
Definition finished (s : state) : Prop :=
  todo s = [] /\ forall t, t < threads -> pcs s t = Idle.
End Model.
