(** Model of the parallel loop of
    imate/sample_matrices/_sparse_correlation_matrix.pyx (_generate_matrix
    120-246) and of the retry loop and the result of sparse_correlation_matrix
    (551-660), as a transition system in which one step is one access to shared
    memory, or one critical section.

    - Threads are numbered; any thread may take the next step.  Memory is
      sequentially consistent.
    - schedule='dynamic' is over-approximated: an idle thread may take any row
      that nobody has taken (so every chunk size is covered).
    - [K i j] is kernel_function(euclidean_distance(...)) of points i and j,
      computed privately (thread_data has one cell for each thread).
    - The counter and the printing (228-241) are left out.
    - nnz is the length of [buf], the list of everything written so far: nnz
      only changes by appending under the lock.  Entry number k of [buf] is
      written at position k of the three arrays; a position of max_nnz or more
      is outside the arrays, which hold the first max_nnz entries. *)
From mathcomp Require Import all_ssreflect all_algebra.
Set Implicit Arguments.
Unset Strict Implicit.
Unset Printing Implicit Defensive.
Import GRing.Theory Num.Theory.

Section Model.
Variable F : numDomainType.
Variables (K : nat -> nat -> F) (threshold : F).
Variables (n threads max_nnz : nat).

Definition above (i j : nat) : bool := (threshold < K i j)%R.

(** Where a thread is: i is its row, j the column *)
Inductive pc :=
  | Idle                 (* at the loop header, 168 *)
  | Test of nat          (* 172, before reading success *)
  | Col of nat & nat     (* 175-191, about to treat (i, j) *)
  | Full of nat          (* 194, about to report that the arrays are full *)
  | Store of nat & nat   (* 209, about to enter the critical section *)
  | Mirror of nat & nat. (* 218, inside the critical section *)

(** row, column and value *)
Definition entry := (nat * nat * F)%type.

Record state := State {
  todo : seq nat;
  pcs : nat -> pc;
  buf : seq entry;
  success : bool;
  lock : option nat }.

Definition upd (A : Type) (f : nat -> A) (k : nat) (v : A) : nat -> A :=
  fun k' => if k' == k then v else f k'.

(** 163-167 *)
Definition init : state := State (iota 0 n) (fun _ => Idle) [::] true None.

Definition goto (s : state) (t : nat) (p : pc) : state :=
  State (todo s) (upd (pcs s) t p) (buf s) (success s) (lock s).
Definition set_todo (s : state) (l : seq nat) : state :=
  State l (pcs s) (buf s) (success s) (lock s).
Definition fail (s : state) : state :=
  State (todo s) (pcs s) (buf s) false (lock s).
(** 211-215, 219-223: nnz[0] += 1, then the writes at nnz[0]-1 *)
Definition append (s : state) (e : entry) (l : option nat) : state :=
  State (todo s) (pcs s) (rcons (buf s) e) (success s) l.

(** One step of thread [t] *)
Inductive step (t : nat) (s : state) : state -> Prop :=
  (* 168 *)
  | st_take i : pcs s t = Idle -> i \in todo s ->
      step t s (goto (set_todo s (rem i (todo s))) t (Test i))
  (* 172-173 *)
  | st_skip i : pcs s t = Test i -> ~~ success s -> step t s (goto s t Idle)
  | st_start i : pcs s t = Test i -> success s -> step t s (goto s t (Col i i))
  (* 188 *)
  | st_below i j : pcs s t = Col i j -> j < n -> ~~ above i j ->
      step t s (goto s t (Col i j.+1))
  (* 191 *)
  | st_full i j : pcs s t = Col i j -> j < n -> above i j -> max_nnz <= size (buf s) ->
      step t s (goto s t (Full i))
  | st_room i j : pcs s t = Col i j -> j < n -> above i j -> size (buf s) < max_nnz ->
      step t s (goto s t (Store i j))
  (* 194-206 *)
  | st_fail i : pcs s t = Full i -> lock s = None -> step t s (goto (fail s) t Idle)
  (* 209-215, 218, 226 *)
  | st_store i : pcs s t = Store i i -> lock s = None ->
      step t s (goto (append s (i, i, K i i) None) t (Col i i.+1))
  | st_store_off i j : pcs s t = Store i j -> lock s = None -> i != j ->
      step t s (goto (append s (i, j, K i j) (Some t)) t (Mirror i j))
  (* 219-226 *)
  | st_mirror i j : pcs s t = Mirror i j ->
      step t s (goto (append s (j, i, K i j) None) t (Col i j.+1))
  (* the end of the row *)
  | st_end i : pcs s t = Col i n -> step t s (goto s t Idle).

(** Executions: any interleaving of the steps of the threads *)
Inductive steps : state -> state -> Prop :=
  | steps_refl s : steps s s
  | steps_more s1 t s2 s3 : t < threads -> step t s1 s2 -> steps s2 s3 -> steps s1 s3.

Definition reachable (s : state) : Prop := steps init s.

(** The loop is over *)
Definition finished (s : state) : Prop :=
  todo s = [::] /\ forall t, t < threads -> pcs s t = Idle.

(** 640-645: entry (i, j) of the matrix built from the first nnz[0] entries of
    the arrays (a slice is cut off at the end of the array); coo_matrix adds
    entries at the same position *)
Definition result (s : state) (i j : nat) : F :=
  (\sum_(e <- take max_nnz (buf s) | e.1 == (i, j)) e.2)%R.
End Model.

(** 551-638: what sparse_correlation_matrix can return: the result of a
    successful run, or of a run with twice the arrays after a failed one *)
Inductive generates (F : numDomainType) (K : nat -> nat -> F) threshold n threads :
    nat -> (nat -> nat -> F) -> Prop :=
  | gen_success max_nnz s : reachable K threshold n threads max_nnz s ->
      finished threads s -> success s ->
      generates K threshold n threads max_nnz (result max_nnz s)
  | gen_retry max_nnz s M : reachable K threshold n threads max_nnz s ->
      finished threads s -> ~~ success s ->
      generates K threshold n threads (2 * max_nnz) M ->
      generates K threshold n threads max_nnz M.
