(** Model of the memory management of one Monte-Carlo sample:
    imate/_c_trace_estimator/c_trace_estimator.cpp 437-491, 497-557, 624-653
    (_c_stochastic_lanczos_quadrature), with the scratch arrays of
    c_lanczos_tridiagonalization.cpp 149-152, 232-233,
    c_golub_kahn_bidiagonalization.cpp 144-145, 228-229 and
    diagonalization.cpp 99, 114, 215-226.  Contents and sizes of the arrays are
    left out (see SlqModel for them); only new and delete[] are kept. *)
From mathcomp Require Import all_ssreflect.
From Verif Require Import Mem.
Set Implicit Arguments.
Unset Strict Implicit.
Unset Printing Implicit Defensive.

(** The heap: identifiers of the blocks not released yet, and the next fresh
    identifier. *)
Record heap := Heap { live : seq nat; next : nat }.

Definition new (h : heap) : heap * nat := (Heap (next h :: live h) (next h).+1, next h).

(** delete[] p is an error (undefined behaviour) unless p is live. *)
Definition delete (h : heap) (p : nat) : option heap :=
  if p \in live h then Some (Heap (rem p (live h)) (next h)) else None.

(** if (p != NULL) delete[] p *)
Definition delete_opt (h : heap) (p : option nat) : option heap :=
  if p is Some p then delete h p else Some h.

(** k scratch arrays, released before returning *)
Fixpoint scratch (k : nat) (h : heap) : option heap :=
  if k is k'.+1 then
    let: (h, p) := new h in
    do h <- scratch k' h;
    delete h p
  else Some h.

(** Lines 463-473, 476-486: one array per inquiry *)
Definition new_rows (q : nat) (h : heap) : option (heap * seq nat) :=
  for_ 0 q 1 (fun _ s => let: (h, p) := new s.1 in Some (h, rcons s.2 p)) (h, [::]).

(** Lines 628-631, 634-637 *)
Definition delete_rows (required : nat) (rows : seq nat) (h : heap) : option heap :=
  for_ 0 required 1 (fun j h => do p <- rd rows j; delete h p) h.

(** The pointers eigenvectors, left_singularvectors and
    right_singularvectors_transposed (lines 443-445). *)
Record vectors := Vectors { eigvec : option nat; lsv : option nat; rsv : option nat }.

(** Lines 497-557 *)
Definition iterations (gram : bool) (q required : nat) (converged : seq bool)
    (h : heap) : option (heap * vectors) :=
  for_ 0 required 1
    (fun j s =>
       do c <- rd converged j;
       if c && (required == q) then Some s
       else if gram then
         do h <- scratch 2 s.1;
         let: (h, u) := new h in
         let: (h, v) := new h in
         do h <- scratch 2 h;
         Some (h, Vectors (eigvec s.2) (Some u) (Some v))
       else
         do h <- scratch 2 s.1;
         let: (h, e) := new h in
         do h <- scratch 1 h;
         Some (h, Vectors (Some e) (lsv s.2) (rsv s.2)))
    (h, Vectors None None None).

(** Lines 410-654 *)
Definition sample_memory (known gram : bool) (q : nat) (converged : seq bool)
    (h : heap) : option heap :=
  let: (h, alpha) := new h in
  let: (h, beta) := new h in
  let required := if known then 1 else q in
  let: (h, theta) := new h in
  do r <- new_rows q h;
  let: (h, thetas) := r in
  let: (h, tau) := new h in
  do r <- new_rows q h;
  let: (h, taus) := r in
  let: (h, lanczos_size) := new h in
  do r <- iterations gram q required converged h;
  let: (h, vs) := r in
  do h <- delete h alpha;
  do h <- delete h beta;
  do h <- delete h lanczos_size;
  do h <- delete_rows required thetas h;
  do h <- delete h theta;
  do h <- delete_rows required taus h;
  do h <- delete h tau;
  do h <- delete_opt h (eigvec vs);
  do h <- delete_opt h (lsv vs);
  delete_opt h (rsv vs).
