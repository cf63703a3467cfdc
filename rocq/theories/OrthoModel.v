(** Model of imate/_c_trace_estimator/c_orthogonalization.cpp 268-375,
    cOrthogonalization::orthogonalize_vectors. *)
From mathcomp Require Import all_ssreflect all_algebra.
From Verif Require Import Mem KernelModel LanczosModel.
Set Implicit Arguments.
Unset Strict Implicit.
Unset Printing Implicit Defensive.
Import GRing.Theory Num.Theory.
Local Open Scope ring_scope.

Section Model.
Variable R : rcfType.
(** Machine epsilon. *)
Variable eps : R.
(** The array produced by the l-th call of generate_random_array. *)
Variable fresh : nat -> seq R.

(** Lines 316-344: vector i against vector j.  The flag says that the norm of
    vector i has become too small. *)
Definition ov_step (n i j : nat) (V : seq R) : option (seq R * bool) :=
  do norm_j <- euclidean_norm (at_ V (j * n)) n;
  if norm_j < eps * Num.sqrt n%:R then Some (V, false)
  else
    do inner_prod <- inner_product (at_ V (i * n)) (at_ V (j * n)) n;
    do scale <- dv inner_prod (norm_j * norm_j);
    do V <- upd_at V (i * n) (subtract_scaled_vector (at_ V (j * n)) n scale);
    do norm_i <- euclidean_norm (at_ V (i * n)) n;
    Some (V, norm_i < eps * Num.sqrt n%:R).

(** Lines 301-309 *)
Definition ov_start (n i : nat) : nat := if (n < i)%N then (i - n)%N else 0%N.

(** Lines 312-361: the for loop over j, left by break when the flag is set. *)
Definition ov_pass (n i : nat) (V : seq R) : option (seq R * bool) :=
  for_ (ov_start n i) i 1
    (fun j s => if s.2 then Some s else ov_step n i j s.1) (V, false).

(** Lines 285-372: the while loop.  [draws] counts the calls of
    generate_random_array.  The result is [Some None] when abort() is called and
    [None] when an access is outside the array or the fuel is used up. *)
Fixpoint ov_loop (fuel n num_vectors i : nat) (success : bool) (num_trials draws : nat)
    (V : seq R) : option (option (seq R)) :=
  if fuel is fuel'.+1 then
    if (i < num_vectors)%N then
      if ~~ success && (20 <= num_trials)%N then Some None
      else
        do s <- ov_pass n i V;
        if s.2 then
          do V <- upd_at s.1 (i * n) (copy_vector (fresh draws) n);
          ov_loop fuel' n num_vectors i false num_trials.+1 draws.+1 V
        else ov_loop fuel' n num_vectors i.+1 true 0 draws s.1
    else Some (Some V)
  else None.

Definition orthogonalize_vectors (V : seq R) (n num_vectors : nat) : option (option (seq R)) :=
  if (num_vectors < 2)%N then Some (Some V)
  else ov_loop (num_vectors * 22).+1 n num_vectors 0 true 0 0 V.

End Model.
