(** What is meant by the samples of the threads, for C82. *)
From mathcomp Require Import all_ssreflect.
From Verif Require Import HandleModel.
Set Implicit Arguments.
Unset Strict Implicit.
Unset Printing Implicit Defensive.

(** The steps of one thread: Lanczos processes, one after the other; the operator
    and cuBLAS are called between the beginning and the end of a process *)
Fixpoint proper (inside : bool) (ss : seq step) : bool :=
  match ss with
  | [::] => ~~ inside
  | Begin _ :: ss => ~~ inside && proper true ss
  | End _ :: ss => inside && proper false ss
  | _ :: ss => inside && proper inside ss
  end.

(** The steps of [m] threads, interleaved in any way; thread [d] serves device [d] *)
Definition samples (m : nat) (ss : seq step) : Prop :=
  (forall s, List.In s ss -> device s < m) /\
  (forall d, d < m -> proper false [seq s <- ss | device s == d]).

(** The order of the threads of a parallel region: each one runs once *)
Definition any_order (order : nat -> nat -> seq nat) : Prop :=
  forall r m, perm_eq (order r m) (iota 0 m).
