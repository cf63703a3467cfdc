(** Model of imate/sample_matrices/toeplitz.py.  Exact arithmetic; None stands
    for a division by zero or the logarithm of a number that is not positive.
    The argument checks (209-266) are left out: a and b are numbers and the size
    is a positive integer. *)
Require Import Reals.
From mathcomp Require Import all_ssreflect all_algebra.
From Verif Require Import RealField.
From Verif Require Import TraceModel.
Set Implicit Arguments.
Unset Strict Implicit.
Unset Printing Implicit Defensive.
Import GRing.Theory Num.Theory.
Local Open Scope ring_scope.

Section Model.
Variable F : numFieldType.
Variables a b : F.

(** Lines 178-192: the entries a at (i, i), then b at (i, i+1) *)
Definition toeplitz_entries (size : nat) : seq ('I_size * 'I_size * F) :=
  [seq (i, i, a) | i <- enum 'I_size] ++
  pmap (fun i : 'I_size => omap (fun j : 'I_size => (i, j, b)) (insub i.+1)) (enum 'I_size).

(** Lines 192-202; the formats csr and csc store the same entries *)
Definition toeplitz (size : nat) (gram : bool) : mat F size size :=
  let A : mat F size size := Sparse (toeplitz_entries size) in
  if gram then gramian A else A.

(** Lines 342-348 *)
Definition toeplitz_trace (size : nat) (gram : bool) : F :=
  if gram then a ^+ 2 + (size%:R - 1) * (a ^+ 2 + b ^+ 2) else size%:R * a.

Definition quotient (x y : F) : option F := if y == 0 then None else Some (x / y).

(** Lines 445-460 *)
Definition toeplitz_traceinv (size : nat) (gram : bool) : option F :=
  if gram then
    if a == b then quotient (size%:R * (size%:R + 1)) (2%:R * a ^+ 2)
    else
      obind (fun q =>
        obind (fun c =>
          if (size < 200)%N then
            omap (fun r => c * (size%:R - q ^+ 2 * r)) (quotient (q ^+ (2 * size) - 1) (q ^+ 2 - 1))
          else
            omap (fun r => c * (size%:R - r)) (quotient (q ^+ 2) (1 - q ^+ 2)))
        (quotient 1 (a ^+ 2 - b ^+ 2))) (quotient b a)
  else quotient size%:R a.

(** Line 635 *)
Definition toeplitz_schatten (size : nat) (p : F) : F := a.
End Model.

(** Lines 536-540 *)
Definition toeplitz_logdet (a b : R) (size : nat) (gram : bool) : option R :=
  if 0 < a then
    let logdet_ := size%:R * ln a in
    Some (if gram then 2%:R * logdet_ else logdet_)
  else None.
