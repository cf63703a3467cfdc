(** What the theorems about the accuracy of the samples of the Hutchinson method
    speak about. *)
From mathcomp Require Import all_ssreflect all_algebra.
From Verif Require Import LanczosSpec.
Set Implicit Arguments.
Unset Strict Implicit.
Unset Printing Implicit Defensive.
Import GRing.Theory Num.Theory.
Local Open Scope ring_scope.

Section Spec.
Variable R : rcfType.

(** A shrinks no vector by more than the factor [lam]: its smallest singular
    value is at least [lam]. *)
Definition shrinks_at_most n (lam : R) (A : 'M[R]_n) : Prop :=
  forall v : 'cV[R]_n, lam * nrm v <= nrm (A *m v).

(** B, the identity matrix if omitted, stretches no vector by more than the
    factor [beta]. *)
Definition stretches_at_most n (beta : R) (B : option 'M[R]_n) : Prop :=
  forall v : 'cV[R]_n, nrm (if B is Some B then B *m v else v) <= beta * nrm v.

(** The number of systems that are solved for one sample: p, and twice as many
    if C is given; none if p is not positive. *)
Definition solves (T : Type) (p : int) (C : option T) : nat :=
  if p is Posz k then if C is Some _ then (k + k)%N else k else 0%N.

(** A bound of the relative error after [k] systems, each solved up to the
    relative residual [tol]: tol for k = 1, and about k tol for small tol *)
Definition growth (tol : R) (k : nat) : R := (1 + tol) ^+ k - 1.
End Spec.
