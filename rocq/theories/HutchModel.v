(** Model of one sample of the Hutchinson method for traceinv:
    imate/traceinv/_hutchinson_method.pyx 798-806 (and 896-904), 984-1017 (and
    1063-1096), 1103-1163.

    A is square here.  Arithmetic is exact over a field, and linear_solver
    (imate/_linear_algebra/linear_solver.py 24-76) returns the exact solution.
    None stands for an exception. *)
From mathcomp Require Import all_ssreflect all_algebra.
Set Implicit Arguments.
Unset Strict Implicit.
Unset Printing Implicit Defensive.
Import GRing.Theory.
Local Open Scope ring_scope.

Section Model.
Variable R : fieldType.

(** X @ v for a matrix that may be None *)
Definition apply n (X : option 'M[R]_n) (v : 'cV[R]_n) : option 'cV[R]_n :=
  omap (fun X => X *m v) X.

(** linear_solver(X, v, ...) *)
Definition solve n (X : option 'M[R]_n) (v : 'cV[R]_n) : option 'cV[R]_n :=
  obind (fun X => if X \in unitmx then Some (invmx X *m v) else None) X.

(** for i in range(k): OpE = f(OpE) *)
Definition repeat n (f : 'cV[R]_n -> option 'cV[R]_n) (k : nat) (v : 'cV[R]_n) :=
  iter k (obind f) (Some v).

(** _operator_dot, 1103-1163.  The branch p < -1 reads OpE before any
    assignment to it (1158, 1161), which raises UnboundLocalError. *)
Definition operator_dot n (A : 'M[R]_n) (AtA : option 'M[R]_n) (p : int) (gram : bool)
    (B : option 'M[R]_n) (E : 'cV[R]_n) : option 'cV[R]_n :=
  let BE := if B is Some B then B *m E else E in
  if p == 0 then Some BE
  else if p == 1 then
    if gram then
      if B is None then solve (Some A^T) BE else solve AtA BE
    else solve (Some A) BE
  else if 1 < p then
    if gram then repeat (solve AtA) (absz p) BE else repeat (solve (Some A)) (absz p) BE
  else if p == -1 then Some (A *m BE)
  else None.

(** 798-806 *)
Definition gramian n (A : 'M[R]_n) (gram : bool) (p : int) (B C : option 'M[R]_n) : option 'M[R]_n :=
  if gram then
    if (p == 1) && (B == None) && (C == None) then None else Some (A^T *m A)
  else None.

Definition inner_product n (x y : 'cV[R]_n) : R := \sum_i x i 0 * y i 0.

(** _stochastic_trace_estimator, 984-1017 *)
Definition estimator n (A : 'M[R]_n) (AtA B C : option 'M[R]_n) (E : 'cV[R]_n) (gram : bool)
    (p : int) : option R :=
  if gram && (AtA == None) && ~~ ((p == 1) && (B == None) && (C == None)) then None
  else
    obind (fun OpE => omap (fun OpE =>
      let inner_prod :=
        if gram && (absz p == 1)%N && (B == None) && (C == None)
        then inner_product OpE OpE else inner_product E OpE in
      n%:R * inner_prod)
      (if C is Some _ then operator_dot A AtA p gram C OpE else Some OpE))
    (operator_dot A AtA p gram B E).

(** One sample for the random unit vector E *)
Definition hutchinson_sample n (A : 'M[R]_n) (B C : option 'M[R]_n) (gram : bool) (p : int)
    (E : 'cV[R]_n) : option R :=
  estimator A (gramian A gram p B C) B C E gram p.

End Model.
