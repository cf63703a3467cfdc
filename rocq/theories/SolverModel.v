(** * One sample of the Hutchinson method with the linear solver that is used

    Models /repo/imate/_linear_algebra/linear_solver.py 24-76, linear_solver, and
    /repo/imate/traceinv/_hutchinson_method.pyx 798-806 (and 896-904), 984-1017
    (and 1063-1096), 1103-1163 with calls of that function.

    - The solvers of scipy are the routines of a record, with what is assumed of
      them stated separately.
    - Every call of a solver is recorded.  The record is not a part of the
      program; the theorems use it to speak about the calls that were made.
    - Arithmetic other than in the solvers is exact, matrices are square, and
      only right hand sides of one dimension are modelled (the only ones the
      library uses): linear_solver.py 68-71 is left out.
    - [None] is a Python exception. *)
From mathcomp Require Import all_ssreflect all_algebra.
From Verif Require Import LanczosSpec MatSpec.
From Verif Require HutchModel.
Set Implicit Arguments.
Unset Strict Implicit.
Unset Printing Implicit Defensive.
Import GRing.Theory Num.Theory.
Local Open Scope ring_scope.

(** The argument assume_matrix: "gen", "sym", "pos", "sym_pos" or another string *)
Inductive assumption := Gen | Sym | Pos | SymPos | Other.

(** The functions of scipy.  The iterative ones (sparse matrices) return the
    solution and the number [info]; the direct one (dense matrices) raises an
    exception if it fails.  The arguments of the iterative ones are the matrix,
    the right hand side and tol; atol=0 for cg and gmres. *)
Record routines (R : rcfType) := Routines {
  minres : forall n, 'M[R]_n -> 'cV[R]_n -> R -> 'cV[R]_n * int;
  cg : forall n, 'M[R]_n -> 'cV[R]_n -> R -> 'cV[R]_n * int;
  gmres : forall n, 'M[R]_n -> 'cV[R]_n -> R -> 'cV[R]_n * int;
  dense_solve : assumption -> forall n, 'M[R]_n -> 'cV[R]_n -> option 'cV[R]_n }.

(** What is assumed of them.
    - cg and gmres with atol=0 return info = 0 if the norm of the residual is at
      most tol times that of the right hand side.  They return another number,
      and the last iterate, if this is not reached in the maximum number of
      iterations.
    - scipy.linalg.solve(assume_a="sym") and (assume_a="pos") read the upper
      triangle (lower=False).  It raises an exception for a matrix that is
      singular, or with "pos" not positive definite. *)
Record routines_ok (R : rcfType) (E : routines R) : Prop := RoutinesOk {
  cg_ok : forall n (A : 'M[R]_n) b tol, (cg E A b tol).2 = 0 ->
    nrm (b - A *m (cg E A b tol).1) <= tol * nrm b;
  gmres_ok : forall n (A : 'M[R]_n) b tol, (gmres E A b tol).2 = 0 ->
    nrm (b - A *m (gmres E A b tol).1) <= tol * nrm b;
  dense_gen_ok : forall n (A : 'M[R]_n) b, dense_solve E Gen A b =
    if A \in unitmx then Some (invmx A *m b) else None;
  dense_sym_ok : forall n (A : 'M[R]_n) b, let S := symlow A^T in
    dense_solve E Sym A b = if S \in unitmx then Some (invmx S *m b) else None;
  dense_pos_ok : forall n (A : 'M[R]_n) b, let S := symlow A^T in
    (posdef S -> dense_solve E Pos A b = Some (invmx S *m b)) /\
    (~ posdef S -> dense_solve E Pos A b = None);
  dense_other_ok : forall n (A : 'M[R]_n) b, dense_solve E Other A b = None }.

(** A call of a solver: the system, what was returned, and the flag info *)
Record call (R : rcfType) n := Call {
  sys : 'M[R]_n; rhs : 'cV[R]_n; sol : 'cV[R]_n; info : int }.

Section Model.
Variables (R : rcfType) (E : routines R) (n : nat).
Variables (sparse : bool) (assume : assumption) (tol : R).

(** A computation that may raise an exception, with the calls that it made *)
Definition logged (T : Type) := option (T * seq (call R n)).
Definition ret T (x : T) : logged T := Some (x, [::]).
Definition bindl T U (m : logged T) (k : T -> logged U) : logged U :=
  obind (fun p => omap (fun q => (q.1, p.2 ++ q.2)) (k p.1)) m.

(** linear_solver.py 47-48 *)
Definition rename (a : assumption) := if a is SymPos then Pos else a.

(** linear_solver.py 47-75.  The element [0] of the result of the solver is used
    (67); info is dropped. *)
Definition linear_solver (A : 'M[R]_n) (b : 'cV[R]_n) : logged 'cV[R]_n :=
  let done (r : 'cV[R]_n * int) := Some (r.1, [:: Call A b r.1 r.2]) in
  if sparse then
    match rename assume with
    | Sym => done (minres E A b tol)
    | Pos => done (cg E A b tol)
    | Gen => done (gmres E A b tol)
    | _ => None
    end
  else obind (fun x => done (x, 0)) (dense_solve E (rename assume) A b).

(** linear_solver(X, v, ...) where X may be None *)
Definition solve (X : option 'M[R]_n) v : logged 'cV[R]_n :=
  if X is Some X then linear_solver X v else None.

(** for i in range(k): OpE = f(OpE) *)
Fixpoint repeat (f : 'cV[R]_n -> logged 'cV[R]_n) (k : nat) (v : 'cV[R]_n) : logged 'cV[R]_n :=
  if k is k.+1 then bindl (f v) (repeat f k) else ret v.

(** _operator_dot, 1103-1163.  The branch p < -1 raises UnboundLocalError
    (1158, 1161). *)
Definition operator_dot (A : 'M[R]_n) (AtA : option 'M[R]_n) (p : int) (gram : bool)
    (B : option 'M[R]_n) (e : 'cV[R]_n) : logged 'cV[R]_n :=
  let BE := if B is Some B then B *m e else e in
  if p == 0 then ret BE
  else if p == 1 then
    if gram then
      if B is None then solve (Some A^T) BE else solve AtA BE
    else solve (Some A) BE
  else if 1 < p then
    if gram then repeat (solve AtA) (absz p) BE else repeat (solve (Some A)) (absz p) BE
  else if p == -1 then ret (A *m BE)
  else None.

(** _stochastic_trace_estimator, 984-1017 *)
Definition estimator (A : 'M[R]_n) (AtA B C : option 'M[R]_n) (e : 'cV[R]_n) (gram : bool)
    (p : int) : logged R :=
  if gram && (AtA == None) && ~~ ((p == 1) && (B == None) && (C == None)) then None
  else
    bindl (operator_dot A AtA p gram B e) (fun OpE =>
    bindl (if C is Some _ then operator_dot A AtA p gram C OpE else ret OpE) (fun OpE =>
    ret (n%:R *
      (if gram && (absz p == 1)%N && (B == None) && (C == None)
       then HutchModel.inner_product OpE OpE else HutchModel.inner_product e OpE)))).

(** One sample for the random unit vector e: 798-806 and 984-1017 *)
Definition solver_sample (A : 'M[R]_n) (B C : option 'M[R]_n) (gram : bool) (p : int)
    (e : 'cV[R]_n) : logged R :=
  estimator A (HutchModel.gramian A gram p B C) B C e gram p.

End Model.
