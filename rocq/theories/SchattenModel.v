(** Model of imate/schatten/schatten.py 422-467 with the deterministic methods
    of trace, traceinv and logdet, for dense matrices.  The methods 'slq' and
    'hutchinson' are left out here: with them schatten applies the same two
    lines (schatten_of below) to an estimate.

    Exact arithmetic; None stands for an exception or a number that is not
    finite, as in EigenModel. *)
Require Import Reals.
From mathcomp Require Import all_ssreflect all_algebra.
From mathcomp.real_closed Require Import complex.
From Verif Require Import MatSpec RealField ArgsModel EigenModel.
From Verif Require TraceModel CholModel.
Set Implicit Arguments.
Unset Strict Implicit.
Unset Printing Implicit Defensive.
Import GRing.Theory Num.Theory.
Local Open Scope ring_scope.

Local Notation toC := (real_complex R).

(** The argument p (TraceModel): an integer, or a float, which is a rational
    number.  Infinite and not-a-number exponents are not modelled. *)
Notation PyInt := TraceModel.PyInt.
Notation PyFloat := TraceModel.PyFloat.
Definition value (p : TraceModel.pynum) : option R :=
  match p with
  | TraceModel.PyInt z => Some z%:~R
  | TraceModel.PyFloat x => Some (ratr x)
  | TraceModel.PyFloatSpecial => None
  end.

(** numpy.abs(p) keeps the kind of number *)
Definition pyabs (p : TraceModel.pynum) : TraceModel.pynum :=
  match p with
  | TraceModel.PyInt z => PyInt `|z|
  | TraceModel.PyFloat x => PyFloat `|x|
  | TraceModel.PyFloatSpecial => TraceModel.PyFloatSpecial
  end.

(** 425-467: n = A.shape[0]; the three functions are logdet with p=1.0, trace
    and traceinv *)
Definition schatten_of (n : nat) (logdet : option R[i]) (trace traceinv : TraceModel.pynum -> option R)
    (p : TraceModel.pynum) : option R[i] :=
  if value p is Some v then
    if v == 0 then
      obind (fun l => omap cexp (cdiv l (toC n%:R))) logdet
    else if 0 < v then
      omap toC (obind (fun t => obind (fun t => npow t (1 / v)%R) (ndiv t n%:R)) (trace p))
    else
      omap toC (obind (fun t => obind (fun t => npow t (1 / v)%R) (ndiv t n%:R)) (traceinv (pyabs p)))
  else None.

(** numpy's z**p for complex z and real p: an integer power if p is an integer,
    exp(p log z) otherwise *)
Definition cpowr (z : R[i]) (p : R) : option R[i] :=
  if integral p then
    match Int_part p with
    | Z0 => Some 1
    | Zpos k => Some (z ^+ Pos.to_nat k)
    | Zneg k => if z == 0 then None else Some (z ^- Pos.to_nat k)
    end
  else if z == 0 then (if 0 < p then Some 0 else None)
  else omap (fun l => cexp (toC p * l)) (clog z).

(** trace 303-351 and traceinv 304-355 with assume_matrix='gen' for a dense
    matrix and any real p (EigenModel has integer p) *)
Definition trace_eigenvalue_genr n (ev : which -> option (seq (option R[i]))) (p : R) : option R :=
  obind (ctotal false n (fun l => cpowr l p)) (ev (which_trace p)).
Definition traceinv_eigenvalue_genr n (ev : which -> option (seq (option R[i]))) (p : R) : option R :=
  obind (ctotal false n (fun l => obind (cdiv 1) (cpowr l p))) (ev (which_traceinv p)).

Inductive method := Exact | Eigenvalue | Cholesky.

Definition of_res T (r : res T) : option T := if r is Ok x then Some x else None.

Section Methods.
Variable E : eig_routines.
Variable F : CholModel.routines R_rcfType.
(** Options: assume_matrix == 'sym'; the library used for sparse Cholesky
    factors; invert_cholesky *)
Variables (sym : bool) (b : CholModel.backend) (inv : bool).

(** trace.py 391-404 *)
Definition trace (m : method) n (A : 'M[R]_n) (p : TraceModel.pynum) : option R :=
  match m with
  | Exact => of_res (TraceModel.exact_trace p (TraceModel.Dense (A : 'M[[comRingType of R]]_n)))
  | Eigenvalue => obind (fun v =>
      if sym then trace_eigenvalue (eigenvalues_sym E A None None) v
      else trace_eigenvalue_genr n (eigenvalues_gen E A None None) v) (value p)
  | Cholesky => None
  end.

(** traceinv.py 424-441; the Cholesky method accepts integers only
    (traceinv/_cholesky_method.py 518) *)
Definition traceinv (m : method) n (A : 'M[R]_n) (p : TraceModel.pynum) : option R :=
  match m with
  | Exact => None
  | Eigenvalue => obind (fun v =>
      if sym then traceinv_eigenvalue (eigenvalues_sym E A None None) v
      else traceinv_eigenvalue_genr n (eigenvalues_gen E A None None) v) (value p)
  | Cholesky => if p is TraceModel.PyInt z then CholModel.traceinv_cholesky F b inv A None z else None
  end.

(** logdet.py 385-398 *)
Definition logdet (m : method) (gram : bool) n (A : 'M[R]_n) : option R[i] :=
  match m with
  | Exact => None
  | Eigenvalue => logdet_eigenvalue E sym gram A None None 1
  | Cholesky => omap toC (CholModel.logdet_square F b gram A 1)
  end.

(** The same three with gram=True *)
Definition trace_gram (m : method) n k (A : 'M[R]_(n, k)) (p : TraceModel.pynum) : option R :=
  match m with
  | Exact => of_res (TraceModel.exact_trace_gram p (TraceModel.Dense (A : 'M[[comRingType of R]]_(n, k))))
  | Eigenvalue => obind (trace_eigenvalue (eigenvalues_gram E A None None)) (value p)
  | Cholesky => None
  end.
Definition traceinv_gram (m : method) n k (A : 'M[R]_(n, k)) (p : TraceModel.pynum) : option R :=
  match m with
  | Exact => None
  | Eigenvalue => obind (traceinv_eigenvalue (eigenvalues_gram E A None None)) (value p)
  | Cholesky => if p is TraceModel.PyInt z then CholModel.traceinv_cholesky_gram F b inv A None z else None
  end.
Definition logdet_rect (m : method) n k (A : 'M[R]_(n, k)) : option R[i] :=
  match m with
  | Exact => None
  | Eigenvalue => logdet_eigenvalue_rect E sym A None None 1
  | Cholesky => omap toC (CholModel.logdet_rectangular F b A 1)
  end.

(** schatten(A, p=p, method=m) *)
Definition schatten (m : method) n (A : 'M[R]_n) (p : TraceModel.pynum) : option R[i] :=
  schatten_of n (logdet m false A) (trace m A) (traceinv m A) p.

(** schatten(A, gram=True, p=p, method=m) for a square A, and for an A that is
    not square *)
Definition schatten_gram (m : method) n (A : 'M[R]_n) (p : TraceModel.pynum) : option R[i] :=
  schatten_of n (logdet m true A) (trace_gram m A) (traceinv_gram m A) p.
Definition schatten_rect (m : method) n k (A : 'M[R]_(n, k)) (p : TraceModel.pynum) : option R[i] :=
  schatten_of n (logdet_rect m A) (trace_gram m A) (traceinv_gram m A) p.
End Methods.
