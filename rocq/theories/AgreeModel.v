(** Model of the public functions trace, traceinv, logdet, trexp, trlinfrac,
    eigencount and density: imate/<name>/<name>.py (the choice of a method),
    imate/<name>/_slq_method.pyx and the argument checks of
    imate/<name>/_eigenvalue_method.py.

    Numbers are real numbers; return_info is taken to be a Python bool. *)
Require Import Reals String.
From mathcomp Require Import all_ssreflect all_algebra.
From mathcomp.real_closed Require Import complex.
From Verif Require Import RealField FunModel EigenModel.
Set Implicit Arguments.
Unset Strict Implicit.
Unset Printing Implicit Defensive.
Import GRing.Theory Num.Theory.
Local Open Scope ring_scope.

(** The exceptions raised here *)
Inductive error := TypeError | ValueError | RuntimeError.
Inductive outcome (T : Type) := Value of T | Error of error.
Arguments Value {T}.
Arguments Error {T}.
Definition bind S T (x : outcome S) (f : S -> outcome T) : outcome T :=
  match x with Value y => f y | Error e => Error e end.

(** The Python objects given as coeff, interval, mu and sigma; the elements of
    the sequences are numbers, PyArray is a one-dimensional numpy.ndarray *)
Inductive object :=
  | PyNumber of R
  | PyList of seq R
  | PyTuple of seq R
  | PyArray of seq R
  | PyOther.

(** A call of one of the functions, with the arguments that select f *)
Inductive call :=
  | CallTrace
  | CallTraceinv
  | CallLogdet
  | CallTrexp of R
  | CallTrlinfrac of object
  | CallEigencount of object
  | CallDensity of object & object.

(** What is to be estimated *)
Inductive quantity :=
  | Trace
  | Traceinv
  | Logdet
  | Trexp of R
  | Trlinfrac of R & R & R & R
  | Eigencount of R & R
  | Density of R & R.   (* mu, sigma *)

(** isinstance(x, (tuple, list, numpy.array)): the classes are tried in order,
    and numpy.array is a function, for which isinstance raises TypeError *)
Definition is_sequence (x : object) : outcome bool :=
  match x with
  | PyTuple _ | PyList _ => Value true
  | _ => Error TypeError
  end.

(** len(x) and x[i] of a sequence *)
Definition elements (x : object) : seq R :=
  match x with PyList s | PyTuple s | PyArray s => s | _ => [::] end.

(** trlinfrac/_slq_method.pyx 869-876, trlinfrac/_eigenvalue_method.py 455-462 *)
Definition check_coeff (coeff : object) : outcome (R * R * R * R) :=
  bind (is_sequence coeff) (fun b =>
  if ~~ b then Error TypeError else
  match elements coeff with
  | [:: a; b; c; d] => if a * d == b * c then Error ValueError else Value (a, b, c, d)
  | _ => Error ValueError
  end).

(** eigencount/_slq_method.pyx 869-873, eigencount/_eigenvalue_method.py 433-437 *)
Definition check_interval (interval : object) : outcome (R * R) :=
  bind (is_sequence interval) (fun b =>
  if ~~ b then Error TypeError else
  match elements interval with
  | [:: lo; hi] => Value (lo, hi)
  | _ => Error ValueError
  end).

(** density/_slq_method.pyx 886-897, density/_eigenvalue_method.py 455-466 *)
Definition check_mu_sigma (mu sigma : object) : outcome R :=
  match mu with
  | PyOther => Error TypeError
  | _ => match sigma with
         | PyNumber s => if s <= 0 then Error ValueError else Value s
         | _ => Error TypeError
         end
  end.

(** The conversion of a Python object to a C double in "new Gaussian(mu, sigma)"
    (density/_slq_method.pyx 831): numbers, and arrays of one element *)
Definition to_double (x : object) : outcome R :=
  match x with
  | PyNumber r => Value r
  | PyArray [:: r] => Value r
  | _ => Error TypeError
  end.

(** The function object of method='slq': trace 822-825, traceinv 824-827, logdet
    821-824, trexp 811-814, trlinfrac 820-824, eigencount 821-824, density
    828-831 of the files _slq_method.pyx *)
Definition slq_quantity (c : call) : outcome quantity :=
  match c with
  | CallTrace => Value Trace
  | CallTraceinv => Value Traceinv
  | CallLogdet => Value Logdet
  | CallTrexp coeff => Value (Trexp coeff)
  | CallTrlinfrac coeff => bind (check_coeff coeff) (fun x =>
      let: (a, b, c, d) := x in Value (Trlinfrac a b c d))
  | CallEigencount interval => bind (check_interval interval) (fun x =>
      let: (lo, hi) := x in Value (Eigencount lo hi))
  | CallDensity mu sigma => bind (check_mu_sigma mu sigma) (fun s =>
      bind (to_double mu) (fun m => Value (Density m s)))
  end.

(** The scalar functions of these objects (C41): Identity,
    Inverse, Logarithm, Exponential, Homographic, Indicator, Gaussian *)
Definition function_object (q : quantity) (lambda : R) : option R :=
  match q with
  | Trace => Some (identity lambda)
  | Traceinv => inverse lambda
  | Logdet => logarithm lambda
  | Trexp coeff => Some (exponential coeff lambda)
  | Trlinfrac a b c d => homographic a b c d lambda
  | Eigencount lo hi => Some (indicator lo hi lambda)
  | Density mu sigma => gaussian mu sigma lambda
  end.

(** The quantities of method='eigenvalue': one, or one for every element of mu
    (density/_eigenvalue_method.py 326-349) *)
Definition eigenvalue_quantities (c : call) : outcome (seq quantity) :=
  match c with
  | CallDensity mu sigma => bind (check_mu_sigma mu sigma) (fun s =>
      Value [seq Density m s | m <- if mu is PyNumber m then [:: m] else elements mu])
  | CallTrlinfrac coeff => bind (check_coeff coeff) (fun x =>
      let: (a, b, c, d) := x in Value [:: Trlinfrac a b c d])
  | CallEigencount interval => bind (check_interval interval) (fun x =>
      let: (lo, hi) := x in Value [:: Eigencount lo hi])
  | CallTrace => Value [:: Trace]
  | CallTraceinv => Value [:: Traceinv]
  | CallLogdet => Value [:: Logdet]
  | CallTrexp coeff => Value [:: Trexp coeff]
  end.

(** The summand of the eigenvalue methods for the eigenvalue lam (logdet does
    not return a sum of this form) *)
Definition summand (q : quantity) (p lam : R) : option R :=
  match q with
  | Trace => f_trace p lam
  | Traceinv => f_traceinv p lam
  | Trexp coeff => f_trexp coeff p lam
  | Trlinfrac a b c d => f_trlinfrac a b c d p lam
  | Eigencount lo hi => f_eigencount lo hi p lam
  | Density mu sigma => f_density sigma mu p lam
  | Logdet => None
  end.

(** The eigenvalue methods for a dense square matrix; sym is
    assume_matrix == 'sym'.  A logarithm that is not real is not a number here. *)
Definition by_eigenvalue (E : eig_routines) (sym gram : bool) n (A : 'M[R]_n) (q : quantity) (p : R) :
    option R :=
  let ev := if gram then eigenvalues_gram E A None None else eigenvalues_sym E A None None in
  match q with
  | Trace => trace_eigenvalue ev p
  | Traceinv => traceinv_eigenvalue ev p
  | Logdet => obind (fun z : R[i] => if complex.Im z == 0 then Some (complex.Re z) else None)
                (logdet_eigenvalue E sym gram A None None p)
  | Trexp coeff => trexp_eigenvalue ev coeff p
  | Trlinfrac a b c d => trlinfrac_eigenvalue ev a b c d p
  | Eigencount lo hi => eigencount_eigenvalue ev lo hi p
  | Density mu sigma => omap (head 0) (density_eigenvalue ev sigma [:: FloatNum mu] p)
  end.

(** The routines *)
Inductive routine := ExactMethod | EigenvalueMethod | CholeskyMethod | HutchinsonMethod | SlqMethod.

Local Open Scope string_scope.

(** trace.py 391-404 *)
Definition route_trace (m : string) : outcome routine :=
  if (m =? "exact")%string then Value ExactMethod
  else if (m =? "eigenvalue")%string then Value EigenvalueMethod
  else if (m =? "slq")%string then Value SlqMethod
  else Error RuntimeError.
(** traceinv.py 424-441 *)
Definition route_traceinv (m : string) : outcome routine :=
  if (m =? "eigenvalue")%string then Value EigenvalueMethod
  else if (m =? "cholesky")%string then Value CholeskyMethod
  else if (m =? "hutchinson")%string then Value HutchinsonMethod
  else if (m =? "slq")%string then Value SlqMethod
  else Error RuntimeError.
(** logdet.py 385-398 *)
Definition route_logdet (m : string) : outcome routine :=
  if (m =? "eigenvalue")%string then Value EigenvalueMethod
  else if (m =? "cholesky")%string then Value CholeskyMethod
  else if (m =? "slq")%string then Value SlqMethod
  else Error ValueError.
(** trexp.py 367-376, trlinfrac.py 377-386, eigencount.py 385-394, density.py 389-398 *)
Definition route_other (m : string) : outcome routine :=
  if (m =? "eigenvalue")%string then Value EigenvalueMethod
  else if (m =? "slq")%string then Value SlqMethod
  else Error ValueError.

Definition route (c : call) : string -> outcome routine :=
  match c with
  | CallTrace => route_trace
  | CallTraceinv => route_traceinv
  | CallLogdet => route_logdet
  | _ => route_other
  end.
