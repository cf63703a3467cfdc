(** * One sample of the Hutchinson method, with the shapes of the arrays

    Models the same lines as HutchModel.v, imate/traceinv/
    _hutchinson_method.pyx 776 (and 874), 798-806 (896-904), 984-1017
    (1063-1096) and 1103-1163, but for matrices of any shape: an operation on
    arrays whose shapes do not fit raises ([None]), as numpy and scipy do, and
    the inner product over [vector_size] entries reads the arrays with checked
    accesses.  Arithmetic is exact, and linear_solver (imate/_linear_algebra/
    linear_solver.py 24-76), which accepts square matrices only, returns the
    exact solution. *)
From mathcomp Require Import all_ssreflect all_algebra.
From Verif Require Import Mem.

Set Implicit Arguments.
Unset Strict Implicit.
Unset Printing Implicit Defensive.

Import GRing.Theory.
Local Open Scope ring_scope.

Section Model.
Variable R : fieldType.

(** A two-dimensional array with its shape; a vector has one column. *)
Record array := Array { rows : nat; cols : nat; ent : 'M[R]_(rows, cols) }.

(** [X @ Y]: raises unless the inner sizes agree. *)
Definition dot (X Y : array) : option array :=
  match @eqP _ (cols X) (rows Y) with
  | ReflectT e => Some (Array (castmx (erefl, e) (ent X) *m ent Y))
  | ReflectF _ => None
  end.

(** [X.T]. *)
Definition transpose (X : array) : array := Array (ent X)^T.

(** linear_solver(X, b, ...): raises unless [X] is square and of the size of
    [b], and for a singular matrix. *)
Definition linear_solver (X b : array) : option array :=
  match @eqP _ (rows X) (cols X), @eqP _ (cols X) (rows b) with
  | ReflectT e, ReflectT e' =>
      let X' : 'M_(cols X) := castmx (e, erefl) (ent X) in
      if X' \in unitmx
      then Some (Array (castmx (erefl, e') (invmx X') *m ent b)) else None
  | _, _ => None
  end.

(** The first column of an array as a flat list of its entries (the memory
    behind the pointers of 1000-1005). *)
Definition flat (X : array) : seq R :=
  [seq (if insub 0%N is Some j then ent X i j else 0) | i <- enum 'I_(rows X)].

(** cVectorOperations.inner_product(x, y, n): reads [n] entries of both. *)
Fixpoint inner_product (x y : seq R) (n i : nat) (acc : R) : option R :=
  match n with
  | 0 => Some acc
  | n'.+1 => do a <- rd x i; do b <- rd y i; inner_product x y n' i.+1 (acc + a * b)
  end.

(** for i in range(k): OpE = f(OpE) *)
Definition repeat (f : array -> option array) (k : nat) (v : array) :=
  iter k (obind f) (Some v).

(** _operator_dot, 1103-1163; the branch p < -1 raises UnboundLocalError. *)
Definition operator_dot (A : array) (AtA : option array) (p : int) (gram : bool)
    (B : option array) (E : array) : option array :=
  do BE <- (if B is Some B then dot B E else Some E);
  if p == 0 then Some BE
  else if p == 1 then
    if gram then
      if B is None then linear_solver (transpose A) BE
      else do G <- AtA; linear_solver G BE
    else linear_solver A BE
  else if 1 < p then
    if gram then do G <- AtA; repeat (linear_solver G) (absz p) BE
    else repeat (linear_solver A) (absz p) BE
  else if p == -1 then dot A BE
  else None.

Definition is_none (T : Type) (o : option T) := if o is None then true else false.

(** 798-806: [AtA] is kept as [None] in the special case; the outer option is
    an exception of the product. *)
Definition gramian (A : array) (gram : bool) (p : int) (B C : option array)
  : option (option array) :=
  if gram then
    if (p == 1) && is_none B && is_none C then Some None
    else do G <- dot (transpose A) A; Some (Some G)
  else Some None.

(** _stochastic_trace_estimator, 984-1017 *)
Definition estimator (A : array) (AtA B C : option array) (E : array) (gram : bool)
    (p : int) : option R :=
  if gram && is_none AtA && ~~ ((p == 1) && is_none B && is_none C) then None
  else
    do OpE <- operator_dot A AtA p gram B E;
    do OpE <- (if C is Some _ then operator_dot A AtA p gram C OpE else Some OpE);
    let vector_size := rows A in
    do inner_prod <-
      (if gram && (absz p == 1)%N && is_none B && is_none C
       then inner_product (flat OpE) (flat OpE) vector_size 0 0
       else inner_product (flat E) (flat OpE) vector_size 0 0);
    Some (vector_size%:R * inner_prod).

(** One sample for the random vector [E], of size [vector_size = A.shape[0]]
    (776). *)
Definition hutchinson_sample (A : array) (B C : option array) (gram : bool) (p : int)
    (E : 'cV[R]_(rows A)) : option R :=
  do AtA <- gramian A gram p B C; estimator A AtA B C (Array E) gram p.

End Model.
Arguments Array {R rows cols}.
