(** Model of one Monte-Carlo sample of the stochastic Lanczos quadrature:
    imate/_c_trace_estimator/c_trace_estimator.cpp 410-654,
    cTraceEstimator::_c_stochastic_lanczos_quadrature.
    The random vector filled in lines 433-435 is an input here.  Memory release
    (lines 624-653) is not modelled. *)
From mathcomp Require Import all_ssreflect all_algebra.
From Verif Require Import Mem KernelModel OperatorModel LanczosModel.
Set Implicit Arguments.
Unset Strict Implicit.
Unset Printing Implicit Defensive.
Import GRing.Theory Num.Theory.
Local Open Scope ring_scope.

Section Model.
Variable R : rcfType.

(** Machine epsilon. *)
Variable eps : R.
(** new DataType[k], contents unspecified. *)
Variable alloc : nat -> seq R.

(** The linear operator A (a cLinearOperator): its state, set_parameters, dot,
    transpose_dot, is_eigenvalue_relation_known, get_eigenvalue,
    get_num_parameters. *)
Variable Op : Type.
Variable set_params : Op -> seq R -> Op.
Variable op_dot op_tdot : Op -> seq R -> seq R -> option (seq R).
Variable relation_known : Op -> bool.
Variable get_eig : seq R -> R -> seq R -> option R.
Variable num_params : nat.

(** Diagonalization::eigh_tridiagonal and svd_bidiagonal (LAPACK xstev and
    xbdsdc through diagonalization.cpp 88-231): given the size and the two
    diagonals, the eigenvalues (singular values) left in alpha, and the array of
    eigenvectors (transposed right singular vectors), column-major. *)
Variable eigh svd : nat -> seq R -> seq R -> option (seq R * seq R).

(** pow( . , exponent) and matrix_function->function( . ). *)
Variable pw f : R -> R.

(** matrix_size, lanczos_degree, lanczos_tol, orthogonalize, gram *)
Variable n m : nat.
Variable tol : R.
Variable orth : int.
Variable gram : bool.

(** for (i=0; i < size; ++i) { theta[j][i] = ...; tau[j][i] = ...; } *)
Definition collect (size_ : nat) (theta tau : nat -> option R) : option (seq (R * R)) :=
  for_ 0 size_ 1
    (fun i acc => do a <- theta i; do b <- tau i; Some (rcons acc (a, b))) [::].

(** Lines 511-556: nodes and weights (theta[j][i], tau[j][i]), i <
    lanczos_size[j]. *)
Definition nodes (op : Op) (v : seq R) : option (seq (R * R)) :=
  if gram then
    let bs := gk_buffer_size orth m in
    do r <- golub_kahn eps (op_dot op) (op_tdot op) v n m tol orth
              (alloc (n * bs)) (alloc (n * bs)) (alloc m) (alloc m);
    let: (k, alpha, beta) := r in
    do d <- svd k alpha beta;
    collect k (fun i => do s <- rd d.1 i; Some (s * s)) (fun i => rd d.2 i)
  else
    let bs := lanczos_buffer_size orth m in
    do r <- lanczos eps (op_dot op) v n m tol orth
              (alloc (n * bs)) (alloc n) (alloc m) (alloc m);
    let: (k, alpha, beta) := r in
    do d <- eigh k alpha beta;
    collect k (fun i => rd d.1 i) (fun i => rd d.2 (i * k)%N).

(** Lines 497-557; entry j is [None] when the inquiry was skipped and theta,
    tau and lanczos_size were not computed.  The operator keeps the parameters
    set last. *)
Definition iterate (op : Op) (params : seq R) (num_inquiries : nat) (converged : seq bool)
    (v : seq R) : option (Op * seq (option (seq (R * R)))) :=
  let required := if relation_known op then 1%N else num_inquiries in
  for_ 0 required 1
    (fun j s =>
       do c <- rd converged j;
       if c && (required == num_inquiries) then Some (s.1, rcons s.2 None)
       else
         let op := set_params s.1 (drop (j * num_params)%N params) in
         do nd <- nodes op v;
         Some (op, rcons s.2 (Some nd)))
    (op, [::]).

(** Lines 564-594: nodes of the other inquiries from those of the first. *)
Definition shift_nodes (params : seq R) (j : nat) (nd : seq (R * R)) : option (seq (R * R)) :=
  collect (size nd)
    (fun i => do x <- rd nd i; get_eig params x.1 (drop (j * num_params)%N params))
    (fun i => do x <- rd nd i; Some x.2).

Definition all_nodes (op : Op) (params : seq R) (num_inquiries : nat)
    (converged : seq bool) (its : seq (option (seq (R * R))))
  : option (seq bool * seq (option (seq (R * R)))) :=
  if relation_known op && (1 < num_inquiries)%N then
    do converged <- for_ 0 num_inquiries 1 (fun j c => wr c j false) converged;
    do first <- rd its 0%N;
    do nd0 <- first;
    do its <- for_ 1 num_inquiries 1
      (fun j its => do nd <- shift_nodes params j nd0; Some (rcons its (Some nd))) its;
    Some (converged, its)
  else Some (converged, its).

(** Lines 605-621: the quadrature. *)
Definition quadrature (nd : seq (R * R)) : R :=
  foldl (fun acc x => acc + x.2 * x.2 * f (pw x.1)) 0 nd.

Definition estimates (num_inquiries : nat) (converged : seq bool)
    (its : seq (option (seq (R * R)))) (est : seq R) : option (seq R) :=
  for_ 0 num_inquiries 1
    (fun j est =>
       do c <- rd converged j;
       if c then Some est
       else
         do it <- rd its j;
         do nd <- it;
         wr est j (n%:R * quadrature nd)) est.

(** Lines 410-654: the new contents of converged and trace_estimate. *)
Definition slq (op : Op) (params : seq R) (num_inquiries : nat) (converged : seq bool)
    (v est : seq R) : option (seq bool * seq R) :=
  do r <- iterate op params num_inquiries converged v;
  do s <- all_nodes op params num_inquiries converged r.2;
  do est <- estimates num_inquiries s.1 s.2 est;
  Some (s.1, est).

End Model.

(** The two kinds of operators: a constant matrix (cDenseMatrix, cCSRMatrix,
    cCSCMatrix: no parameters, eigenvalue_relation_known stays 0, see
    c_linear_operator.cpp 27-60) and an affine matrix function. *)
Section Instances.
Variable R : rcfType.
Variable eps : R.
Variable alloc : nat -> seq R.
Variable eigh svd : nat -> seq R -> seq R -> option (seq R * seq R).
Variable pw f : R -> R.

Definition slq_matrix (n m : nat) (tol : R) (orth : int) (gram : bool) (A : storage R)
    (params : seq R) (num_inquiries : nat) (converged : seq bool) (v est : seq R) :=
  slq eps alloc (fun op _ => op) (fun op x c => dot op n n x c)
    (fun op x c => transpose_dot op n n x c) (fun _ => false) (fun _ _ _ => None) 0
    eigh svd pw f n m tol orth gram A params num_inquiries converged v est.

Definition slq_affine (n m : nat) (tol : R) (orth : int) (gram : bool) (op : affine R)
    (params : seq R) (num_inquiries : nat) (converged : seq bool) (v est : seq R) :=
  slq eps alloc (@set_parameters R) (fun op x c => affine_dot op n n x c)
    (fun op x c => affine_transpose_dot op n n x c) (@eigenvalue_relation_known R)
    (@get_eigenvalue R) 1
    eigh svd pw f n m tol orth gram op params num_inquiries converged v est.

End Instances.
