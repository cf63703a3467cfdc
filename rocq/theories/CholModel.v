(** Model of the Cholesky methods: imate/logdet/_cholesky_method.py 262-321,
    imate/traceinv/_cholesky_method.py 304-417 and 547-767, and
    imate/_linear_algebra/sparse_cholesky.py 46-66.

    Arithmetic is exact over a real closed field (the real numbers for the
    log-determinant).  A result None stands for an exception (LinAlgError,
    CholmodNotPositiveDefiniteError, RuntimeError) or for a returned value that
    is not a finite number. *)
Require Import Reals.
From mathcomp Require Import all_ssreflect all_algebra fingroup perm.
From Verif Require Import MatSpec RealField.
Set Implicit Arguments.
Unset Strict Implicit.
Unset Printing Implicit Defensive.
Import GRing.Theory Num.Theory.
Local Open Scope ring_scope.

(** The library routines called.  Each is a parameter of the model. *)
Record routines (R : rcfType) := Routines {
  (** scipy.linalg.cholesky(A, lower=True) *)
  dense_chol : forall n, 'M[R]_n -> option 'M[R]_n;
  (** scipy.sparse.linalg.splu(A.tocsc(), diag_pivot_thresh=0,
      permc_spec='NATURAL'): the row permutation perm_r and the factors L, U *)
  splu : forall n, 'M[R]_n -> option ('S_n * 'M[R]_n * 'M[R]_n);
  (** sksparse.cholmod.cholesky(A): the permutation P() and the factor L() *)
  cholmod : forall n, 'M[R]_n -> option ('S_n * 'M[R]_n);
  (** sksparse.cholmod.cholesky(A, ordering_method='natural').L() *)
  cholmod_natural : forall n, 'M[R]_n -> option 'M[R]_n }.

(** What is assumed of them.  scipy.linalg.cholesky reads the lower triangle
    only.  SuperLU without a pivot threshold exchanges rows only when a diagonal
    pivot is zero, so it does not if a factorisation without exchanges and with
    non-zero pivots exists.  Cholmod is described for symmetric matrices only. *)
Record routines_ok (R : rcfType) (E : routines R) : Prop := RoutinesOk {
  dense_chol_ok : forall n (A : 'M[R]_n),
    if dense_chol E A is Some L then lower_pos L /\ L *m L^T = symlow A
    else ~ posdef (symlow A);
  splu_ok : forall n (A : 'M[R]_n),
    if splu E A is Some (s, L, U) then
      [/\ unit_lower L, upper U & L *m U = row_perm s A]
    else A \notin unitmx;
  splu_no_exchange : forall n (A L' U' : 'M[R]_n) s L U,
    unit_lower L' -> upper U' -> (forall i, U' i i != 0) -> A = L' *m U' ->
    splu E A = Some (s, L, U) -> s = 1%g;
  cholmod_ok : forall n (A : 'M[R]_n), A^T = A ->
    if cholmod E A is Some (s, L) then
      lower_pos L /\ L *m L^T = row_perm s (col_perm s A)
    else ~ posdef A;
  cholmod_natural_ok : forall n (A : 'M[R]_n), A^T = A ->
    if cholmod_natural E A is Some L then lower_pos L /\ L *m L^T = A
    else ~ posdef A }.

(** The combination of the flags "sparse" and "use_cholmod"
    (logdet 264-273, traceinv 306-315). *)
Inductive backend := Dense | SparseScipy | SparseCholmod.

Section Traceinv.
Variable R : rcfType.
Variable E : routines R.

(** sparse_cholesky.py 49-55, diagonal_only=True: numpy.sqrt(LU.U.diagonal());
    a negative entry gives not-a-number *)
Definition sparse_cholesky_diagonal n (A : 'M[R]_n) : option 'rV[R]_n :=
  if splu E A is Some (_, _, U) then
    if [forall i, 0 <= U i i] then Some (\row_i Num.sqrt (U i i)) else None
  else None.

(** sparse_cholesky.py 49-66, diagonal_only=False *)
Definition sparse_cholesky n (A : 'M[R]_n) : option 'M[R]_n :=
  if splu E A is Some (s, L, U) then
    if (s == 1%g) && [forall i, 0 < U i i] then
      Some (L *m diag_mx (\row_i Num.sqrt (U i i)))
    else None
  else None.

(** The diagonal of the factor used by the log-determinant, logdet 293-313:
    cholmod's Factor.logdet() is the sum of the logarithms of the squared
    diagonal of its factor L *)
Definition factor_diagonal (b : backend) n (A : 'M[R]_n) : option 'rV[R]_n :=
  match b with
  | Dense => omap (fun L : 'M_n => \row_i L i i) (dense_chol E A)
  | SparseScipy => sparse_cholesky_diagonal A
  | SparseCholmod => omap (fun sL : 'S_n * 'M_n => \row_i sL.2 i i) (cholmod E A)
  end.

(** Factor of Ap, traceinv 371-398, and the permutation used with it (None if
    it is not a cholmod factor) *)
Definition factor_A (b : backend) n (Ap : 'M[R]_n) : option ('M[R]_n * option 'S_n) :=
  match b with
  | Dense => omap (fun L : 'M_n => (L, None)) (dense_chol E Ap)
  | SparseScipy => omap (fun L : 'M_n => (L, None)) (sparse_cholesky Ap)
  | SparseCholmod => omap (fun sL : 'S_n * 'M_n => (sL.2, Some sL.1)) (cholmod E Ap)
  end.

(** Factor of B, traceinv 379-404; the outer option is an exception, the inner
    one a B that was not given *)
Definition factor_B (b : backend) n (B : option 'M[R]_n) : option (option 'M[R]_n) :=
  if B is Some B then
    omap (@Some _)
      match b with
      | Dense => dense_chol E B
      | SparseScipy => sparse_cholesky B
      | SparseCholmod => cholmod_natural E B
      end
  else Some None.

(** numpy.linalg.norm(C, ord='fro')**2 *)
Definition frobenius2 n m (C : 'M[R]_(n, m)) : R := \sum_i \sum_j C i j ^+ 2.

(** M[P, :] *)
Definition select_rows n m (P : option 'S_n) (M : 'M[R]_(n, m)) : 'M[R]_(n, m) :=
  if P is Some s then \matrix_(i, j) M (s i) j else M.

(** traceinv 585-628, compute_traceinv_invert_cholesky_directly;
    scipy.linalg.inv and scipy.sparse.linalg.inv are exact inverses *)
Definition invert_directly n (L_A : 'M[R]_n) (P : option 'S_n) (L_B : option 'M[R]_n) : R :=
  let L_A_inv := invmx L_A in
  let C := if L_B is Some L_B then L_A_inv *m select_rows P L_B else L_A_inv in
  frobenius2 C.

(** traceinv 698-767, compute_traceinv_invert_cholesky_indirectly; the
    triangular solves are exact *)
Definition invert_indirectly n (L_A : 'M[R]_n) (P : option 'S_n) (L_B : option 'M[R]_n) : R :=
  foldl (fun norm2 i =>
    let e := if L_B is Some L_B then col i (select_rows P L_B)
             else \col_k (k == i)%:R in
    let x := invmx L_A *m e in
    norm2 + \sum_k x k 0 ^+ 2) 0 (enum 'I_n).

(** traceinv 320-339: the power Ap from A1 = A or A.T @ A *)
Definition power_matrix n (A1 : 'M[R]_n) (p : int) : 'M[R]_n :=
  if (p == 1) || (p == -1) then A1
  else iter (absz p - 1) (fun Ap => Ap *m A1) A1.

(** traceinv 320-417 with A1 = A or A.T @ A; rows is A.shape[0] *)
Definition traceinv_of (b : backend) (invert_cholesky : bool) (rows : nat) n
    (A1 : 'M[R]_n) (B : option 'M[R]_n) (p : int) : option R :=
  if p == 0 then
    if B is Some B then Some (\sum_i B i i) else Some rows%:R
  else
    let Ap := power_matrix A1 p in
    if p < 0 then
      let C := if B is Some B then Ap *m B else Ap in
      Some (\sum_i C i i)
    else
      if factor_A b Ap is Some (L_A, P) then
        if factor_B b B is Some L_B then
          Some (if invert_cholesky then invert_directly L_A P L_B
                else invert_indirectly L_A P L_B)
        else None
      else None.

(** The method with gram=False (A is square, line 510) and with gram=True *)
Definition traceinv_cholesky b inv n (A : 'M[R]_n) B p : option R :=
  traceinv_of b inv n A B p.
Definition traceinv_cholesky_gram b inv n m (A : 'M[R]_(n, m)) B p : option R :=
  traceinv_of b inv n (A^T *m A) B p.

End Traceinv.

Section Logdet.
Variable E : routines R_rcfType.

(** 2.0 * numpy.real(numpy.sum(numpy.log(diag_L))), logdet 303-305, 311-313;
    the logarithm of zero is not finite *)
Definition logdet_of_diagonal n (d : 'rV[R]_n) : option R :=
  if [exists i, d 0 i == 0] then None else Some (2%:R * \sum_i ln (d 0 i)).

(** logdet 278-316 after the choice of Ag *)
Definition logdet_power (b : backend) n (Ag : 'M[R]_n) (p : R) : option R :=
  if p == 0 then Some 0
  else omap (fun trace => trace * p) (obind (@logdet_of_diagonal n) (factor_diagonal E b Ag)).

(** logdet 278-321 for a square matrix *)
Definition logdet_square b (gram : bool) n (A : 'M[R]_n) (p : R) : option R :=
  let trace := logdet_power b A p in
  if gram then omap (fun trace => 2%:R * trace) trace else trace.

(** logdet 278-321 for a matrix that is not square; check_arguments (400-401)
    makes sure that gram=True *)
Definition logdet_rectangular b n m (A : 'M[R]_(n, m)) (p : R) : option R :=
  logdet_power b (A^T *m A) p.

End Logdet.
