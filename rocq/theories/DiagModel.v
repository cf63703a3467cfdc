(** Model of the calls of LAPACK in the stochastic Lanczos quadrature:
    imate/_c_trace_estimator/diagonalization.cpp 87-118 and 188-231,
    imate/_c_trace_estimator/lapack_api.cpp 28-225, and the allocations around
    the calls, imate/_c_trace_estimator/c_trace_estimator.cpp 519-527, 545-548.

    The four LAPACK routines are given as a record.  Numbers of all three types
    are elements of R, and static_cast<double> of a long double is the map
    [to_double]; the cast of a double to long double changes nothing.  A negative
    size of an array, and an access outside an array, give None.  Sizes are
    natural numbers; whether they fit the type int is the matter of [int_sizes].
    Release of the arrays is not modelled here (see HeapModel.v). *)
From mathcomp Require Import all_ssreflect all_algebra.
From Coq Require Import Ascii.
From Verif Require Import Mem.
Set Implicit Arguments.
Unset Strict Implicit.
Unset Printing Implicit Defensive.
Import GRing.Theory.
Local Open Scope ring_scope.

(** The template argument DataType *)
Inductive data_type := Float | Double | LongDouble.

Section Model.
Variable R : ringType.
(** new DataType[k], contents unspecified. *)
Variable alloc : nat -> seq R.
(** static_cast<double>(x) *)
Variable to_double : R -> R.

(** The arrays d, e, z after a call of xstev, and info *)
Definition stev_routine := ascii -> nat -> seq R -> seq R -> seq R -> nat -> seq R ->
  option (seq R * seq R * seq R * int).
(** The arrays d, e, u, vt after a call of xbdsdc, and info.  q and iq are not
    referenced; work and iwork are given by their lengths. *)
Definition bdsdc_routine := ascii -> ascii -> nat -> seq R -> seq R -> seq R -> nat -> seq R -> nat ->
  nat -> nat -> option (seq R * seq R * seq R * seq R * int).

Record lapack := Lapack {
  sstev : stev_routine; dstev : stev_routine;
  sbdsdc : bdsdc_routine; dbdsdc : bdsdc_routine }.
Variable L : lapack.

(** new double[k - j] for an int k *)
Definition new_minus (k j : nat) : option (seq R) := if (j <= k)%N then Some (alloc (k - j)) else None.

(** for (int i=0; i < k; ++i) dst[i] = static_cast<...>(src[i]); *)
Definition cast_loop (g : R -> R) (k : nat) (src dst : seq R) : option (seq R) :=
  for_ 0 k 1 (fun i dst => do x <- rd src i; wr dst i (g x)) dst.

(** lapack_api.cpp 66-112: lapack_xstev<long double>; work is not used. *)
Definition xstev_long (jobz : ascii) (n : nat) (d e z : seq R) (ldz : nat) : option (seq R * seq R * seq R * int) :=
  do d_ <- cast_loop to_double n d (alloc n);
  do e_ <- new_minus n 1;
  do e_ <- cast_loop to_double (n - 1) e e_;
  do work_ <- new_minus (2 * n) 2;
  do r <- dstev L jobz n d_ e_ (alloc (ldz * n)) ldz work_;
  let: (d_, _, z_, info) := r in
  do d <- cast_loop id n d_ d;
  do z <- cast_loop id (ldz * n) z_ z;
  Some (d, e, z, info).

(** lapack_api.cpp 28-51 *)
Definition xstev (t : data_type) (jobz : ascii) (n : nat) (d e z : seq R) (ldz : nat) (work : seq R) :=
  match t with
  | Float => sstev L jobz n d e z ldz work
  | Double => dstev L jobz n d e z ldz work
  | LongDouble => xstev_long jobz n d e z ldz
  end.

(** diagonalization.cpp 87-118: the three arrays and the status.  The assertion
    of line 115 asserts the value of (info == 0, "..."), a pointer that is not
    null, so it holds whatever info is. *)
Definition eigh_tridiagonal (t : data_type) (diagonals subdiagonals eigenvectors : seq R)
    (matrix_size : nat) : option (seq R * seq R * seq R * int) :=
  do work <- new_minus (2 * matrix_size) 2;
  xstev t "V" matrix_size diagonals subdiagonals eigenvectors matrix_size work.

(** lapack_api.cpp 165-225: lapack_xbdsdc<long double> *)
Definition xbdsdc_long (uplo compq : ascii) (n : nat) (d e u : seq R) (ldu : nat) (vt : seq R) (ldvt : nat)
    (iwork : nat) : option (seq R * seq R * seq R * seq R * int) :=
  do d_ <- cast_loop to_double n d (alloc n);
  do e_ <- new_minus n 1;
  do e_ <- cast_loop to_double (n - 1) e e_;
  do r <- dbdsdc L uplo compq n d_ e_ (alloc (ldu * n)) ldu (alloc (ldvt * n)) ldvt
            (3 * n * n + 4 * n)%N iwork;
  let: (d_, _, u_, vt_, info) := r in
  do d <- cast_loop id n d_ d;
  do u <- cast_loop id (ldu * n) u_ u;
  do vt <- cast_loop id (ldvt * n) vt_ vt;
  Some (d, e, u, vt, info).

(** lapack_api.cpp 123-149 *)
Definition xbdsdc (t : data_type) (uplo compq : ascii) (n : nat) (d e u : seq R) (ldu : nat) (vt : seq R)
    (ldvt work iwork : nat) :=
  match t with
  | Float => sbdsdc L uplo compq n d e u ldu vt ldvt work iwork
  | Double => dbdsdc L uplo compq n d e u ldu vt ldvt work iwork
  | LongDouble => xbdsdc_long uplo compq n d e u ldu vt ldvt iwork
  end.

(** diagonalization.cpp 188-231; the assertion of line 228 is as above. *)
Definition svd_bidiagonal (t : data_type) (diagonals supdiagonals U Vt : seq R) (matrix_size : nat) :
    option (seq R * seq R * seq R * seq R * int) :=
  xbdsdc t "U" "I" matrix_size diagonals supdiagonals U matrix_size Vt matrix_size
    (3 * matrix_size * matrix_size + 4 * matrix_size) (8 * matrix_size).

(** c_trace_estimator.cpp 545-548: what is left in alpha and in the array of
    eigenvectors; the returned status is dropped. *)
Definition eigh (t : data_type) (k : nat) (alpha beta : seq R) : option (seq R * seq R) :=
  do r <- eigh_tridiagonal t alpha beta (alloc (k * k)) k;
  let: (alpha, _, eigenvectors, _) := r in Some (alpha, eigenvectors).

(** c_trace_estimator.cpp 519-527: what is left in alpha and in the array of
    transposed right singular vectors; the returned status is dropped. *)
Definition svd (t : data_type) (k : nat) (alpha beta : seq R) : option (seq R * seq R) :=
  do r <- svd_bidiagonal t alpha beta (alloc (k * k)) (alloc (k * k)) k;
  let: (alpha, _, _, vt, _) := r in Some (alpha, vt).
End Model.

(** The sizes and the intermediate values of the sizes that are computed in the
    type int for lanczos_size k: c_trace_estimator.cpp 520-522, 545;
    diagonalization.cpp 99, 215-216; lapack_api.cpp 75-90, 177-196. *)
Definition int_sizes (k : nat) : seq nat :=
  [:: k * k; 2 * k; 3 * k; 3 * k * k; 4 * k; 3 * k * k + 4 * k; 8 * k]%N.
