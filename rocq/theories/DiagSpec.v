(** What the documentation of LAPACK says about xstev and xbdsdc. *)
From mathcomp Require Import all_ssreflect all_algebra.
From Coq Require Import Ascii.
From Verif Require Import LanczosSpec DiagModel.
Set Implicit Arguments.
Unset Strict Implicit.
Unset Printing Implicit Defensive.
Import GRing.Theory Num.Theory.
Local Open Scope ring_scope.

Section Spec.
Variable R : rcfType.

(** Lengths of the arrays of xstev: D has N, E has N - 1, Z has LDZ N with N <=
    LDZ, WORK has max(1, 2 N - 2) elements. *)
Definition stev_room (n : nat) (d e z : seq R) (ldz : nat) (work : seq R) : Prop :=
  [/\ (n <= size d)%N, (n - 1 <= size e)%N, (n <= ldz)%N, (ldz * n <= size z)%N & (maxn 1 (2 * n - 2) <= size work)%N].

(** xstev with JOBZ = 'V': with room for its results it returns, and if INFO is 0
    then D and Z are an orthogonal eigendecomposition of the tridiagonal matrix.
    For N = 1 the reference implementation does not use WORK, so it may be empty
    then. *)
Definition stev_ok (f : stev_routine R) : Prop :=
  forall n d e z ldz work, (0 < n)%N -> stev_room n d e z ldz work \/ (n = 1%N /\ stev_room n d e z ldz [:: 0]) ->
  exists d' e' z' info, [/\ f "V"%char n d e z ldz work = Some (d', e', z', info),
    size d' = size d, size z' = size z &
    info = 0 -> spectral (tridiag n (nth 0 d) (nth 0 e)) (\matrix_(r < n, i < n) z'`_(i * ldz + r)) (\row_(i < n) d'`_i)].

(** Lengths of the arrays of xbdsdc with COMPQ = 'I': WORK has 3 N^2 + 4 N and
    IWORK 8 N elements. *)
Definition bdsdc_room (n : nat) (d e u : seq R) (ldu : nat) (vt : seq R) (ldvt work iwork : nat) : Prop :=
  [/\ (n <= size d)%N, (n - 1 <= size e)%N, (n <= ldu)%N /\ (ldu * n <= size u)%N,
      (n <= ldvt)%N /\ (ldvt * n <= size vt)%N & (3 * n * n + 4 * n <= work)%N /\ (8 * n <= iwork)%N].

(** xbdsdc with UPLO = 'U' and COMPQ = 'I': if INFO is 0 then the upper
    bidiagonal matrix is U diag(D) VT with orthogonal U and VT.  This is assumed
    only for a diagonal without zeros. *)
Definition bdsdc_ok (f : bdsdc_routine R) : Prop :=
  forall n d e u ldu vt ldvt work iwork, (0 < n)%N -> bdsdc_room n d e u ldu vt ldvt work iwork ->
  exists d' e' u' vt' info,
    let U := \matrix_(r < n, i < n) u'`_(i * ldu + r) in
    let Vt := \matrix_(i < n, r < n) vt'`_(r * ldvt + i) in
    [/\ f "U"%char "I"%char n d e u ldu vt ldvt work iwork = Some (d', e', u', vt', info),
      size d' = size d, size u' = size u, size vt' = size vt &
    info = 0 -> (forall i, (i < n)%N -> d`_i != 0) -> [/\ U^T *m U = 1%:M, Vt *m Vt^T = 1%:M &
      bidiag n (nth 0 d) (nth 0 e) = U *m diag_mx (\row_(i < n) d'`_i) *m Vt]].

Definition lapack_ok (L : lapack R) : Prop :=
  (stev_ok (sstev L) /\ stev_ok (dstev L)) /\ (bdsdc_ok (sbdsdc L) /\ bdsdc_ok (dbdsdc L)).

(** The routines never report a failure. *)
Definition succeeds (L : lapack R) : Prop :=
  (forall jobz n d e z ldz work r, sstev L jobz n d e z ldz work = Some r \/ dstev L jobz n d e z ldz work = Some r -> r.2 = 0) /\
  (forall uplo compq n d e u ldu vt ldvt work iwork r,
     sbdsdc L uplo compq n d e u ldu vt ldvt work iwork = Some r \/
     dbdsdc L uplo compq n d e u ldu vt ldvt work iwork = Some r -> r.2 = 0).

(** The same routines with other values of INFO *)
Definition relabel (g : int -> int) (L : lapack R) : lapack R :=
  Lapack (fun jobz n d e z ldz work => omap (fun r => (r.1, g r.2)) (sstev L jobz n d e z ldz work))
         (fun jobz n d e z ldz work => omap (fun r => (r.1, g r.2)) (dstev L jobz n d e z ldz work))
         (fun uplo compq n d e u ldu vt ldvt work iwork => omap (fun r => (r.1, g r.2)) (sbdsdc L uplo compq n d e u ldu vt ldvt work iwork))
         (fun uplo compq n d e u ldu vt ldvt work iwork => omap (fun r => (r.1, g r.2)) (dbdsdc L uplo compq n d e u ldu vt ldvt work iwork)).
End Spec.
