(** Model of the bounds of the interpolators and of kind='eig':
    imate/interpolator/_interpolant_base.py 269-342, _eigenvalues_method.py,
    and of what InterpolateTrace and InterpolateLogdet make of them
    (interpolate_schatten.py, interpolate_trace.py, interpolate_logdet.py).

    - As in InterpModel: exact arithmetic, [Raise NotFinite] for an infinity or
      a not-a-number; printing is left out.
    - The argument t is a number; [pointwise] is the loop over an array. *)
Require Import Reals.
From mathcomp Require Import all_ssreflect all_algebra.
From Verif Require Import RealField EigenModel SchattenModel InterpModel.
From Verif Require TraceModel.
Set Implicit Arguments.
Unset Strict Implicit.
Unset Printing Implicit Defensive.
Import Order.TTheory GRing.Theory Num.Theory.
Local Open Scope ring_scope.

(** A number that may not be finite *)
Definition finite T (x : option T) : res T := if x is Some y then Ok y else Raise NotFinite.

(** numpy.log *)
Definition nlog (x : R) : option R := if 0 < x then Some (ln x) else None.

(** interpolate_schatten.py 666-676, 779-789, 920-930, 1048-1058: an array of
    points is taken one by one *)
Definition pointwise (f : R -> res R) (t : seq R) : res (seq R) := mapM f t.

Section Bounds.
(** [sch M] is schatten(M, p=self.p, **self.options); [sparse] says whether A,
    and with it B, is a sparse matrix *)
Variables (n : nat) (sch : 'M[R]_n -> res R) (sparse : bool).
Variables (A : 'M[R]_n) (B : option 'M[R]_n) (p : TraceModel.pynum).

(** _interpolant_base.py 306-342, bound, with the attributes of 155-174 *)
Definition bound (t : R) : res R :=
  let* schatten_A := sch A in
  let* schatten_B := norm_B sch B in
  let* tau0 := finite (ndiv schatten_A schatten_B) in
  let tau_bound := tau0 + t in
  Ok (tau_bound * schatten_B).

(** 289-300, upper_bound.  numpy.trace makes an array without dimensions of a
    sparse matrix, and then fails with a ValueError. *)
Definition upper_bound (t : R) : res R :=
  if value p == Some (-1) then
    let* _ := guard sparse ValueError tt in
    let trace_A := \tr A in
    let trace_B := \tr (matrix_B B) in
    let* trace_ub := finite (ndiv (n%:R ^+ 2) (trace_A + t * trace_B)) in
    let* mean := finite (ndiv trace_ub n%:R) in
    finite (npow mean (1 / -1)%R)
  else Raise ValueError.

(** _interpolant_base.py 118-134 with the argument ti a list or array, or a
    number: then list(ti) in line 123 fails, before the test in line 126 for a
    number *)
Inductive points_arg := Number of R | Array of seq R.
Definition base_of (ti : points_arg) : res points :=
  match ti with
  | Array ti => base sch A B ti
  | Number _ =>
      let* schatten_A := sch A in
      let* schatten_B := norm_B sch B in
      let* _ := finite (ndiv schatten_A schatten_B) in
      Raise TypeError
  end.

(** interpolate_trace.py 398-404, _schatten_to_tracep *)
Definition schatten_to_tracep (s : R) : res R :=
  let* v := finite (value p) in
  let* x := finite (npow s v) in
  Ok (x * n%:R).

(** interpolate_trace.py 410-416, _tracep_to_schatten *)
Definition tracep_to_schatten (x : R) : res R :=
  let* v := finite (value p) in
  let* mean := finite (ndiv x n%:R) in
  let* e := finite (ndiv 1 v) in
  finite (npow mean e).

(** interpolate_logdet.py 378-396 *)
Definition schatten_to_logdet (s : R) : res R :=
  let* l := finite (nlog s) in Ok (n%:R * l).
Definition logdet_to_schatten (l : R) : res R :=
  let* x := finite (ndiv l n%:R) in Ok (exp x).

(** InterpolateTrace: eval (interpolate_trace.py 590-591), upper_bound (839-842)
    and lower_bound (960-963) *)
Definition trace_eval (t : R) : res R := let* s := eval sch A B t in schatten_to_tracep s.
Definition trace_upper_bound (t : R) : res R := let* s := bound t in schatten_to_tracep s.
Definition trace_lower_bound (t : R) : res R := let* s := upper_bound t in schatten_to_tracep s.

(** InterpolateLogdet: eval (interpolate_logdet.py 570-572) and lower_bound
    (801-804); here p is 0 *)
Definition logdet_eval (t : R) : res R := let* s := eval sch A B t in schatten_to_logdet s.
Definition logdet_lower_bound (t : R) : res R := let* s := bound t in schatten_to_logdet s.
End Bounds.

(** ** _eigenvalues_method.py *)
Section Eig.
Variables (E : eig_routines) (n : nat).

(** 333-354: the eigenvalues of A.  Those of a sparse matrix that are not
    computed stay zero.  non_zero_ratio is None for a dense matrix.  The sparse
    routine does not compute all eigenvalues. *)
Definition A_eigenvalues (A : 'M[R]_n) (non_zero_ratio : option R) : res (seq R) :=
  if non_zero_ratio is Some ratio then
    let k := num_none_zero_eig n ratio in
    if (0 < k < n)%N then Ok (eigsh E A k LM ++ nseq (n - k) 0) else Raise ValueError
  else Ok (eigh E A).

(** 382-414, interpolate; B_eigenvalues are ones (357-360) *)
Definition eig_interpolate (p : TraceModel.pynum) (ev : seq R) (t : R) : res R :=
  let eig_An := [seq x + t * 1 | x <- ev] in
  let* v := finite (value p) in
  if v == 0 then
    let* logdet := finite (nsum [seq nlog `|x| | x <- eig_An]) in
    let* l := finite (ndiv logdet n%:R) in
    Ok (exp l)
  else
    let* tracep := finite (nsum [seq npow x v | x <- eig_An]) in
    let* mean := finite (ndiv tracep n%:R) in
    let* e := finite (ndiv 1 v) in
    finite (npow mean e).

(** 289-311: the constructor, with B = None or not *)
Definition eig_method (p : TraceModel.pynum) (A : 'M[R]_n) (B : option 'M[R]_n)
    (non_zero_ratio : option R) : res (R -> res R) :=
  if B is Some _ then Raise ValueError else
  let* ev := A_eigenvalues A non_zero_ratio in
  Ok (eig_interpolate p ev).
End Eig.
