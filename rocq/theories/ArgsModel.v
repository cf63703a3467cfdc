(** Model of the argument handling of the stochastic Lanczos quadrature:
    imate/_trace_estimator/trace_estimator_utilities.py get_operator_parameters
    62-101, check_arguments 108-305, find_num_inquiries 338-373, and the way
    imate/_c_trace_estimator/py_c_trace_estimator.pyx 206-219 turns the
    parameters into a C pointer. *)
From mathcomp Require Import all_ssreflect all_algebra.
From Verif Require Import Mem ConvModel.

Set Implicit Arguments.
Unset Strict Implicit.
Unset Printing Implicit Defensive.
Import GRing.Theory Num.Theory.
Local Open Scope ring_scope.

(** The Python exceptions raised here. *)
Inductive exn := TypeError | ValueError.
Inductive res (T : Type) := Ok of T | Raise of exn.
Arguments Ok {T}.
Arguments Raise {T}.

(** ** Parameters *)
Section Parameters.
Variable T : Type.

(** The Python object given as "parameters".  A one-dimensional numpy array is
    a view into a buffer: element i is at [offset + stride * i].  Its dtype is
    taken to be the one of the operator (a different dtype makes Cython raise
    ValueError when the memoryview is bound). *)
Inductive parameters :=
  | NoParameters
  | Scalar of T
  | FlatList of seq T
  | NestedList
  | Array1 of seq T & nat & int & nat   (* buffer, offset, stride, size *)
  | ArrayN
  | OtherObject.

(** trace_estimator_utilities.py 62-101.  Lists become fresh (contiguous)
    arrays; numpy arrays are returned as they are. *)
Definition get_operator_parameters (p : parameters) : res (parameters * nat) :=
  match p with
  | NoParameters => Ok (p, 0%N)
  | Scalar _ => Ok (p, 1%N)
  | FlatList xs => Ok (Array1 xs 0 1 (size xs), size xs)
  | NestedList => Raise ValueError
  | Array1 _ _ _ n => Ok (p, n)
  | ArrayN => Raise ValueError
  | OtherObject => Raise TypeError
  end.

(** Python [s / k] rounds the quotient to a float, [int] truncates; [fl] is
    the rounding. *)
Variable fl : rat -> rat.
Definition py_int_div (s k : nat) : nat :=
  let x := fl (s%:R / k%:R) in `|(numq x %/ denq x)%Z|%N.

(** trace_estimator_utilities.py 338-373 *)
Definition find_num_inquiries (k s : nat) : res nat :=
  if k == 0%N then Ok 1%N
  else if (s < k)%N then Raise ValueError
  else if (s %% k != 0)%N then Raise ValueError
  else Ok (py_int_div s k).

(** py_c_trace_estimator.pyx 211-219: the memory seen through the pointer
    c_parameters.  Nothing can be read through NULL; for an array the pointer
    is the address of element 0, and the C code steps through the buffer with
    unit stride. *)
Definition c_parameters (p : parameters) : seq T :=
  match p with
  | Scalar x => [:: x]
  | Array1 buffer offset _ _ => drop offset buffer
  | _ => [::]
  end.

(** trace_estimator.pyx 124-133: the number of inquiries and what C reads. *)
Definition inquiries (k : nat) (p : parameters) : res (nat * seq T) :=
  match get_operator_parameters p with
  | Raise e => Raise e
  | Ok (p', s) =>
    match find_num_inquiries k s with
    | Raise e => Raise e
    | Ok q => Ok (q, c_parameters p')
    end
  end.

(** A parameter read of inquiry j: A->set_parameters(&parameters[j*k]), the
    operator then reads entries 0 .. k-1 (c_trace_estimator.cpp 509). *)
Definition read_parameter (mem : seq T) (k j i : nat) : option T :=
  rd mem (j * k + i)%N.

End Parameters.

(** ** check_arguments *)
Section Check.
Variable R : rcfType.
Notation num := (num R).

(** Python values as far as check_arguments can tell them apart.  [Float] is a
    Python float (or a subclass such as numpy.float64), [NpFloat] the other
    numpy floating types; [OtherScalar] is any other object for which
    numpy.isscalar holds (a string, a Fraction, ...); [NonScalar] covers
    arrays, lists and all other objects. *)
Inductive pyval :=
  | PNone
  | PBool of bool
  | PInt of int
  | NpInt of int
  | NpBool of bool
  | PFloat of num
  | NpFloat of num
  | PComplex of R & R
  | OtherScalar
  | NonScalar.

Definition isscalar (v : pyval) : bool :=
  match v with PNone | NonScalar => false | _ => true end.
Definition is_none (v : pyval) : bool := if v is PNone then true else false.
(** isinstance(v, bool); isinstance(v, int) also holds for bools *)
Definition is_bool (v : pyval) : bool := if v is PBool _ then true else false.
Definition is_int (v : pyval) : bool :=
  match v with PBool _ | PInt _ => true | _ => false end.
Definition is_npint (v : pyval) : bool := if v is NpInt _ then true else false.
Definition is_float (v : pyval) : bool := if v is PFloat _ then true else false.

(** The number a value is compared as; [None]: the comparison raises
    TypeError. *)
Definition number (v : pyval) : option num :=
  match v with
  | PBool b | NpBool b => Some (Fin b%:R)
  | PInt z | NpInt z => Some (Fin z%:~R)
  | PFloat x | NpFloat x => Some x
  | _ => None
  end.

(** A sequence of checks: [None] is "no exception". *)
Definition check := option exn.
Definition orelse (a b : check) : check := if a is Some e then Some e else b.
Notation "a ;; b" := (orelse a b) (at level 60, right associativity).
(** if guard: raise e *)
Definition raise_if (guard : bool) (e : exn) : check := if guard then Some e else None.
(** if v < w: raise e *)
Definition raise_lt (v w : option num) (e : exn) : check :=
  match v, w with
  | Some x, Some y => raise_if (nlt x y) e
  | _, _ => Some TypeError
  end.
Definition const (x : R) : option num := Some (Fin x).

(** Lines 136-141, 282-303: gram, verbose, plot, gpu *)
Definition check_bool (v : pyval) : check :=
  raise_if (is_none v) TypeError ;;
  raise_if (~~ isscalar v) TypeError ;;
  raise_if (~~ is_bool v) TypeError.

(** Lines 144-149: the exception for complex numbers is built but not raised. *)
Definition check_exponent (v : pyval) : check :=
  raise_if (is_none v) TypeError ;;
  raise_if (~~ isscalar v) TypeError.

(** Lines 152-159, 162-169 *)
Definition check_num_samples (v : pyval) : check :=
  raise_if (is_none v) ValueError ;;
  raise_if (~~ isscalar v) TypeError ;;
  raise_if (~~ (is_int v || is_npint v)) TypeError ;;
  raise_lt (number v) (const 1) ValueError.

(** Lines 177-184, 187-194 *)
Definition check_tolerance (v : pyval) : check :=
  if is_none v then None
  else
    raise_if (~~ isscalar v) TypeError ;;
    raise_if (~~ (is_int v || is_float v)) TypeError ;;
    raise_lt (number v) (const 0) ValueError.

(** Lines 197-204 *)
Definition check_confidence (v : pyval) : check :=
  raise_if (is_none v) TypeError ;;
  raise_if (~~ isscalar v) TypeError ;;
  raise_if (~~ (is_int v || is_float v)) TypeError ;;
  raise_lt (number v) (const 0) ValueError ;;
  raise_lt (const 1) (number v) ValueError.

(** Lines 207-216 *)
Definition check_outlier (v : pyval) : check :=
  raise_if (is_none v) TypeError ;;
  raise_if (~~ isscalar v) TypeError ;;
  raise_if (~~ (is_int v || is_npint v || is_float v)) TypeError ;;
  raise_lt (number v) (const 0) ValueError ;;
  raise_lt (const 1) (number v) ValueError.

(** Lines 219-221 *)
Definition check_levels (outlier confidence : pyval) : check :=
  raise_lt (omap (fun c => nsub (Fin 1) c) (number confidence)) (number outlier)
    ValueError.

(** Lines 224-233 *)
Definition check_degree (v : pyval) : check :=
  raise_if (is_none v) TypeError ;;
  raise_if (~~ isscalar v) TypeError ;;
  raise_if (~~ (is_int v || is_npint v)) TypeError ;;
  raise_lt (number v) (const 1) ValueError.

(** Lines 236-242 *)
Definition check_lanczos_tol (v : pyval) : check :=
  if is_none v then None
  else
    raise_if (~~ isscalar v) TypeError ;;
    raise_if (~~ (is_int v || is_npint v || is_float v)) TypeError ;;
    raise_lt (number v) (const 0) ValueError.

(** Lines 245-253 *)
Definition check_orthogonalize (v degree : pyval) : check :=
  raise_if (is_none v) TypeError ;;
  raise_if (~~ isscalar v) TypeError ;;
  raise_if (~~ (is_int v || is_npint v)) TypeError ;;
  raise_lt (number degree) (number v) ValueError.

(** Lines 256-259 *)
Definition check_seed (v : pyval) : check :=
  if is_none v then None
  else
    raise_if (~~ isscalar v) TypeError ;;
    raise_if (~~ (is_int v || is_npint v)) TypeError.

(** Lines 262-269, 272-279 *)
Definition check_count (v : pyval) : check :=
  raise_if (is_none v) TypeError ;;
  raise_if (~~ isscalar v) TypeError ;;
  raise_if (~~ (is_int v || is_npint v)) TypeError ;;
  raise_lt (number v) (const 0) ValueError.

Record arguments := Arguments_ {
  gram : pyval; exponent : pyval;
  min_num_samples : pyval; max_num_samples : pyval;
  error_atol : pyval; error_rtol : pyval;
  confidence_level : pyval; outlier_significance_level : pyval;
  lanczos_degree : pyval; lanczos_tol : pyval; orthogonalize : pyval;
  seed : pyval; num_threads : pyval; num_gpu_devices : pyval;
  verbose : pyval; plot : pyval; gpu : pyval }.

(** Lines 178, 188: a missing tolerance is 0.0. *)
Definition tolerance (v : pyval) : pyval := if is_none v then PFloat (Fin 0) else v.

(** Lines 108-305 *)
Definition check_arguments (a : arguments) : res (pyval * pyval) :=
  match
    check_bool (gram a) ;;
    check_exponent (exponent a) ;;
    check_num_samples (min_num_samples a) ;;
    check_num_samples (max_num_samples a) ;;
    raise_lt (number (max_num_samples a)) (number (min_num_samples a)) ValueError ;;
    check_tolerance (error_atol a) ;;
    check_tolerance (error_rtol a) ;;
    check_confidence (confidence_level a) ;;
    check_outlier (outlier_significance_level a) ;;
    check_levels (outlier_significance_level a) (confidence_level a) ;;
    check_degree (lanczos_degree a) ;;
    check_lanczos_tol (lanczos_tol a) ;;
    check_orthogonalize (orthogonalize a) (lanczos_degree a) ;;
    check_seed (seed a) ;;
    check_count (num_threads a) ;;
    check_count (num_gpu_devices a) ;;
    check_bool (verbose a) ;;
    check_bool (plot a) ;;
    check_bool (gpu a)
  with
  | Some e => Raise e
  | None => Ok (tolerance (error_atol a), tolerance (error_rtol a))
  end.

End Check.
