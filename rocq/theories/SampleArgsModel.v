(** Model of the handling of the arguments of imate.toeplitz
    (imate/sample_matrices/toeplitz.py 176-268) and imate.correlation_matrix
    (imate/sample_matrices/correlation_matrix.py 373-419, 426-556), up to the point
    where the matrix is filled.

    Only the outcome is modelled, not the text of messages.  Sizes do not overflow
    and memory does not run out.  numpy.bool_ values are left out. *)
Require Import String Ascii.
From mathcomp Require Import all_ssreflect all_algebra.
From Verif Require Import ConvModel.
Set Implicit Arguments.
Unset Strict Implicit.
Unset Printing Implicit Defensive.
Import GRing.Theory Num.Theory.
Local Open Scope ring_scope.

Section Model.
Variable R : rcfType.
Notation num := (num R).

(** Python values as far as the code can tell them apart.  [Float] is a Python
    float (or a subclass such as numpy.float64), [NpFloat] another numpy floating
    type; [Bytes] a scalar that is no number and no string; [Object] anything for
    which numpy.isscalar does not hold; [Complex] a Python complex (or a subclass such
    as numpy.complex128), other numpy complex types are left out.  The bool of [Complex] and [Bytes] is their
    truth value. *)
Inductive value :=
  | None_ | Bool of bool | Int of int | NpInt of int | Float of num | NpFloat of num
  | Complex of bool | Str of string | Bytes of bool | Object.

Definition is_none (v : value) : bool := if v is None_ then true else false.
Definition isscalar (v : value) : bool := match v with None_ | Object => false | _ => true end.
(** isinstance(v, (int, numpy.integer)) *)
Definition is_integer (v : value) : bool := match v with Bool _ | Int _ | NpInt _ => true | _ => false end.
Definition is_bool (v : value) : bool := if v is Bool _ then true else false.
Definition is_str (v : value) : bool := if v is Str _ then true else false.
Definition is_float (v : value) : bool := if v is Float _ then true else false.
(** isinstance(v, complex) *)
Definition is_complex (v : value) : bool := if v is Complex _ then true else false.

(** The integer a value stands for as a size (operator.index) *)
Definition index (v : value) : option int :=
  match v with Bool b => Some (Posz b) | Int z | NpInt z => Some z | _ => None end.
(** The number a value is compared as, or converted to double as; [None]: TypeError *)
Definition number (v : value) : option num :=
  match v with
  | Bool b => Some (Fin b%:R)
  | Int z | NpInt z => Some (Fin z%:~R)
  | Float x | NpFloat x => Some x
  | _ => None
  end.
(** bool(v) *)
Definition truth (v : value) : bool :=
  match v with
  | None_ => false
  | Bool b | Complex b | Bytes b => b
  | Int z | NpInt z => z != 0
  | Float x | NpFloat x => if x is Fin r then r != 0 else true
  | Str s => if s is EmptyString then false else true
  | Object => true
  end.

(** x <= y for numbers *)
Definition nle (x y : num) : bool :=
  match x, y with
  | NaN, _ | _, NaN => false
  | Fin a, Fin b => a <= b
  | NInf, _ | _, PInf => true
  | _, _ => false
  end.

(** Outcome of a check: true is an exception *)
Definition check := bool.
Notation raises := true (only parsing).

(** toeplitz.py 233-240, correlation_matrix.py 444-451, 454-461: for a value that is
    no integer the exception is built but not raised *)
Definition check_size (v : value) : check :=
  if is_none v then raises else if ~~ isscalar v then raises
  else if ~~ is_integer v then false
  else if index v is Some z then z < 1 else raises.

(** toeplitz.py 221-224, 227-230 *)
Definition check_entry (v : value) : check :=
  if is_none v then raises else ~~ (is_integer v || is_float v).

(** toeplitz.py 243-248 *)
Definition check_gram (v : value) : check :=
  if is_none v then raises else if ~~ isscalar v then raises else ~~ is_bool v.

Definition one_of (names : seq string) (v : value) : bool :=
  if v is Str s then has (fun t => if string_dec s t then true else false) names else false.
Definition formats : seq string := [:: "csr"; "csc"]%string.
Definition dtypes : seq string := [:: "float32"; "float64"; "float128"]%string.

(** toeplitz.py 251-255 *)
Definition check_toeplitz_format (v : value) : check :=
  if is_none v then false else if ~~ is_str v then raises else ~~ one_of formats v.

(** correlation_matrix.py 522-529, 532-540, toeplitz.py 258-266 *)
Definition check_name (names : seq string) (v : value) : check :=
  if is_none v then raises else if ~~ isscalar v then raises
  else if ~~ is_str v then raises else ~~ one_of names v.

(** toeplitz.py 209-266 *)
Definition check_toeplitz (a b size gram format dtype : value) : check :=
  [|| check_entry a, check_entry b, check_size size, check_gram gram, check_toeplitz_format format
    | check_name dtypes dtype].

(** What is built: the entries, the size and whether the Gramian is formed *)
Inductive outcome (T : Type) := Raises | Aborts | Builds of T.
Arguments Raises {T}.
Arguments Aborts {T}.

(** toeplitz.py 176-202: numpy.empty((2*size-1,)) and numpy.arange raise TypeError
    for what is no integer *)
Definition toeplitz (a b size gram format dtype : value) : outcome (num * num * int * bool) :=
  if check_toeplitz a b size gram format dtype then Raises
  else if (index size, number a, number b) is (Some n, Some x, Some y) then Builds (x, y, n, truth gram)
  else Raises.

(** correlation_matrix.py 464-471: for complex numbers the exception is built but
    not raised *)
Definition check_scale (v : value) : check :=
  if is_none v then raises else if ~~ isscalar v then raises
  else if is_complex v then false
  else if number v is Some x then nle x (Fin 0) else raises.

(** correlation_matrix.py 476-477 *)
Definition kernels : seq string := [:: "matern"; "exponential"; "square_exponential"; "rational_quadratic"]%string.

(** correlation_matrix.py 474-493: the names compared with in 488 and 491 are
    misspelt and are not among the accepted ones *)
Definition check_kernel (v : value) : check := if ~~ is_str v then raises else ~~ one_of kernels v.
Definition check_kernel_param (kernel v : value) : check :=
  if is_none v then false
  else if ~~ isscalar v then raises
  else if is_complex v then false
  else one_of [:: "exponental"]%string kernel || one_of [:: "square-exponental"]%string kernel.

(** correlation_matrix.py 496-501, 504-509, 543-548, 551-556: for a value that is
    not boolean the exception is built but not raised *)
Definition check_flag (v : value) : check :=
  if is_none v then raises else ~~ isscalar v.

(** correlation_matrix.py 512-519 *)
Definition check_density (v : value) : check :=
  if is_none v then raises else if ~~ isscalar v then raises
  else if is_complex v then false
  else if number v is Some x then nle x (Fin 0) || nle (Fin 1) x else raises.

Record arguments := Arguments {
  size : value; dimension : value; scale : value; kernel : value; kernel_param : value;
  grid : value; sparse : value; density : value; format : value; dtype : value;
  plot : value; verbose : value }.

(** correlation_matrix.py 426-556 *)
Definition check_arguments (a : arguments) : check :=
  [|| check_size (size a), check_size (dimension a), check_scale (scale a), check_kernel (kernel a),
      check_kernel_param (kernel a) (kernel_param a), check_flag (grid a), check_flag (sparse a),
      check_density (density a), check_name formats (format a), check_name dtypes (dtype a),
      check_flag (plot a) | check_flag (verbose a)].

(** get_kernel, _kernels.pyx 39-63: the accepted names it knows; the process is
    aborted for the others *)
Definition known : seq string := [:: "matern"; "exponential"]%string.

(** int(verbose), _dense_correlation_matrix.pyx 237, 255, 274 and
    _sparse_correlation_matrix.pyx 575, 598, 621: [parses] tells for which strings and bytes int does not raise *)
Definition int_ok (parses : value -> bool) (v : value) : bool :=
  match v with
  | Bool _ | Int _ | NpInt _ => true
  | Float x | NpFloat x => if x is Fin _ then true else false
  | Str _ | Bytes _ => parses v
  | _ => false
  end.

(** correlation_matrix.py 378-382, _sparse_correlation_matrix.pyx 510-511,
    _dense_correlation_matrix.pyx 194-195 and the conversion to double in the calls
    of _generate_matrix.  The case of "rational-quadratic" is left out, for the check
    does not let this name pass. *)
Definition number_param (a : arguments) : option num :=
  if is_none (kernel_param a) then
    if one_of [:: "matern"]%string (kernel a) then Some (Fin (1 / 2%:R)) else Some (@NaN R)
  else number (kernel_param a).

(** What is built: the number of points, the dimension, the scale, the parameter of
    the kernel (NaN: none), whether the points are on a grid and whether the
    matrix is sparse, then with which density *)
Record built := Built {
  points : nat; dim : nat; length : num; param : num; on_grid : bool; tapered : option R }.

(** correlation_matrix.py 373-414, _generate_points.pyx 49-57,
    _dense_correlation_matrix.pyx 194-279, _sparse_correlation_matrix.pyx 509-630
    with 371-381: the density is converted by nobody if the matrix is dense; a
    density that is not a number makes int(numpy.ceil(density * ...)) raise.  Plotting is left out. *)
Definition correlation_matrix (parses : value -> bool) (a : arguments) : outcome built :=
  if check_arguments a then Raises
  else if (index (size a), index (dimension a)) is (Some n, Some d) then
    let N := if truth (grid a) then (`|n| ^ `|d|)%N else `|n|%N in
    if ~~ one_of known (kernel a) then Aborts
    else
      let taper : outcome (option R) :=
        if truth (sparse a) then
          match number (density a) with
          | Some (Fin rho) => if rho * N%:R < 1 then Raises else Builds (Some rho)
          | _ => Raises
          end
        else Builds None in
      match taper, number (scale a), number_param a with
      | Builds t, Some l, Some x =>
        if int_ok parses (verbose a) then Builds (Built N `|d|%N l x (truth (grid a)) t) else Raises
      | _, _, _ => Raises
      end
  else Raises.
End Model.
Arguments Raises {T}.
Arguments Aborts {T}.
