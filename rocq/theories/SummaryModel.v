(** * The printed summary (verbose=True) and the Python side of the drivers

    Models imate/_trace_estimator/trace_estimator_utilities.py print_summary
    380-571, imate/traceinv/_hutchinson_method_utilities.pyx check_arguments
    22-246 and print_summary 253-434, and what the two drivers do around the
    computation: imate/_trace_estimator/trace_estimator.pyx 114-149, 211-218,
    292-390 and imate/traceinv/_hutchinson_method.pyx 622-742.

    A cell of the summary is the number handed to the format, with the
    percentages as they are computed; the decimal digits that the format keeps,
    the padding and the headings are not modelled.  Numbers are those of
    [ConvModel].  Python integers too large for a float are not modelled. *)
From mathcomp Require Import all_ssreflect all_algebra.
From Verif Require Import Mem ConvModel SlqRunModel ReportModel ArgsModel.

Set Implicit Arguments.
Unset Strict Implicit.
Unset Printing Implicit Defensive.
Import GRing.Theory Num.Theory.
Local Open Scope ring_scope.

(** The Python exceptions that can be raised here. *)
Inductive err := ErrType | ErrValue | ErrOverflow | ErrIndex.
Inductive result (T : Type) := Done of T | Error of err.
Arguments Done {T}.
Arguments Error {T}.

Definition bind (T U : Type) (r : result T) (f : T -> result U) : result U :=
  match r with Done x => f x | Error e => Error e end.
Notation "'try' x <- e ; f" := (bind e (fun x => f))
  (at level 200, x name, e at level 100, f at level 200).
Notation "'try' ' p <- e ; f" := (bind e (fun p => f))
  (at level 200, p pattern, e at level 100, f at level 200).

Definition lift (T : Type) (r : res T) : result T :=
  match r with
  | Ok x => Done x
  | Raise TypeError => Error ErrType
  | Raise ValueError => Error ErrValue
  end.

(** A list comprehension whose body may raise. *)
Fixpoint each (S T : Type) (f : S -> result T) (xs : seq S) : result (seq T) :=
  if xs is x :: xs' then try y <- f x; try ys <- each f xs'; Done (y :: ys) else Done [::].

(** numpy dtypes; get_data_type_name (imate/_linear_algebra/matrix_utilities.py
    21-40) raises TypeError for all others. *)
Inductive dtype := Float32 | Float64 | Float128 | OtherDtype.

Section Summary.
Variable R : rcfType.
Notation num := (num R).
Notation pyval := (pyval R).

(** int(x) of a finite float. *)
Variable trunc : R -> int.

(** float(v), as "%e" and "%f" and the product with 100.0 need it *)
Definition real (v : pyval) : result num :=
  if number v is Some x then Done x else Error ErrType.

(** int(v), also what "%d" does *)
Definition integer (v : pyval) : result int :=
  match v with
  | PBool b | NpBool b => Done (Posz b)
  | PInt z | NpInt z => Done z
  | PFloat (Fin r) | NpFloat (Fin r) => Done (trunc r)
  | PFloat NaN | NpFloat NaN => Error ErrValue
  | PFloat _ | NpFloat _ => Error ErrOverflow
  | _ => Error ErrType
  end.

(** x * 100.0 *)
Definition percent (x : num) : num := nmul x (Fin 100%:R).

(** v == z *)
Definition equals (v : pyval) (z : int) : bool :=
  if number v is Some (Fin r) then r == z%:~R else false.

(** The exponent is printed as an integer or as a float. *)
Inductive cell := Whole of int | Real of num.

(** trace_estimator_utilities.py 527-531, _hutchinson_method_utilities.pyx
    393-397 *)
Definition exponent_cell (v : pyval) : result cell :=
  try z <- integer v;
  if equals v z then Done (Whole z) else try x <- real v; Done (Real x).

(** trace_estimator_utilities.py 425-431 *)
Inductive steps := FullSteps | NoSteps | Steps of int.
Definition steps_cell (v degree : pyval) : result steps :=
  try x <- real v;
  try d <- real degree;
  if nlt x (Fin 0) || nlt d x || (if (x, d) is (Fin a, Fin b) then a == b else false)
  then Done FullSteps
  else if (if x is Fin a then a == 0 else false) then Done NoSteps
  else try z <- integer v; Done (Steps z).

(** trace_estimator_utilities.py 433-442 *)
Definition bits (d : dtype) : result nat :=
  match d with
  | Float32 => Done 32%N
  | Float64 => Done 64%N
  | Float128 => Done 128%N
  | OtherDtype => Error ErrType
  end.

(** x[i] if there are several inquiries, x itself if there is one: a number, or
    an array of one entry, which formats like a number. *)
Definition element (T : Type) (x : shaped T) (q i : nat) : result T :=
  if q == 1%N then
    match x with
    | One a | Many [:: a] => Done a
    | Many _ => Error ErrType
    end
  else
    match x with
    | Many xs => if rd xs i is Some a then Done a else Error ErrIndex
    | One _ => Error ErrType
    end.

(** parameters[i].  A number cannot be indexed (for a Python number this is a
    TypeError, for a numpy number an IndexError). *)
Definition parameter (p : parameters num) (i : nat) : result num :=
  match p with
  | Array1 buffer offset stride n =>
      if (i < n)%N then
        if offset%:Z + stride * i%:Z is Posz k then
          if rd buffer k is Some x then Done x else Error ErrIndex
        else Error ErrIndex
      else Error ErrIndex
  | _ => Error ErrType
  end.

(** The entries of the dictionary that do not depend on the run
    (trace_estimator.pyx 293-351). *)
Record config := Config {
  c_dtype : dtype; c_gram : pyval; c_exponent : pyval;
  c_inquiries : nat; c_num_parameters : nat; c_parameters : parameters num;
  c_atol : pyval; c_rtol : pyval; c_confidence : pyval; c_outlier : pyval;
  c_min : pyval; c_max : pyval;
  c_tot_wall : num; c_alg_wall : num; c_cpu_proc : num;
  c_threads : pyval; c_devices : pyval; c_multiproc : pyval; c_gpu_threads : pyval;
  c_degree : pyval; c_tol : pyval; c_orthogonalize : pyval }.

Record row := Row {
  r_index : nat; r_parameter : option num;
  r_trace : num; r_absolute : num; r_relative : num;
  r_used : nat; r_outliers : nat; r_converged : bool }.

(** What is printed below the rows; the two functions differ in the entries
    about the method. *)
Record common := Common {
  s_gram : pyval; s_exponent : cell; s_bits : nat;
  s_min : int; s_max : int; s_atol : num; s_rtol : num; s_outlier : num; s_confidence : num;
  s_tot_wall : num; s_alg_wall : num; s_cpu_proc : num;
  s_threads : int; s_devices : int; s_multiproc : int; s_gpu_threads : int }.

Record summary := Summary {
  s_rows : seq row; s_common : common;
  s_degree : int; s_num_parameters : nat; s_tol : num; s_orthogonalize : steps }.

(** One line of the results, trace_estimator_utilities.py 459-510;
    [relative] already times 100. *)
Definition result_row (q k : nat) (p : parameters num) (trace absolute relative : shaped num)
    (used outliers : shaped nat) (converged : shaped bool) (i : nat) : result row :=
  try par <- (if k == 0%N then Done None
              else if k == 1%N then try x <- parameter p i; Done (Some x)
              else try x <- parameter p (i * k)%N; Done (Some x));
  try t <- element trace q i;
  try a <- element absolute q i;
  try r <- element relative q i;
  try u <- element used q i;
  try o <- element outliers q i;
  try c <- element converged q i;
  Done (Row i.+1 par t a r u o c).

Definition map_shaped (S T : Type) (f : S -> T) (x : shaped S) : shaped T :=
  match x with One a => One (f a) | Many xs => Many [seq f a | a <- xs] end.

(** trace_estimator_utilities.py 380-571 *)
Definition print_summary (c : config) (i : info R) : result summary :=
  let relative := map_shaped percent (i_relative_error i) in
  try rtol <- real (c_rtol c);
  try confidence <- real (c_confidence c);
  try orth <- steps_cell (c_orthogonalize c) (c_degree c);
  try b <- bits (c_dtype c);
  try rows <- each
    (result_row (c_inquiries c) (c_num_parameters c) (c_parameters c)
       (i_samples_mean i) (i_absolute_error i) relative
       (i_num_samples_used i) (i_num_outliers i) (i_converged i))
    (iota 0 (c_inquiries c));
  try exponent <- exponent_cell (c_exponent c);
  try degree <- integer (c_degree c);
  try tol <- real (c_tol c);
  try lo <- integer (c_min c);
  try atol <- real (c_atol c);
  try hi <- integer (c_max c);
  try outlier <- real (c_outlier c);
  try threads <- integer (c_threads c);
  try devices <- integer (c_devices c);
  try multiproc <- integer (c_multiproc c);
  try gpu_threads <- integer (c_gpu_threads c);
  Done (Summary rows
    (Common (c_gram c) exponent b lo hi atol (percent rtol) outlier (percent confidence)
       (c_tot_wall c) (c_alg_wall c) (c_cpu_proc c) threads devices multiproc gpu_threads)
    degree (c_num_parameters c) tol orth).

(** What is taken from the environment: the number of threads OpenMP or
    multiprocessing reports, the machine precision, the rounding of the
    quotient in find_num_inquiries, the clocks, and the properties of the
    GPU devices (number, multiprocessors, threads per multiprocessor). *)
Record environment := Environment {
  e_threads : int; e_eps : dtype -> num; e_fl : rat -> rat;
  e_tot_wall : num; e_alg_wall : num; e_cpu_proc : num;
  e_gpus : int; e_multiproc : int; e_gpu_threads : int }.

(** x = True *)
Definition truth (v : pyval) : bool := if v is PBool b then b else false.

(** if num_threads < 1: num_threads = (number of processors) *)
Definition threads_or (m : int) (v : pyval) : result pyval :=
  if number v is Some x then Done (if nlt x (Fin 1) then PInt R m else v) else Error ErrType.

Definition with_threads (v : pyval) (a : arguments R) : arguments R :=
  Arguments_ (gram a) (exponent a) (min_num_samples a) (max_num_samples a)
    (error_atol a) (error_rtol a) (confidence_level a) (outlier_significance_level a)
    (lanczos_degree a) (lanczos_tol a) (orthogonalize a) (seed a) v (num_gpu_devices a)
    (verbose a) (plot a) (gpu a).

(** trace_estimator.pyx 114-390 for an operator of the type [d] with [k]
    parameters.  [run] is the report of the computation for the given number
    of inquiries (pyc_trace_estimator or pycu_trace_estimator).  The value is
    what was printed, the result, and the dictionary. *)
Definition slq (env : environment) (d : dtype) (k : nat) (a : arguments R) (p : parameters num)
    (run : nat -> report R) : result (option summary * (shaped num * (config * info R))) :=
  try threads <- threads_or (e_threads env) (num_threads a);
  try 'pair p' s <- lift (get_operator_parameters p);
  try q <- lift (find_num_inquiries (e_fl env) k s);
  try 'pair atol rtol <- lift (check_arguments (with_threads threads a));
  let tol := if is_none (lanczos_tol a) then PFloat (e_eps env d) else lanczos_tol a in
  let devices :=
    if truth (gpu a) && equals (num_gpu_devices a) 0 then PInt R (e_gpus env)
    else num_gpu_devices a in
  let multiproc := PInt R (if truth (gpu a) then e_multiproc env else 0) in
  let gpu_threads := PInt R (if truth (gpu a) then e_gpu_threads env else 0) in
  let c := Config d (gram a) (exponent a) q k p' atol rtol (confidence_level a)
    (outlier_significance_level a) (min_num_samples a) (max_num_samples a)
    (e_tot_wall env) (e_alg_wall env) (e_cpu_proc env) threads devices multiproc gpu_threads
    (lanczos_degree a) tol (orthogonalize a) in
  let is_array := match p' with NoParameters | Scalar _ => false | _ => true end in
  if output (e_eps env Float64) is_array (run q) is Some (trace, i) then
    try printed <- (if truth (verbose a)
                    then try s <- print_summary c i; Done (Some s) else Done None);
    Done (printed, (trace, (c, i)))
  else Error ErrIndex.

(** ** The Hutchinson method *)

(** A matrix argument: numpy arrays of any number of dimensions, sparse
    matrices, other objects. *)
Inductive matrix :=
  | NoMatrix
  | DenseArg of seq nat & dtype
  | SparseArg of nat & nat & dtype
  | OtherArg.

(** assume_matrix: None, another object, or a string *)
Inductive name := Gen | Sym | Pos | SymPos | OtherName.
Inductive text := NoText | NotText | Text of name.

Record harguments := HArguments {
  h_A : matrix; h_B : matrix; h_C : matrix;
  h_gram : pyval; h_exponent : pyval; h_return_info : pyval; h_assume : text;
  h_min : pyval; h_max : pyval; h_atol : pyval; h_rtol : pyval;
  h_confidence : pyval; h_outlier : pyval; h_tol : pyval; h_orthogonalize : pyval;
  h_seed : pyval; h_threads : pyval; h_verbose : pyval; h_plot : pyval }.

(** isinstance(X, numpy.ndarray), isspmatrix(X), X.shape *)
Definition is_dense (X : matrix) : bool := if X is DenseArg _ _ then true else false.
Definition is_sparse (X : matrix) : bool := if X is SparseArg _ _ _ then true else false.
Definition shape (X : matrix) : seq nat :=
  match X with DenseArg s _ => s | SparseArg n m _ => [:: n; m] | _ => [::] end.

Definition index (s : seq nat) (i : nat) : result nat :=
  if rd s i is Some n then Done n else Error ErrIndex.
Definition fail_if (b : bool) (e : err) : result unit := if b then Error e else Done tt.

(** 57-73 for B, 75-93 for C *)
Definition check_matrix (A X : matrix) (square : bool) : result unit :=
  try _ <- fail_if (is_dense A && ~~ is_dense X) ErrType;
  if is_sparse A && ~~ is_sparse X then Error ErrType
  else if square then fail_if (shape A != shape X) ErrValue
  else
    try m <- index (shape A) 1;
    try n <- index (shape X) 0;
    fail_if (m != n) ErrValue.

Definition raised (c : check) : result unit := lift (if c is Some e then Raise e else Ok tt).

(** 103-109: the exception for an exponent that is not an integer is built but
    not raised. *)
Definition check_hexponent (v : pyval) : check :=
  orelse (raise_if (is_none v) TypeError) (raise_if (~~ isscalar v) TypeError).

(** 111-113 *)
Definition check_return_info (v : pyval) : check := raise_if (~~ is_bool v) TypeError.

(** 115-123 *)
Definition check_assume (v : text) : check :=
  match v with
  | NoText => Some ValueError
  | NotText => Some TypeError
  | Text OtherName => Some ValueError
  | Text _ => None
  end.

(** 150-158, 160-168 *)
Definition check_htolerance (v : pyval) : check :=
  if is_none v then None
  else
    orelse (raise_if (~~ isscalar v) TypeError)
    (orelse (raise_if (~~ (is_int v || is_npint v || is_float v)) TypeError)
       (raise_lt (number v) (const 0) ValueError)).

(** 22-246.  The checks of gram (95-101), the numbers of samples (125-148), the
    levels (170-195), the seed (214-217), the number of threads (220-227),
    verbose and plot (230-243) are the texts of trace_estimator_utilities.py,
    except that confidence_level may be a numpy integer (175), as the outlier
    level may; orthogonalize (206-212) is tested to be a bool and solver_tol
    (198-204) like a tolerance. *)
Definition hcheck_arguments (a : harguments) : result (pyval * pyval * bool) :=
  try _ <- fail_if (~~ is_dense (h_A a) && ~~ is_sparse (h_A a)) ErrType;
  try n <- index (shape (h_A a)) 0;
  try m <- index (shape (h_A a)) 1;
  let square := n == m in
  try _ <- (if h_B a is NoMatrix then Done tt else check_matrix (h_A a) (h_B a) square);
  try _ <- (if h_C a is NoMatrix then Done tt
            else try _ <- fail_if (if h_B a is NoMatrix then true else false) ErrValue;
                 check_matrix (h_A a) (h_C a) square);
  try _ <- raised (check_bool (h_gram a));
  try _ <- raised (check_hexponent (h_exponent a));
  try _ <- raised (check_return_info (h_return_info a));
  try _ <- raised (check_assume (h_assume a));
  try _ <- raised (check_num_samples (h_min a));
  try _ <- raised (check_num_samples (h_max a));
  try _ <- raised (raise_lt (number (h_max a)) (number (h_min a)) ValueError);
  try _ <- raised (check_htolerance (h_atol a));
  try _ <- raised (check_htolerance (h_rtol a));
  try _ <- raised (check_outlier (h_confidence a));
  try _ <- raised (check_outlier (h_outlier a));
  try _ <- raised (check_levels (h_outlier a) (h_confidence a));
  try _ <- raised (check_htolerance (h_tol a));
  try _ <- raised (check_bool (h_orthogonalize a));
  try _ <- raised (check_seed (h_seed a));
  try _ <- raised (check_count (h_threads a));
  try _ <- raised (check_bool (h_verbose a));
  try _ <- raised (check_bool (h_plot a));
  Done (tolerance (h_atol a), tolerance (h_rtol a), square).

(** What _hutchinson_method_float or _double returns. *)
Record hrun := HRun {
  u_trace : num; u_error : num; u_outliers : nat; u_used : nat; u_converged : bool }.

(** The dictionary, _hutchinson_method.pyx 678-728 *)
Record hinfo := HInfo {
  i_dtype : dtype; i_gram : pyval; i_exponent : pyval; i_assume : text;
  i_absolute : num; i_relative : num;
  i_atol : pyval; i_rtol : pyval; i_confidence : pyval; i_outlier : pyval;
  i_conv : bool; i_min : pyval; i_max : pyval; i_used : nat; i_out : nat; i_mean : num;
  i_threads : pyval;
  i_tot_wall : num; i_alg_wall : num; i_cpu_proc : num;
  i_orthogonalize : pyval; i_tol : pyval }.

Record hsummary := HSummary {
  hs_row : row; hs_common : common;
  hs_assume : name; hs_tol : num; hs_orthogonalize : pyval }.

(** _hutchinson_method_utilities.pyx 296-304 *)
Definition readable (v : text) : result name :=
  match v with
  | Text Gen => Done Gen
  | Text Sym => Done Sym
  | Text SymPos => Done SymPos
  | _ => Error ErrValue
  end.

(** _hutchinson_method_utilities.pyx 306-312 *)
Definition hbits (d : dtype) : result nat :=
  match d with Float32 => Done 32%N | Float64 => Done 64%N | _ => Error ErrType end.

(** _hutchinson_method_utilities.pyx 253-434; num_inquiries is 1 *)
Definition hprint_summary (i : hinfo) : result hsummary :=
  let relative := percent (i_relative i) in
  try rtol <- real (i_rtol i);
  try confidence <- real (i_confidence i);
  try assume <- readable (i_assume i);
  try b <- hbits (i_dtype i);
  try tol <- real (i_tol i);
  try exponent <- exponent_cell (i_exponent i);
  try lo <- integer (i_min i);
  try atol <- real (i_atol i);
  try hi <- integer (i_max i);
  try outlier <- real (i_outlier i);
  try threads <- integer (i_threads i);
  Done (HSummary
    (Row 1 None (i_mean i) (i_absolute i) relative (i_used i) (i_out i) (i_conv i))
    (Common (i_gram i) exponent b lo hi atol (percent rtol) outlier (percent confidence)
       (i_tot_wall i) (i_alg_wall i) (i_cpu_proc i) threads 0 0 0)
    assume tol (i_orthogonalize i)).

(** if n < v: v = n, _hutchinson_method.pyx 632-635 *)
Definition clip (n : nat) (v : pyval) : result pyval :=
  if number v is Some x then Done (if nlt (Fin n%:R) x then PInt R n%:Z else v)
  else Error ErrType.

Definition matrix_dtype (X : matrix) : dtype :=
  match X with DenseArg _ d | SparseArg _ _ d => d | _ => OtherDtype end.

(** The data types that are dispatched, 647-675; for others TypeError. *)
Definition computed (d : dtype) : bool :=
  match d with Float32 | Float64 => true | _ => false end.

(** _hutchinson_method.pyx 622-742; [run] is the computation with the clipped
    numbers of samples.  The value is what was printed, the result and the
    dictionary (returned if return_info). *)
Definition hutchinson (env : environment) (a : harguments) (run : pyval -> pyval -> hrun)
    : result (option hsummary * (num * option hinfo)) :=
  try 'pair ar square <- hcheck_arguments a;
  try n <- index (shape (h_A a)) 1;
  try hi <- clip n (h_max a);
  try lo <- clip n (h_min a);
  try threads <- threads_or (e_threads env) (h_threads a);
  let d := matrix_dtype (h_A a) in
  if ~~ computed d then Error ErrType
  else
    let u := run lo hi in
    let i := HInfo d (h_gram a) (h_exponent a) (h_assume a)
      (u_error u) (relative_error (e_eps env Float64) (u_error u) (u_trace u))
      ar.1 ar.2 (h_confidence a) (h_outlier a)
      (u_converged u) lo hi (u_used u) (u_outliers u) (u_trace u)
      threads (e_tot_wall env) (e_alg_wall env) (e_cpu_proc env)
      (h_orthogonalize a) (h_tol a) in
    try printed <- (if truth (h_verbose a)
                    then try s <- hprint_summary i; Done (Some s) else Done None);
    Done (printed, (u_trace u, if truth (h_return_info a) then Some i else None)).

End Summary.
