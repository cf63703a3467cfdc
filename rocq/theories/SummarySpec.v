(** What the printed summary should show, and what the arguments of the
    Hutchinson method should look like.  From the model only the types of
    Python values, arguments, dictionaries and printed tables are taken. *)
From mathcomp Require Import all_ssreflect all_algebra.
From Verif Require Import ConvModel ReportModel ArgsModel ArgsSpec SummaryModel.

Set Implicit Arguments.
Unset Strict Implicit.
Unset Printing Implicit Defensive.
Import GRing.Theory Num.Theory.
Local Open Scope ring_scope.

Section Spec.
Variable R : rcfType.
Notation num := (num R).
Notation pyval := (pyval R).

(** y is x in percent. *)
Definition in_percent (x y : num) : Prop :=
  match x, y with
  | Fin a, Fin b => b = 100%:R * a
  | PInf, PInf | NInf, NInf | NaN, NaN => True
  | _, _ => False
  end.

(** The number [x] is the one of inquiry [j]: a number that is not an array is
    that of the only inquiry. *)
Definition of_inquiry (T : Type) (v : shaped T) (j : nat) (x : T) : Prop :=
  match v with
  | One a => j = 0%N /\ x = a
  | Many xs => exists2 s, take j.+1 xs = rcons s x & size s = j
  end.

(** The exponent is a finite number, of whatever type. *)
Inductive finite_number : pyval -> R -> Prop :=
  | fn_arg v r : real_arg true v (Fin r) -> finite_number v r
  | fn_npbool (b : bool) : finite_number (NpBool R b) b%:R
  | fn_npfloat r : finite_number (NpFloat (Fin r)) r.

(** An integer is shown without decimals, another number with decimals. *)
Definition shows_exponent (v : pyval) (c : cell R) : Prop :=
  forall r, finite_number v r ->
  match c with
  | Whole z => r = z%:~R
  | Real x => x = Fin r /\ forall z : int, r <> z%:~R
  end.

(** The table below the results except the outlier significance level. *)
Definition shows_common (gram exponent lo hi atol rtol confidence threads devices multiproc
    gpu_threads : pyval) (d : dtype) (tot alg cpu : num) (s : common R) : Prop :=
  [/\ [/\ s_gram s = gram, shows_exponent exponent (s_exponent s)
        & match d with
          | Float32 => s_bits s = 32%N | Float64 => s_bits s = 64%N
          | Float128 => s_bits s = 128%N | OtherDtype => False
          end],
      [/\ integer_arg lo (s_min s) & integer_arg hi (s_max s)],
      [/\ real_arg true atol (s_atol s),
          (exists2 x, real_arg true rtol x & in_percent x (s_rtol s))
        & (exists2 x, real_arg true confidence x & in_percent x (s_confidence s))],
      [/\ s_tot_wall s = tot, s_alg_wall s = alg & s_cpu_proc s = cpu]
    & [/\ integer_arg threads (s_threads s), integer_arg devices (s_devices s),
          integer_arg multiproc (s_multiproc s) & integer_arg gpu_threads (s_gpu_threads s)]].

(** The outlier significance level in percent. *)
Definition shows_outlier (v : pyval) (s : common R) : Prop :=
  exists2 x, real_arg true v x & in_percent x (s_outlier s).

(** The number of re-orthogonalisation steps: all, none, or that many. *)
Definition shows_steps (orth degree : pyval) (s : steps) : Prop :=
  exists z d : int, [/\ integer_arg orth z, integer_arg degree d &
    match s with
    | FullSteps => z < 0 \/ d <= z
    | NoSteps => z = 0
    | Steps y => y = z /\ 0 < z < d
    end].

(** Line [j] of the results. *)
Definition shows_row (k : nat) (xs : seq num) (i : info R) (j : nat) (r : row R) : Prop :=
  [/\ r_index r = j.+1,
      (k = 0%N -> r_parameter r = None) /\
      ((0 < k)%N -> exists2 x, r_parameter r = Some x & of_inquiry (Many xs) (j * k) x),
      [/\ of_inquiry (i_samples_mean i) j (r_trace r),
          of_inquiry (i_absolute_error i) j (r_absolute r)
        & exists2 x, of_inquiry (i_relative_error i) j x & in_percent x (r_relative r)]
    & [/\ of_inquiry (i_num_samples_used i) j (r_used r),
          of_inquiry (i_num_outliers i) j (r_outliers r)
        & of_inquiry (i_converged i) j (r_converged r)]].

(** The summary of the stochastic Lanczos quadrature, but for the outlier
    level; [xs] are the parameters the caller gave. *)
Definition shows (xs : seq num) (c : config R) (i : info R) (s : summary R) : Prop :=
  [/\ size (s_rows s) = c_inquiries c,
      (forall j r0, (j < c_inquiries c)%N ->
         shows_row (c_num_parameters c) xs i j (nth r0 (s_rows s) j)),
      shows_common (c_gram c) (c_exponent c) (c_min c) (c_max c) (c_atol c) (c_rtol c)
        (c_confidence c) (c_threads c) (c_devices c) (c_multiproc c) (c_gpu_threads c)
        (c_dtype c) (c_tot_wall c) (c_alg_wall c) (c_cpu_proc c) (s_common s)
    & [/\ integer_arg (c_degree c) (s_degree s), s_num_parameters s = c_num_parameters c,
          real_arg true (c_tol c) (s_tol s)
        & shows_steps (c_orthogonalize c) (c_degree c) (s_orthogonalize s)]].

(** The summary of the Hutchinson method, but for the outlier level. *)
Definition hshows (i : hinfo R) (s : hsummary R) : Prop :=
  [/\ [/\ r_index (hs_row s) = 1%N, r_parameter (hs_row s) = None,
          r_trace (hs_row s) = i_mean i, r_absolute (hs_row s) = i_absolute i
        & in_percent (i_relative i) (r_relative (hs_row s))],
      [/\ r_used (hs_row s) = i_used i, r_outliers (hs_row s) = i_out i
        & r_converged (hs_row s) = i_conv i],
      shows_common (i_gram i) (i_exponent i) (i_min i) (i_max i) (i_atol i) (i_rtol i)
        (i_confidence i) (i_threads i) (PInt R 0) (PInt R 0) (PInt R 0) (i_dtype i)
        (i_tot_wall i) (i_alg_wall i) (i_cpu_proc i) (hs_common s)
    & [/\ i_assume i = Text (hs_assume s), real_arg true (i_tol i) (hs_tol s)
        & hs_orthogonalize s = i_orthogonalize i]].

(** The same call with verbose set to [b]. *)
Definition set_verbose (b : bool) (a : arguments R) : arguments R :=
  Arguments_ (gram a) (exponent a) (min_num_samples a) (max_num_samples a)
    (error_atol a) (error_rtol a) (confidence_level a) (outlier_significance_level a)
    (lanczos_degree a) (lanczos_tol a) (orthogonalize a) (seed a) (num_threads a)
    (num_gpu_devices a) (PBool R b) (plot a) (gpu a).

(** The same call with verbose and return_info set. *)
Definition hset (verbose return_info : bool) (a : harguments R) : harguments R :=
  HArguments (h_A a) (h_B a) (h_C a) (h_gram a) (h_exponent a) (PBool R return_info) (h_assume a)
    (h_min a) (h_max a) (h_atol a) (h_rtol a) (h_confidence a) (h_outlier a) (h_tol a)
    (h_orthogonalize a) (h_seed a) (h_threads a) (PBool R verbose) (h_plot a).

(** The same call with another exponent. *)
Definition hset_exponent (v : pyval) (a : harguments R) : harguments R :=
  HArguments (h_A a) (h_B a) (h_C a) (h_gram a) v (h_return_info a) (h_assume a)
    (h_min a) (h_max a) (h_atol a) (h_rtol a) (h_confidence a) (h_outlier a) (h_tol a)
    (h_orthogonalize a) (h_seed a) (h_threads a) (h_verbose a) (h_plot a).

(** ** Arguments of the Hutchinson method *)

(** The matrix is a two-dimensional array, or sparse, with [n] rows and [m]
    columns. *)
Definition has_shape (sparse : bool) (X : matrix) (n m : nat) : Prop :=
  exists d, X = if sparse then SparseArg n m d else DenseArg [:: n; m] d.

(** No matrix argument is an array with one or with more than two
    dimensions. *)
Definition two_dimensional (a : harguments R) : Prop :=
  forall s d, (h_A a = DenseArg s d \/ h_B a = DenseArg s d \/ h_C a = DenseArg s d) ->
    size s = 2%N.

(** B and C are of the kind of A; for a square A they have its shape, for
    another one as many rows as A has columns. *)
Definition fits (sparse : bool) (n m : nat) (X : matrix) : Prop :=
  if n == m then has_shape sparse X n m else exists m', has_shape sparse X m m'.

(** The arguments documented for the Hutchinson method, but for the exponent,
    which only has to be a scalar, and the number of columns of B and C when A
    is not square. *)
Definition hwell_formed (a : harguments R) : Prop :=
  [/\ (exists sparse n m,
         [/\ has_shape sparse (h_A a) n m,
             h_B a = NoMatrix \/ fits sparse n m (h_B a)
           & h_C a = NoMatrix \/ h_B a <> NoMatrix /\ fits sparse n m (h_C a)]),
      [/\ boolean_arg (h_gram a), boolean_arg (h_return_info a),
          boolean_arg (h_orthogonalize a), boolean_arg (h_verbose a) & boolean_arg (h_plot a)],
      [/\ h_exponent a <> PNone R, h_exponent a <> NonScalar R
        & h_assume a = Text Gen \/ h_assume a = Text Sym \/
          h_assume a = Text Pos \/ h_assume a = Text SymPos],
      (exists lo hi : int,
         [/\ integer_arg (h_min a) lo, integer_arg (h_max a) hi, 1 <= lo & lo <= hi])
    & [/\ (forall v, v = h_atol a \/ v = h_rtol a \/ v = h_tol a ->
             v = PNone R \/ exists2 x, real_arg true v x & nonnegative x),
          (exists c o : R,
             [/\ real_arg true (h_confidence a) (Fin c), real_arg true (h_outlier a) (Fin o),
                 0 <= c <= 1 & 0 <= o <= 1 - c]),
          (h_seed a = PNone R \/ exists z, integer_arg (h_seed a) z)
        & (exists2 z, integer_arg (h_threads a) z & 0 <= z)]].

(** None of the real-valued arguments is a not-a-number. *)
Definition hno_nan (a : harguments R) : Prop :=
  let ok v := v <> PFloat (@NaN R) in
  [/\ ok (h_atol a), ok (h_rtol a), ok (h_tol a), ok (h_confidence a) & ok (h_outlier a)].

End Spec.
