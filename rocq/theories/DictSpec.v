(** What the dictionary returned with an estimate should say about the call.
    From the model only the types of Python values, arguments, reports and
    dictionaries are taken. *)
From mathcomp Require Import all_ssreflect all_algebra.
From Verif Require Import ConvModel SlqRunModel ReportModel ArgsModel ArgsSpec SummaryModel SummarySpec.

Set Implicit Arguments.
Unset Strict Implicit.
Unset Printing Implicit Defensive.
Import GRing.Theory Num.Theory.
Local Open Scope ring_scope.

Section Spec.
Variable R : rcfType.
Notation num := (num R).
Notation pyval := (pyval R).

(** A missing value is replaced by [x]. *)
Definition or_default (x : num) (v w : pyval) : Prop :=
  (v = PNone R -> w = PFloat x) /\ (v <> PNone R -> w = v).

(** Zero threads stand for all [m] of the processor. *)
Definition threads_used (m : int) (v w : pyval) : Prop :=
  forall z, integer_arg v z -> integer_arg w (if z < 1 then m else z).

(** The error relative to the estimate; [eps] keeps the quotient defined. *)
Definition relative (eps error trace rel : num) : Prop :=
  forall h e t : R, eps = Fin h -> 0 < h -> error = Fin e -> trace = Fin t ->
    rel = Fin (e / (`|t| + h)).

(** The settings of the stochastic Lanczos quadrature. *)
Definition tells_settings (env : environment R) (d : dtype) (k : nat) (a : arguments R)
    (c : config R) : Prop :=
  [/\ [/\ c_dtype c = d, c_gram c = gram a, c_exponent c = exponent a & c_num_parameters c = k],
      [/\ c_min c = min_num_samples a, c_max c = max_num_samples a,
          c_confidence c = confidence_level a & c_outlier c = outlier_significance_level a],
      [/\ c_degree c = lanczos_degree a, c_orthogonalize c = orthogonalize a,
          or_default (Fin 0) (error_atol a) (c_atol c),
          or_default (Fin 0) (error_rtol a) (c_rtol c)
        & or_default (e_eps env d) (lanczos_tol a) (c_tol c)],
      [/\ c_tot_wall c = e_tot_wall env, c_alg_wall c = e_alg_wall env
        & c_cpu_proc c = e_cpu_proc env]
    & threads_used (e_threads env) (num_threads a) (c_threads c)].

(** The GPU devices that took part: none unless gpu=True; zero stands for all. *)
Definition tells_devices (env : environment R) (a : arguments R) (c : config R) : Prop :=
  forall z, integer_arg (num_gpu_devices a) z ->
  if gpu a is PBool true then
    [/\ integer_arg (c_devices c) (if z == 0 then e_gpus env else z),
        integer_arg (c_multiproc c) (e_multiproc env)
      & integer_arg (c_gpu_threads c) (e_gpu_threads env)]
  else
    [/\ integer_arg (c_devices c) 0, integer_arg (c_multiproc c) 0
      & integer_arg (c_gpu_threads c) 0].

(** The results of inquiry [j]. *)
Definition tells_result (eps : num) (r : report R) (i : info R) (j : nat) : Prop :=
  exists t e rel u o b,
  [/\ [/\ of_inquiry (Many (rp_trace r)) j t, of_inquiry (Many (rp_error r)) j e,
          of_inquiry (Many (rp_used r)) j u, of_inquiry (Many (rp_outliers r)) j o
        & of_inquiry (Many (rp_converged r)) j b],
      [/\ of_inquiry (i_samples_mean i) j t, of_inquiry (i_absolute_error i) j e,
          of_inquiry (i_num_samples_used i) j u, of_inquiry (i_num_outliers i) j o
        & of_inquiry (i_converged i) j b],
      of_inquiry (i_relative_error i) j rel
    & relative eps e t rel].

(** The settings of the Hutchinson method. *)
Definition htells_settings (env : environment R) (a : harguments R) (i : hinfo R) : Prop :=
  [/\ [/\ i_gram i = h_gram a, i_exponent i = h_exponent a, i_assume i = h_assume a
        & forall s d, h_A a = DenseArg s d \/ (exists n m, h_A a = SparseArg n m d) -> i_dtype i = d],
      [/\ i_confidence i = h_confidence a, i_outlier i = h_outlier a,
          i_orthogonalize i = h_orthogonalize a & i_tol i = h_tol a],
      [/\ or_default (Fin 0) (h_atol a) (i_atol i) & or_default (Fin 0) (h_rtol a) (i_rtol i)],
      [/\ i_tot_wall i = e_tot_wall env, i_alg_wall i = e_alg_wall env
        & i_cpu_proc i = e_cpu_proc env]
    & threads_used (e_threads env) (h_threads a) (i_threads i)].

(** The results of the Hutchinson method. *)
Definition htells_result (eps : num) (u : hrun R) (i : hinfo R) : Prop :=
  [/\ i_mean i = u_trace u, i_absolute i = u_error u, relative eps (u_error u) (u_trace u) (i_relative i)
    & [/\ i_used i = u_used u, i_out i = u_outliers u & i_conv i = u_converged u]].

End Spec.
