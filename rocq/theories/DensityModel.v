(** Model of the estimates of imate/sample_matrices/_sparse_correlation_matrix.pyx:
    _ball_radius (253-284), _estimate_kernel_threshold (291-404) and
    _estimate_max_nnz (411-445).  Arithmetic is exact; the dimension and the matrix
    size are positive integers, density and scale finite numbers. *)
Require Import Reals ZArith.
From Verif Require Import CorrKernelModel.
Local Open Scope R_scope.

(** Lines 269-273: k runs over the whole numbers from dimension / 2 down to 1 *)
Fixpoint even_loop (k : nat) (gamma : R) : R :=
  match k with O => gamma | S k' => even_loop k' (gamma * INR k) end.

(** Lines 275-279: k runs over the whole numbers from ceil(dimension / 2) down to 1 *)
Fixpoint odd_loop (k : nat) (gamma : R) : R :=
  match k with O => gamma | S k' => odd_loop k' (gamma * (INR k - 1 / 2)) end.

(** Lines 267-279 *)
Definition ball_gamma (dimension : nat) : R :=
  if Nat.even dimension then even_loop (Nat.div2 dimension) 1
  else odd_loop (Nat.div2 (S dimension)) (sqrt PI).

(** Line 282; the volume is positive in both calls *)
Definition ball_radius (volume : R) (dimension : nat) : R :=
  Rpower (ball_gamma dimension * volume) (1 / INR dimension) / sqrt PI.

Inductive estimate (T : Type) := ValueError | ZeroDivisionError | Estimate (x : T).
Arguments ValueError {T}.
Arguments ZeroDivisionError {T}.
Arguments Estimate {T} x.

(** Lines 371-395 *)
Definition kernel_radius (matrix_size dimension : nat) (density : R) : estimate R :=
  let adjacency_volume := density * INR matrix_size in
  if Rlt_dec adjacency_volume 1 then ValueError
  else
    let adjacency_radius := ball_radius adjacency_volume dimension in
    let grid_axis_num_points := Rpower (INR matrix_size) (1 / INR dimension) in
    if Req_EM_T (grid_axis_num_points - 1) 0 then ZeroDivisionError
    else
      let grid_size := 1 / (grid_axis_num_points - 1) in
      Estimate (grid_size * adjacency_radius).

(** Lines 397-404 for the kernel chosen by get_kernel; None: not-a-number *)
Definition estimate_kernel_threshold (bessel : R -> R -> option R) (matrix_size dimension : nat)
    (density scale : R) (k : kernel) (p : param) : estimate (option R) :=
  match kernel_radius matrix_size dimension density with
  | ValueError => ValueError
  | ZeroDivisionError => ZeroDivisionError
  | Estimate r => Estimate (kernel_function bessel k (r / scale) p)
  end.

(** numpy.ceil *)
Definition ceil (x : R) : Z := (- Int_part (- x))%Z.

(** Lines 439-445 *)
Definition estimate_max_nnz (matrix_size dimension : nat) (density : R) : Z :=
  let estimated_nnz := ceil (density * INR matrix_size ^ 2) in
  let safty_coeff := 1 / ball_radius 1 dimension in
  ceil (safty_coeff * IZR estimated_nnz).
