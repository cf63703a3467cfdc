(** Model of imate/sample_matrices/_kernels.pyx and of the handling of the kernel
    in correlation_matrix.py (374-385, 474-493).

    Arithmetic is exact.  None stands for not-a-number.  The branch of the
    Matern kernel with the Bessel function (_kernels.pyx 142-148) is left
    abstract. *)
Require Import Reals String List.
Import ListNotations.
Local Open Scope R_scope.

(** Values of a double parameter *)
Inductive param := Num (v : R) | Infinity | NaN.

Inductive kernel := Matern | Exponential | SquareExponential | RationalQuadratic.

(** get_kernel, _kernels.pyx 39-63; None: the process is aborted *)
Definition get_kernel (name : string) : option kernel :=
  if string_dec name "matern" then Some Matern
  else if string_dec name "exponential" then Some Exponential
  else if string_dec name "square-exponential" then Some SquareExponential
  else if string_dec name "rational-quadratic" then Some RationalQuadratic
  else None.

(** euclidean_distance, _kernels.pyx 248-255 *)
Fixpoint distance2 (dimension : nat) (point1 point2 : nat -> R) : R :=
  match dimension with
  | O => 0
  | S dim => distance2 dim point1 point2 + (point1 dim - point2 dim) ^ 2
  end.
Definition euclidean_distance (point1 point2 : nat -> R) (scale : R) (dimension : nat) : R :=
  sqrt (distance2 dimension point1 point2) / scale.

Section Kernels.
(** 2^(1-nu)/gamma(nu) * (sqrt(2 nu) x)^nu * kv(nu, sqrt(2 nu) x) *)
Variable bessel : R -> R -> option R.

(** _matern_kernel, _kernels.pyx 127-157 *)
Definition matern_kernel (x : R) (nu : param) : option R :=
  if Req_EM_T x 0 then Some 1
  else match nu with
  | Num nu =>
    if Req_EM_T nu (1/2) then Some (exp (- x))
    else if Req_EM_T nu (3/2) then Some ((1 + sqrt 3 * x) * exp (- sqrt 3 * x))
    else if Req_EM_T nu (5/2) then
      Some ((1 + sqrt 5 * x + 5 / 3 * x ^ 2) * exp (- sqrt 5 * x))
    else if Rlt_dec nu 100 then bessel nu x
    else Some (exp (- (1/2) * x ^ 2))
  | _ => Some (exp (- (1/2) * x ^ 2))   (* every comparison is false *)
  end.

(** _exponential_kernel, _kernels.pyx 164-180 *)
Definition exponential_kernel (x : R) (p : param) : option R := matern_kernel x (Num (1/2)).

(** _square_exponential_kernel, _kernels.pyx 187-196 *)
Definition square_exponential_kernel (x : R) (p : param) : option R := matern_kernel x Infinity.

(** _rational_quadratic_kernel, _kernels.pyx 203-216.  A division by zero and a
    power of a number that is not positive are represented by None. *)
Definition rational_quadratic_kernel (x : R) (p : param) : option R :=
  match p with
  | Num alpha =>
    if Req_EM_T alpha 0 then None
    else let correlation := 1 + x ^ 2 / (2 * alpha) in
      if Req_EM_T alpha 1 then Some correlation
      else if Rlt_dec 0 correlation then Some (Rpower correlation (- alpha)) else None
  | _ => None
  end.

Definition kernel_function (k : kernel) : R -> param -> option R :=
  match k with
  | Matern => matern_kernel
  | Exponential => exponential_kernel
  | SquareExponential => square_exponential_kernel
  | RationalQuadratic => rational_quadratic_kernel
  end.

(** What the loop computes for points i and j,
    _dense_correlation_matrix.pyx 119-125 *)
Definition correlation (k : kernel) (p : param) (coords : nat -> nat -> R)
    (scale : R) (dimension i j : nat) : option R :=
  kernel_function k (euclidean_distance (coords i) (coords j) scale dimension) p.
End Kernels.

Inductive outcome := RaisesValueError | Aborts | Generates (k : kernel) (p : param).

(** correlation_matrix.py 476-477 *)
Definition accepted : list string :=
  ["matern"; "exponential"; "square_exponential"; "rational_quadratic"]%string.

(** correlation_matrix.py 474-493 for a string [kernel] and [kernel_param] that
    is None or a real number: None, or the error *)
Definition check_kernel (kernel : string) (kernel_param : option R) : option outcome :=
  if in_dec string_dec kernel accepted then
    match kernel_param with
    | None => None
    | Some _ =>
      if string_dec kernel "exponental" then Some RaisesValueError
      else if string_dec kernel "square-exponental" then Some RaisesValueError
      else None
    end
  else Some RaisesValueError.

(** correlation_matrix.py 374-419 with _dense_correlation_matrix.pyx 194-196,
    222: the handling of the kernel *)
Definition correlation_matrix (kernel : string) (kernel_param : option R) : outcome :=
  match check_kernel kernel kernel_param with
  | Some e => e
  | None =>
    let kernel_param :=
      match kernel_param with
      | None =>
        if string_dec kernel "matern" then Some (1/2)
        else if string_dec kernel "rational-quadratic" then Some 1 else None
      | Some v => Some v
      end in
    match get_kernel kernel with
    | None => Aborts
    | Some k => Generates k (match kernel_param with Some v => Num v | None => NaN end)
    end
  end.
