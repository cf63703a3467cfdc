(** Model of the scalar functions imate/functions/*.cpp and of
    imate/_c_trace_estimator/special_functions.cpp.

    Arithmetic is exact and the functions of the C library (exp, log, tanh,
    pow, sqrt, erf) are the real functions.  The float, double and long double
    versions of a function have the same text up to casts, so there is one
    definition for the three.  None stands for a division by zero or a logarithm
    of a number that is not positive (an infinite or not-a-number result). *)
Require Import Reals.
From Verif Require Import FunSpec.
Local Open Scope R_scope.

Definition divide (x y : R) : option R := if Req_EM_T y 0 then None else Some (x / y).

(** exponential.cpp 55-58 *)
Definition exponential (coeff lambda : R) : R := exp (lambda * coeff).

(** M_SQRT1_2 = 1/sqrt(2) and M_2_SQRTPI = 2/sqrt(pi) of math.h *)
Definition M_SQRT1_2 : R := 1 / sqrt 2.
Definition M_2_SQRTPI : R := 2 / sqrt PI.

(** gaussian.cpp 65-69 *)
Definition gaussian (mu sigma lambda : R) : option R :=
  match divide (lambda - mu) sigma, divide (1/2 * M_SQRT1_2 * M_2_SQRTPI) sigma with
  | Some x, Some c => Some (c * exp (- (1/2) * x * x))
  | _, _ => None
  end.

(** homographic.cpp 63-72 *)
Definition homographic (a b c d lambda : R) : option R :=
  divide (a * lambda + b) (c * lambda + d).

(** identity.cpp 41-44 *)
Definition identity (lambda : R) : R := lambda.

(** indicator.cpp 62-72 *)
Definition indicator (a b lambda : R) : R :=
  if Rlt_dec lambda a then 0 else if Rlt_dec b lambda then 0 else 1.

(** inverse.cpp 41-44 *)
Definition inverse (lambda : R) : option R := divide 1 lambda.

(** logarithm.cpp 42-45 *)
Definition logarithm (lambda : R) : option R :=
  if Rlt_dec 0 lambda then Some (ln lambda) else None.

(** power.cpp 27-30, 55-58: the exponent is 2.0 (pow with an integer exponent
    is defined for all arguments) *)
Definition power (lambda : R) : R := powerRZ lambda 2.

(** smoothstep.cpp 55-58 *)
Definition smoothstep (alpha lambda : R) : R := 1/2 * (1 + tanh (alpha * lambda)).

(** special_functions.cpp 34-37 *)
Definition sign (x : R) : R :=
  (if Rlt_dec 0 x then 1 else 0) - (if Rlt_dec x 0 then 1 else 0).

(** Results of erf_inv *)
Inductive ext := Finite (x : R) | PosInf | NegInf.

(** special_functions.cpp 75-94: the first guess for z in [0, 1) *)
Definition guess (z : R) : R :=
  if Rle_dec z 0.7 then
    let x2 := z * z in
    z * (((-0.140543331 * x2 + 0.914624893) * x2 + -1.645349621) * x2 + 0.886226899)
    / ((((0.012229801 * x2 + -0.329097515) * x2 + 1.442710462) * x2 + -2.118377725) * x2 + 1)
  else
    let y := sqrt (- ln ((1 - z) / 2)) in
    (((1.641345311 * y + 3.429567803) * y + -1.62490649) * y + -1.970840454)
    / ((1.6370678 * y + 3.5438892) * y + 1).

(** special_functions.cpp 101 *)
Definition newton_step (z r : R) : R :=
  r - (erf r - z) / (2 / sqrt PI * exp (- r * r)).

(** special_functions.cpp 63-104; sign(x)*INFINITY for x = 1 and x = -1 *)
Definition erf_inv (x : R) : ext :=
  if Req_EM_T x 1 then PosInf
  else if Req_EM_T x (-1) then NegInf
  else
    let z := sign x * x in
    let r := guess z in
    let r := r * sign x in
    let z := z * sign x in
    let r := newton_step z r in
    let r := newton_step z r in
    Finite r.
