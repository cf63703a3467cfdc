(** Model of the search for the scale in
    imate/interpolator/_chebyshev_rational_functions_method.py: curvature_integral
    530-622 and initialize_interpolator 648-660.

    Real numbers in place of doubles.  scipy.special.eval_chebyt and eval_chebyu are the
    Chebyshev polynomials by their recurrence; the integral (quad) and the system
    (linear_system, in InterpModel.v) are arguments, and so is the minimiser. *)
Require Import Reals List.
Import ListNotations.
Local Open Scope R_scope.

(** scipy.special.eval_chebyt *)
Fixpoint eval_chebyt (n : nat) (x : R) : R :=
  match n with
  | O => 1
  | S m => match m with O => x | S k => 2 * x * eval_chebyt m x - eval_chebyt k x end
  end.

(** scipy.special.eval_chebyu *)
Fixpoint eval_chebyu (n : nat) (x : R) : R :=
  match n with
  | O => 1
  | S m => match m with O => 2 * x | S k => 2 * x * eval_chebyu m x - eval_chebyu k x end
  end.

(** Lines 550-556, for n >= 1 *)
Definition d1T (n : nat) (x : R) : R := INR n * eval_chebyu (n - 1) x.

(** Lines 562-580, for n >= 1 *)
Definition d2T (n : nat) (x : R) : R :=
  if Req_EM_T x 1 then (INR n ^ 4 - INR n ^ 2) / 3
  else if Req_EM_T x (- 1) then (- 1) ^ n * (INR n ^ 4 - INR n ^ 2) / 3
  else INR n * (INR n * eval_chebyt n x - x * eval_chebyu (n - 1) x) / (x ^ 2 - 1).

(** for j in range(coeff.size): acc += 0.5 * coeff[j] * term(j+1, x) *)
Fixpoint add_terms (term : nat -> R -> R) (x : R) (coeff : list R) (j : nat) (acc : R) : R :=
  match coeff with
  | [] => acc
  | c :: coeff => add_terms term x coeff (S j) (acc + / 2 * c * term (S j) x)
  end.

(** Lines 586-612; the power 2.5 *)
Definition arc_curvature_squared (coeff : list R) (x : R) : R :=
  let d1_poly := add_terms d1T x coeff 0 0 in
  let d2_poly := add_terms d2T x coeff 0 0 in
  d2_poly ^ 2 / Rpower (1 + d1_poly ^ 2) (5 / 2).

(** Numbers and numpy.inf *)
Inductive extended := Finite (x : R) | Inf.

(** Lines 616-622: [solve] is linear_system, which takes the absolute value, [quad] the
    integral over [-1, 1] *)
Definition curvature_integral (solve : R -> list R) (quad : (R -> R) -> R) (scale : R) : extended :=
  if Rlt_dec scale (1 / 100000) then Inf
  else Finite (quad (arc_curvature_squared (solve scale))).

(** Lines 652-657: the scale that is found *)
Definition find_scale (minimize : (R -> extended) -> R -> R) (solve : R -> list R) (quad : (R -> R) -> R) : R :=
  Rabs (minimize (curvature_integral solve quad) 1).

(** interpolate, lines 689-691: the interpolant as a function of x in [-1, 1] *)
Fixpoint interpolant (coeff : list R) (j : nat) (x : R) : R :=
  match coeff with
  | [] => 0
  | c :: coeff => c * / 2 * (1 - eval_chebyt (S j) x) + interpolant coeff (S j) x
  end.
