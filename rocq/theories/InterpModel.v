(** Model of the interpolators of imate/interpolator: the base class
    _interpolant_base.py and the classes behind kind='ext', 'mbf', 'imbf',
    'rpf', 'crf', 'spl' and 'rbf'.

    - Exact arithmetic.  [Raise NotFinite] stands for an infinity or a
      not-a-number (division by zero, root of a negative number).
    - The argument ti is a list.
    - Printing is left out, and so is the search for the scale of 'crf' (a
      numerical minimisation): [crf] takes the scale, whatever was found.
    - Routines of numpy and scipy are parameters: see [interpolating],
      [needs_increasing] and [finds_poles] for what is assumed of them. *)
Require Import Reals.
From mathcomp Require Import all_ssreflect all_algebra.
From Verif Require Import RealField.
Set Implicit Arguments.
Unset Strict Implicit.
Unset Printing Implicit Defensive.
Import Order.TTheory GRing.Theory Num.Theory.

(** imate/interpolator/_inverse_monomial_basis_functions_method.py: the three
    bases, and 682-692, 706-717: the matrix a of
    orthogonal_basis_function_coefficients, whose rows are filled up with zeros *)
Inductive basis_type := NonOrtho | Ortho | Ortho2.


Section Tables.
Local Open Scope Z_scope.
Definition table (b : basis_type) : seq (seq Z) :=
  match b with
  | Ortho =>
     [:: [:: 1];
          [:: 4; -3];
          [:: 9; -18; 10];
          [:: 16; -60; 80; -35];
          [:: 25; -150; 350; -350; 126];
          [:: 36; -315; 1120; -1890; 1512; -462];
          [:: 49; -588; 2940; -7350; 9702; -6468; 1716];
          [:: 64; -1008; 6720; -23100; 44352; -48048; 27456; -6435];
          [:: 81; -1620; 13860; -62370; 162162; -252252; 231660; -115830; 24310]]
  | Ortho2 =>
     [:: [:: 1];
          [:: 6; -5];
          [:: 20; -40; 21];
          [:: 50; -175; 210; -84];
          [:: 105; -560; 1134; -1008; 330];
          [:: 196; -1470; 4410; -6468; 4620; -1287];
          [:: 336; -3360; 13860; -29568; 34320; -20592; 5005];
          [:: 540; -6930; 37422; -108108; 180180; -173745; 90090; -19448];
          [:: 825; -13200; 90090; -336336; 750750; -1029600; 850850; -388960; 75582]]
  | NonOrtho => [::]
  end.
End Tables.

Local Open Scope ring_scope.
Bind Scope ring_scope with R.

Inductive exn := ValueError | TypeError | IndexError | LinAlgError | NotFinite.
Inductive res (T : Type) := Ok of T | Raise of exn.
Arguments Ok {T}. Arguments Raise {T}.

Definition bind T U (r : res T) (k : T -> res U) : res U :=
  match r with Ok x => k x | Raise e => Raise e end.
Notation "'let*' x := r 'in' k" := (bind r (fun x => k))
  (at level 200, x name, r at level 100, k at level 200).

(** A value that cannot be computed if b holds *)
Definition guard T (b : bool) (e : exn) (x : T) : res T := if b then Raise e else Ok x.

Fixpoint mapM T U (f : T -> res U) (s : seq T) : res (seq U) :=
  match s with
  | [::] => Ok [::]
  | x :: s' => let* y := f x in let* ys := mapM f s' in Ok (y :: ys)
  end.

(** numpy.linalg.solve and the product with numpy.linalg.inv: a singular matrix
    is an error *)
Definition solve q (C : 'M[R]_q) (b : 'cV[R]_q) : res 'cV[R]_q :=
  if C \in unitmx then Ok (invmx C *m b) else Raise LinAlgError.

(** ** _interpolant_base.py *)

(** The attributes t_i, tau0, tau_i, schatten_B and scale_t *)
Record points := Points {
  t_i : seq R; tau0 : R; tau_i : seq R; schatten_B : R; scale_t : R }.

(** 180-198, find_scale_ti *)
Definition find_scale (ti : seq R) : R :=
  if ti is t :: s then
    let m := foldl Num.max t s in if 1 < m then m else 1
  else 1.

Section Base.
(** [sch M] is schatten(M, p=self.p, **self.options), 140-149 *)
Variables (n : nat) (sch : 'M[R]_n -> res R).
Variables (A : 'M[R]_n) (B : option 'M[R]_n).

(** 90-102 *)
Definition matrix_B : 'M[R]_n := if B is Some B' then B' else 1%:M.

(** 204-231, eval and _compute *)
Definition eval (t : R) : res R := sch (A + t *: matrix_B).

(** 155-174: schatten_A, schatten_B; the quotient is tau0 *)
Definition norm_B : res R := if B is Some B' then sch B' else Ok 1.

(** 118-134 *)
Definition base (ti : seq R) : res points :=
  let* sA := sch A in
  let* sB := norm_B in
  let* tau0 := guard (sB == 0) NotFinite (sA / sB) in
  let* schatten_i := mapM eval ti in
  Ok (Points ti tau0 [seq s / sB | s <- schatten_i] sB (find_scale ti)).

(** ** _exact_method.py *)
Definition ext : res (R -> res R) := Ok eval.

(** ** _monomial_basis_functions_method.py *)

(** 433-453 *)
Definition mbf_interpolate (P : points) (t1 tau1 : R) (t : R) : res R :=
  let* r := guard (t1 == 0) NotFinite
              (t ^+ 2 + (tau1 ^+ 2 - tau0 P ^+ 2 - t1 ^+ 2) * (t / t1) + tau0 P ^+ 2) in
  let* tau := guard (r < 0) NotFinite (Num.sqrt r) in
  Ok (tau * schatten_B P).

(** 369-426 *)
Definition mbf (ti : seq R) : res (R -> res R) :=
  let* P := base ti in
  let* t1 := match ti with
             | [::] => guard (tau0 P == 0) NotFinite (1 / tau0 P)
             | [:: t] => Ok t
             | _ => Raise TypeError
             end in
  let* schatten_1 := eval t1 in
  Ok (mbf_interpolate P t1 (schatten_1 / schatten_B P)).

(** ** _inverse_monomial_basis_functions_method.py *)

(** 534-549: t**(1/i) for t >= 0 (the callers refuse a negative t) *)
Definition phi (i : nat) (t : R) : R := if 0 < t then Rpower t (1 / i%:R) else 0.

(** 667-680, 695-704, orthogonal_basis_function_coefficients: the vector alpha *)
Definition num_basis : nat := 9.
Definition root (k : nat) : R := Num.sqrt (2%:R / k%:R).
Definition alpha (b : basis_type) : seq R :=
  match b with
  | Ortho => [:: root 1; - root 2; root 3; - root 4; root 5; - root 6; root 7; - root 8; root 9]
  | Ortho2 => [:: root 2; - root 3; root 4; - root 5; root 6; - root 7; root 8; - root 9; root 10]
  | NonOrtho => [::]
  end.
Definition coef_a (b : basis_type) (j i : nat) : R := IZR (nth Z0 (nth [::] (table b) j) i).

(** 555-625, basis_functions for an index below [num_basis] (the callers refuse
    a larger one) *)
Definition basis (b : basis_type) (j : nat) (t : R) : R :=
  match b with
  | NonOrtho => phi j.+2 t
  | Ortho => \sum_(i < num_basis) (alpha b)`_j * coef_a b j i * phi i.+1 t
  | Ortho2 => \sum_(i < num_basis) (alpha b)`_j * coef_a b j i * phi i.+2 t
  end.

(** 725-783 *)
Definition imbf_interpolate (b : basis_type) (P : points) q (w : 'cV[R]_q) (t : R) : res R :=
  let s := if b is NonOrtho then 1 else scale_t P in
  let S := \sum_(j < q) w j 0 * basis b j (t / s) in
  let tau := if b is Ortho then tau0 P + S else tau0 P + S + t in
  guard (t < 0) NotFinite (tau * schatten_B P).

(** 476-479, 504-507: the percent sign formats the last piece of the message
    only, which has no place for a number, so the error raised is a TypeError *)
Definition imbf_check (b : basis_type) (q : nat) : res unit :=
  match b with
  | NonOrtho => Ok tt
  | _ => guard (num_basis < q)%N TypeError tt
  end.

(** 421-526 *)
Definition imbf (b : basis_type) (ti : seq R) : res (R -> res R) :=
  if ti is [::] then Raise ValueError else
  let* P := base ti in
  let q := size ti in
  let* _ := imbf_check b q in
  let* _ := guard (has (fun t => t < 0) ti) NotFinite tt in
  match b with
  | NonOrtho =>
      let* w := solve (\matrix_(i < q, j < q) basis b j ti`_i)
                      (\col_(i < q) ((tau_i P)`_i - tau0 P - ti`_i)) in
      Ok (imbf_interpolate b P w)
  | Ortho =>
      (* 487: basis_functions(q, ...) *)
      let* _ := guard (num_basis <= q)%N IndexError tt in
      let* w := solve (\matrix_(i < q.+1, j < q.+1)
                         if (i < q)%N then basis b j (ti`_i / scale_t P)
                         else (alpha b)`_j * coef_a b j 0)
                      (\col_(i < q.+1) if (i < q)%N then (tau_i P)`_i - tau0 P else 1) in
      Ok (imbf_interpolate b P w)
  | Ortho2 =>
      let* w := solve (\matrix_(i < q, j < q) basis b j (ti`_i / scale_t P))
                      (\col_(i < q) ((tau_i P)`_i - tau0 P - ti`_i)) in
      Ok (imbf_interpolate b P w)
  end.

(** ** _rational_polynomial_functions_method.py *)

(** numpy.polyval: the leading coefficient comes first *)
Definition polyval (p : seq R) (t : R) : R := foldl (fun acc c => acc * t + c) 0 p.

(** numpy.any(numpy.roots(denominator) > 0) *)
Variable positive_pole : seq R -> bool.
Definition finds_poles : Prop :=
  forall (d : seq R) (t : R), 0 < t -> polyval d t = 0 -> positive_pole d.

(** 414-424: entry (i, j) of the matrix, 0 <= j < 2 q, and the right-hand side *)
Definition rpf_entry (q : nat) (tau0 ti taui : R) (j : nat) : R :=
  if j == 0%N then 1 - taui / tau0
  else if (j <= q)%N then ti ^+ j
  else - taui * ti ^+ (j - q).
Definition rpf_rhs (q : nat) (ti taui : R) : R := taui * ti ^+ q - ti ^+ q.+1.

(** 382-449 *)
Definition fit_rational_poly (P : points) : res (seq R * seq R) :=
  let m := size (t_i P) in
  let q := (m %/ 2)%N in
  let* _ := guard (odd m) ValueError tt in
  let* _ := guard (tau0 P == 0) NotFinite tt in
  let* x := solve (\matrix_(i < m, j < m) rpf_entry q (tau0 P) (t_i P)`_i (tau_i P)`_i j)
                  (\col_(i < m) rpf_rhs q (t_i P)`_i (tau_i P)`_i) in
  let x := [seq x j 0 | j <- enum 'I_m] in
  let b := take q.+1 x in
  let a := b`_0 / tau0 P :: drop q.+1 x in
  let numerator := 1 :: rev b in
  let denominator := 1 :: rev a in
  guard (positive_pole denominator) ValueError (numerator, denominator).

(** 361-376, 455-515 *)
Definition rpf (ti : seq R) : res (R -> res R) :=
  if ti is [::] then Raise ValueError else
  let* P := base ti in
  let* nd := fit_rational_poly P in
  Ok (fun t =>
    let* tau := guard (polyval nd.2 t == 0) NotFinite (polyval nd.1 t / polyval nd.2 t) in
    Ok (tau * schatten_B P)).

(** ** _chebyshev_rational_functions_method.py and _spline_method.py *)

Inductive func_type := Type1 | Type2.

(** The data: _chebyshev 636-641, _spline 398-403 *)
Definition ratio (ft : func_type) (tau0 t tau : R) : res R :=
  match ft with
  | Type1 => guard (tau0 + t == 0) NotFinite (tau / (tau0 + t) - 1)
  | Type2 => guard (t == 0) NotFinite ((tau - tau0) / t - 1)
  end.
(** _chebyshev 693-698, _spline 442-447 *)
Definition unratio (ft : func_type) (tau0 t y : R) : R :=
  match ft with
  | Type1 => (y + 1) * (tau0 + t)
  | Type2 => (y + 1) * t + tau0
  end.
(** _chebyshev 508-509, 686-687, _spline 405, 439 (with s = 1) *)
Definition to_interval (s t : R) : res R :=
  let* t' := guard (s == 0) NotFinite (t / s) in
  guard (t' + 1 == 0) NotFinite ((t' - 1) / (t' + 1)).

Definition ratios (ft : func_type) (P : points) : res (seq R) :=
  mapM (fun u => ratio ft (tau0 P) u.1 u.2) (zip (t_i P) (tau_i P)).

(** scipy.special.eval_chebyt(k, x) *)
Fixpoint cheb_pair (k : nat) (x : R) : R * R :=
  if k is k'.+1 then let: (a, b) := cheb_pair k' x in (b, 2%:R * x * b - a) else (1, x).
Definition eval_chebyt (k : nat) (x : R) : R := (cheb_pair k x).1.

Definition cheb_basis (j : nat) (x : R) : R := 2%:R^-1 * (1 - eval_chebyt j.+1 x).

(** 496-524: the coefficients, as a function of their index, and their number *)
Definition linear_system (ft : func_type) (scale : R) (ti yi : seq R) : res (nat * (nat -> R)) :=
  let* xi := mapM (to_interval `|scale|) ti in
  let xi := if ft is Type1 then -1 :: xi else xi in
  let yi := if ft is Type1 then 0 :: yi else yi in
  let m := size xi in
  let* c := solve (\matrix_(i < m, j < m) cheb_basis j xi`_i) (\col_(i < m) yi`_i) in
  Ok (m, fun j => if insub j is Some j' then c j' 0 else 0).

(** 670-706 *)
Definition crf_interpolate (ft : func_type) (P : points) (scale : R) (c : nat * (nat -> R)) (t : R) : res R :=
  let* x := to_interval scale t in
  let y := \sum_(j < c.1) c.2 j * cheb_basis j x in
  Ok (unratio ft (tau0 P) t y * schatten_B P).

(** 435-464, 628-660 *)
Definition crf (ft : func_type) (scale : R) (ti : seq R) : res (R -> res R) :=
  if ti is [::] then Raise ValueError else
  let* P := base ti in
  let* yi := ratios ft P in
  let* c := linear_system ft scale ti yi in
  Ok (crf_interpolate ft P scale c).

(** scipy.interpolate.CubicSpline and Rbf: a function through the points, or an
    error *)
Variables cubic_spline rbf_gaussian : seq R -> seq R -> res (R -> R).
Definition interpolating (fit : seq R -> seq R -> res (R -> R)) : Prop :=
  forall xi yi s, fit xi yi = Ok s -> size xi = size yi ->
    forall k, (k < size xi)%N -> s xi`_k = yi`_k.
Definition needs_increasing (fit : seq R -> seq R -> res (R -> R)) : Prop :=
  forall xi yi, size xi = size yi ->
    (exists s, fit xi yi = Ok s) <-> (1 < size xi)%N /\ sorted <%R xi.

Definition accepts_distinct (fit : seq R -> seq R -> res (R -> R)) : Prop :=
  forall xi yi, size xi = size yi -> uniq xi -> exists s, fit xi yi = Ok s.

(** _spline_method.py 366-450 *)
Definition spl (ft : func_type) (ti : seq R) : res (R -> res R) :=
  if ti is [::] then Raise ValueError else
  let* P := base ti in
  let* yi := ratios ft P in
  let* xi := mapM (to_interval 1) ti in
  let xi := if ft is Type1 then -1 :: rcons xi 1 else rcons xi 1 in
  let yi := if ft is Type1 then 0 :: rcons yi 0 else rcons yi 0 in
  let* s := cubic_spline xi yi in
  Ok (fun t =>
    let* x := to_interval 1 t in
    Ok (unratio ft (tau0 P) t (s x) * schatten_B P)).

(** ** _radial_basis_functions_method.py *)

(** numpy.log10; the logarithm of 0 is -infinity, here None *)
Definition log10 (t : R) : res (option R) :=
  guard (t < 0) NotFinite (if t == 0 then None else Some (Rdiv (ln t) (ln (IZR 10)))).
Definition log10_pos (t : R) : res R :=
  guard (t <= 0) NotFinite (Rdiv (ln t) (ln (IZR 10))).

(** 412-415: the mean of the differences is the last minus the first, over
    their number *)
Definition mean_step (xi : seq R) : R :=
  if (1 < size xi)%N then (last 0 xi - head 0 xi) / (size xi).-1%:R else 1.

Definition least (xi : seq R) : R := foldl Num.min (head 0 xi) xi.
Definition largest (xi : seq R) : R := foldl Num.max (head 0 xi) xi.

(** 428-436 *)
Definition low_threshold (xi : seq R) : R :=
  let low := - (9%:R / 2%:R) in if least xi <= low then least xi - mean_step xi else low.
Definition high_threshold (xi : seq R) : R :=
  let high := 7%:R / 2%:R in if high <= largest xi then largest xi + mean_step xi else high.

(** numpy.linspace(a, b, 3) *)
Definition linspace3 (a b : R) : seq R := [:: a; (a + b) / 2%:R; b].

(** 377-465, 495-525 *)
Definition rbf (ft : func_type) (ti : seq R) : res (R -> res R) :=
  if ti is [::] then Raise ValueError else
  let* P := base ti in
  let* xi := mapM log10_pos ti in
  let low := low_threshold xi in
  let high := high_threshold xi in
  let d := mean_step xi in
  let* yi := mapM (fun u => match ft with
                    | Type1 => Ok (u.2 - tau0 P - u.1)
                    | Type2 => ratio Type1 (tau0 P) u.1 u.2 end) (zip (t_i P) (tau_i P)) in
  let* s := match ft with
            | Type1 => cubic_spline xi yi
            | Type2 => rbf_gaussian (linspace3 (low - d) low ++ xi ++ linspace3 high (high + d))
                                    (nseq 3 0 ++ yi ++ nseq 3 0)
            end in
  Ok (fun t =>
    let* x := log10 t in
    let y := if x is Some x' then if (x' < low) || (high < x') then 0 else s x' else 0 in
    let tau := match ft with
               | Type1 => y + tau0 P + t
               | Type2 => (y + 1) * (tau0 P + t)
               end in
    Ok (tau * schatten_B P)).
End Base.
