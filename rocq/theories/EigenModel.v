(** Model of the eigenvalue methods: imate/{trace,traceinv,trexp,trlinfrac,
    eigencount,density,logdet}/_eigenvalue_method.py.  Line numbers are those of
    the file named; "trace 479-557" is also traceinv 481-559, and the same text
    in trexp, trlinfrac, eigencount and density (492-570).

    Arithmetic is exact over the real and complex numbers.  A result None stands
    for an exception, or for a computation in which a number is not finite
    (division by zero, the logarithm of zero, a negative number to a power that
    is not an integer).  The tolerances of the checks that a result is real are
    the constants of the code. *)
Require Import Reals.
From mathcomp Require Import all_ssreflect all_algebra.
From mathcomp.real_closed Require Import complex.
From Verif Require Import MatSpec RealField.
Set Implicit Arguments.
Unset Strict Implicit.
Unset Printing Implicit Defensive.
Import GRing.Theory Num.Theory.
Local Open Scope ring_scope.

(** The argument which_eigenvalues of the sparse routines *)
Inductive which := LM | SM | BE.

(** The library routines called. *)
Record eig_routines := EigRoutines {
  (** scipy.linalg.eigh(A, eigvals_only=True) *)
  eigh : forall n, 'M[R]_n -> seq R;
  (** scipy.linalg.eig(A)[0] *)
  eig : forall n, 'M[R]_n -> seq R[i];
  (** numpy.linalg.svd(A, compute_uv=False) and scipy.linalg.svdvals(A) *)
  svdvals : forall n m, 'M[R]_(n, m) -> seq R;
  (** scipy.sparse.linalg.eigsh(A, k, which=w, return_eigenvectors=False) *)
  eigsh : forall n, 'M[R]_n -> nat -> which -> seq R;
  (** scipy.sparse.linalg.eigs(A, k, which=w, return_eigenvectors=False) *)
  eigs : forall n, 'M[R]_n -> nat -> which -> seq R[i];
  (** scipy.sparse.linalg.svds(A, k, which=w, return_singular_vectors=False) *)
  svds : forall n m, 'M[R]_(n, m) -> nat -> which -> seq R }.

(** What is assumed of them.  eigh and eigsh are described for symmetric
    matrices only.  The sparse routines return k of the eigenvalues (or singular
    values); with 'LM' the others are not larger in absolute value. *)
Record eig_routines_ok (E : eig_routines) : Prop := EigRoutinesOk {
  eigh_ok : forall n (A : 'M[R]_n), A^T = A -> spectrum A (eigh E A);
  eig_ok : forall n (A : 'M[R]_n), spectrum (map_mx (real_complex R) A) (eig E A);
  svdvals_ok : forall n m (A : 'M[R]_(n, m)),
    [/\ size (svdvals E A) = minn n m, forall x, x \in svdvals E A -> 0 <= x &
      spectrum (A^T *m A) ([seq x ^+ 2 | x <- svdvals E A] ++ nseq (m - minn n m) 0)];
  eigsh_ok : forall n (A : 'M[R]_n) k w, A^T = A -> (0 < k < n)%N ->
    exists rest, [/\ spectrum A (eigsh E A k w ++ rest), size (eigsh E A k w) = k &
      w = LM -> forall x y, x \in eigsh E A k w -> y \in rest -> `|y| <= `|x|];
  eigs_ok : forall n (A : 'M[R]_n) k w, (0 < k < n.-1)%N ->
    exists rest, [/\ spectrum (map_mx (real_complex R) A) (eigs E A k w ++ rest),
      size (eigs E A k w) = k &
      w = LM -> forall x y, x \in eigs E A k w -> y \in rest -> `|y| <= `|x|];
  svds_ok : forall n m (A : 'M[R]_(n, m)) k w, (0 < k < minn n m)%N ->
    exists rest, [/\ spectrum (A^T *m A) ([seq x ^+ 2 | x <- svds E A k w] ++ rest),
      size (svds E A k w) = k, (forall x, x \in svds E A k w -> 0 <= x) &
      w = LM -> forall x y, x \in svds E A k w -> y \in rest -> y <= x ^+ 2] }.

(** int(n*non_zero_eig_fraction) *)
Definition num_none_zero_eig (n : nat) (fraction : R) : nat :=
  Z.to_nat (Int_part (INR n * fraction)).

(** numpy's x**p for real x and p *)
Definition integral (p : R) : bool := p == IZR (Int_part p).
Definition npow (x p : R) : option R :=
  if 0 < x then Some (Rpower x p)
  else if x == 0 then (if 0 < p then Some 0 else if p == 0 then Some 1 else None)
  else if integral p then Some (powerRZ x (Int_part p)) else None.

(** x / y *)
Definition ndiv (x y : R) : option R := if y == 0 then None else Some (x / y).

(** numpy.sum *)
Definition nsum (s : seq (option R)) : option R :=
  foldr (fun x t => obind (fun x => omap (fun t => x + t) t) x) (Some 0) s.

(** eigenvalues[not_nan]; None is not-a-number *)
Definition not_nan T (ev : seq (option T)) : seq T := pmap id ev.

(** The summands, with lam = eigenvalues[not_nan] (real) *)
(** trace 326 *)
Definition f_trace (p lam : R) : option R := npow lam p.
(** traceinv 330 *)
Definition f_traceinv (p lam : R) : option R := obind (ndiv 1) (npow lam p).
(** trexp 310 *)
Definition f_trexp (coeff p lam : R) : option R :=
  omap (fun l => exp (coeff * l)) (npow lam p).
(** trlinfrac 319-324 *)
Definition f_trlinfrac (a b c d p lam : R) : option R :=
  obind (fun l => ndiv (a * l + b) (c * l + d)) (npow lam p).
(** eigencount 322-327 *)
Definition f_eigencount (lambda_min lambda_max p lam : R) : option R :=
  omap (fun l => let indicator := if l < lambda_min then 0 else 1 in
                 if lambda_max < l then 0 else indicator) (npow lam p).
(** density 337-342 *)
Definition f_density (sigma mu p lam : R) : option R :=
  omap (fun l => let x := (l - mu) / sigma in
                 (1 / (Num.sqrt (2%:R * PI) * sigma)) * exp (- (1 / 2%:R) * x ^+ 2))
    (npow lam p).

Definition total (f : R -> option R) (ev : seq (option R)) : option R :=
  nsum [seq f lam | lam <- not_nan ev].

Section Computed.
Variable E : eig_routines.

(** trace 526-553, compute_eigenvalues with gram=False, assume_matrix='sym';
    fraction is None for a dense matrix *)
Definition compute_eigenvalues_sym n (A : 'M[R]_n) (fraction : option R) (w : which) :
    option (seq (option R)) :=
  if fraction is Some fraction then
    let k := num_none_zero_eig n fraction in
    if (0 < k < n)%N then
      let ev := [seq Some x | x <- eigsh E A k w] in
      Some (ev ++ nseq (n - k) None)
    else None
  else Some [seq Some x | x <- eigh E A].

(** trace 495-522, compute_eigenvalues with gram=True *)
Definition compute_eigenvalues_gram n m (A : 'M[R]_(n, m)) (fraction : option R) (w : which) :
    option (seq (option R)) :=
  if fraction is Some fraction then
    let k := num_none_zero_eig n fraction in
    if (0 < k < minn n m)%N then
      let ev := [seq Some (x ^+ 2) | x <- svds E A k w] in
      Some (ev ++ nseq (n - k) None)
    else None
  else Some [seq Some (x ^+ 2) | x <- svdvals E A].

(** trace 303-322: the eigenvalues used, given ones (418-423 checks their
    number) or computed ones *)
Definition eigenvalues_sym n (A : 'M[R]_n) given fraction w : option (seq (option R)) :=
  if given is Some ev then if size ev == n then Some ev else None
  else compute_eigenvalues_sym A fraction w.
Definition eigenvalues_gram n m (A : 'M[R]_(n, m)) given fraction w : option (seq (option R)) :=
  if given is Some ev then
    if size ev == n then Some [seq omap (fun x : R => x ^+ 2) x | x <- ev] else None
  else compute_eigenvalues_gram A fraction w.

(** trace 307-312, trlinfrac 300-305, eigencount 303-308, density 308-313 *)
Definition which_trace (p : R) : which := if 0 <= p then LM else SM.
(** traceinv 308-316 *)
Definition which_traceinv (p : R) : which := if 0 <= p then SM else LM.
(** trexp 291-296 *)
Definition which_trexp (coeff p : R) : which := if 0 <= coeff * p then LM else SM.

Section Methods.
(** The eigenvalues, as a function of which_eigenvalues *)
Variable ev : which -> option (seq (option R)).

(** trace 303-326 *)
Definition trace_eigenvalue (p : R) : option R :=
  obind (total (f_trace p)) (ev (which_trace p)).
(** traceinv 304-330 *)
Definition traceinv_eigenvalue (p : R) : option R :=
  obind (total (f_traceinv p)) (ev (which_traceinv p)).
(** trexp 287-310 *)
Definition trexp_eigenvalue (coeff p : R) : option R :=
  obind (total (f_trexp coeff p)) (ev (which_trexp coeff p)).
(** trlinfrac 296-325 *)
Definition trlinfrac_eigenvalue (a b c d p : R) : option R :=
  obind (total (f_trlinfrac a b c d p)) (ev (which_trace p)).
(** eigencount 299-328 *)
Definition eigencount_eigenvalue (lambda_min lambda_max p : R) : option R :=
  obind (total (f_eigencount lambda_min lambda_max p)) (ev (which_trace p)).

(** The elements of mu: Python integers or floats *)
Inductive number := IntNum of Z | FloatNum of R.
Definition val_of (x : number) : R := match x with IntNum z => IZR z | FloatNum r => r end.
Definition is_int (x : number) : bool := if x is IntNum _ then true else false.

(** density 326-343: numpy.array(mu) has an integer type if all elements are
    integers (and there are any); so has trace_ then, and an assignment to its
    elements truncates towards zero *)
Definition trunc (x : R) : R := if 0 <= x then IZR (Int_part x) else - IZR (Int_part (- x)).
Definition store (mu : seq number) (x : R) : R :=
  if (0 < size mu)%N && all is_int mu then trunc x else x.

(** density 304-343; sigma > 0 is checked (465) *)
Definition density_eigenvalue (sigma : R) (mu : seq number) (p : R) : option (seq R) :=
  if 0 < sigma then
    obind (fun ev =>
      foldr (fun m acc => obind (fun x => omap (cons (store mu x)) acc)
        (total (f_density sigma (val_of m) p) ev)) (Some [::]) mu) (ev (which_trace p))
  else None.
End Methods.

(** trace 542-555, compute_eigenvalues with gram=False, assume_matrix='gen' *)
Definition compute_eigenvalues_gen n (A : 'M[R]_n) (fraction : option R) (w : which) :
    option (seq (option R[i])) :=
  if fraction is Some fraction then
    let k := num_none_zero_eig n fraction in
    if (0 < k < n.-1)%N then
      let ev := [seq Some x | x <- eigs E A k w] in
      Some (ev ++ nseq (n - k) None)
    else None
  else Some [seq Some x | x <- eig E A].

(** trace 303-322 for it *)
Definition eigenvalues_gen n (A : 'M[R]_n) given fraction w : option (seq (option R[i])) :=
  if given is Some ev then if size ev == n then Some ev else None
  else compute_eigenvalues_gen A fraction w.

End Computed.

(** Complex numbers: numpy's z**p for an integer p, z1 / z2, exp and sum *)
Definition cpow (z : R[i]) (p : int) : option R[i] :=
  if (p < 0) && (z == 0) then None else Some (z ^ p).
Definition cdiv (x y : R[i]) : option R[i] := if y == 0 then None else Some (x / y).
Definition cexp (z : R[i]) : R[i] :=
  let: Complex x y := z in Complex (exp x * cos y) (exp x * sin y).
Definition csum (s : seq (option R[i])) : option R[i] :=
  foldr (fun x t => obind (fun x => omap (fun t => x + t) t) x) (Some 0) s.

(** |z| and numpy.angle(z), in (-pi, pi] *)
Definition cabs (z : R[i]) : R := let: Complex x y := z in Num.sqrt (x ^+ 2 + y ^+ 2).
Definition angle (z : R[i]) : R :=
  let: Complex x y := z in
  if z == 0 then 0 else
  if y < 0 then - acos (x / cabs z) else acos (x / cabs z).

(** numpy.mod(x, numpy.pi) *)
Definition mod_pi (x : R) : R := x - PI * IZR (Int_part (x / PI)).

(** trace 329-351: the result if it is real up to a tolerance; sparse tells
    that A is sparse (assume_matrix is 'gen' here) *)
Definition angle_rtol (sparse : bool) : R := if sparse then (1 / 100%:R) else (1 / (10 ^+ 8)).
Definition real_result (sparse : bool) (n : nat) (z : R[i]) : option R :=
  if angle_rtol sparse * n%:R < `|mod_pi `|angle z| | then None else Some (complex.Re z).

Definition ctotal (sparse : bool) (n : nat) (f : R[i] -> option R[i]) (ev : seq (option R[i])) :
    option R :=
  obind (real_result sparse n) (csum [seq f lam | lam <- not_nan ev]).

(** trace 303-351, traceinv 304-355, trexp 287-335, trlinfrac 296-350 with
    complex eigenvalues and an integer p; 1.0 / ... of traceinv *)
Section Complex.
Variable sparse : bool.
Variable n : nat.
Variable ev : which -> option (seq (option R[i])).

Definition trace_eigenvalue_gen (p : int) : option R :=
  obind (ctotal sparse n (fun l => cpow l p)) (ev (if 0 <= p then LM else SM)).
Definition traceinv_eigenvalue_gen (p : int) : option R :=
  obind (ctotal sparse n (fun l => obind (cdiv 1) (cpow l p))) (ev (if 0 <= p then SM else LM)).
Definition trexp_eigenvalue_gen (coeff : R) (p : int) : option R :=
  obind (ctotal sparse n (fun l => omap (fun l => cexp (real_complex R coeff * l)) (cpow l p)))
    (ev (if 0 <= coeff * p%:~R then LM else SM)).
Definition trlinfrac_eigenvalue_gen (a b c d : R) (p : int) : option R :=
  let c' := real_complex R in
  obind (ctotal sparse n (fun l => obind (fun l => cdiv (c' a * l + c' b) (c' c * l + c' d)) (cpow l p)))
    (ev (if 0 <= p then LM else SM)).
End Complex.

(** logdet *)
Section Logdet.
Variable E : eig_routines.

(** logdet 498-563, compute_eigenvalues; the eigenvalues are cast to complex
    numbers in line 319 *)
Definition logdet_eigenvalues (sym : bool) n (A : 'M[R]_n) (fraction : option R) :
    option (seq (option R[i])) :=
  if fraction is Some fraction then
    let k := num_none_zero_eig n fraction in
    if sym then
      if (0 < k < n)%N then
        Some ([seq Some (real_complex R x) | x <- eigsh E A k BE] ++ nseq (n - k) None)
      else None
    else
      let k2 := (k %/ 2)%N in
      if (0 < k2 < n.-1)%N then
        Some ([seq Some x | x <- eigs E A k2 LM ++ eigs E A k2 SM] ++ nseq (n - 2 * k2) None)
      else None
  else Some (if sym then [seq Some (real_complex R x) | x <- eigh E A]
             else [seq Some x | x <- eig E A]).

(** logdet 303-311 and 570-607, compute_singularvalues, squared *)
Definition logdet_singular n m (A : 'M[R]_(n, m)) (fraction : option R) :
    option (seq (option R[i])) :=
  if fraction is Some fraction then
    let k2 := (num_none_zero_eig (minn n m) fraction %/ 2)%N in
    if (0 < k2 < minn n m)%N then
      Some ([seq Some (real_complex R (x ^+ 2)) | x <- svds E A k2 LM ++ svds E A k2 SM] ++
            nseq (minn n m - 2 * k2) None)
    else None
  else Some [seq Some (real_complex R (x ^+ 2)) | x <- svdvals E A].

(** numpy.log of a complex number: the principal logarithm *)
Definition clog (z : R[i]) : option R[i] :=
  if z == 0 then None else Some (Complex (ln (cabs z)) (angle z)).

(** logdet 321-359: tolerances are infinite for a sparse general matrix *)
Definition logdet_real_result (unchecked : bool) (n : nat) (z : R[i]) : option R[i] :=
  let tol := 1 / (10 ^+ 8) in
  let imag := mod_pi (complex.Im z) in
  let imag := if unchecked || (`|imag| < tol) || (`|imag - PI| < tol) then 0 else imag in
  if ~~ unchecked && (tol * n%:R < imag) then None
  else
    let quotient := Z.to_nat (Int_part (`|complex.Im z| / PI + 1 / 2%:R)) in
    if (quotient %/ 2)%N == Z.to_nat (Int_part (INR quotient / 2%:R + 1 / 2%:R)) then
      Some (real_complex R (complex.Re z))
    else Some (Complex (complex.Re z) PI).

(** logdet 314-368; square tells that A is square *)
Definition logdet_of (unchecked gram square : bool) (n : nat) (p : R) (ev : seq (option R[i])) :
    option R[i] :=
  omap (fun z : R[i] => if gram && square then z * 2%:R else z)
    (if p == 0 then Some 0
     else omap (fun z => z * real_complex R p)
       (obind (logdet_real_result unchecked n) (csum [seq clog z | z <- not_nan ev]))).

(** logdet 289-368 for a square matrix; sym is assume_matrix == 'sym' *)
Definition logdet_eigenvalue (sym gram : bool) n (A : 'M[R]_n) given fraction (p : R) :
    option R[i] :=
  let ev := if given is Some ev then if size ev == n then Some ev else None
            else logdet_eigenvalues sym A fraction in
  obind (logdet_of ((fraction != None) && ~~ sym) gram true n p) ev.

(** logdet 289-368 for a matrix that is not square; gram=True (457-458) *)
Definition logdet_eigenvalue_rect (sym : bool) n m (A : 'M[R]_(n, m)) given fraction (p : R) :
    option R[i] :=
  let ev := if given is Some ev then if size ev == n then Some ev else None
            else logdet_singular A fraction in
  obind (logdet_of ((fraction != None) && ~~ sym) true false n p) ev.
End Logdet.
