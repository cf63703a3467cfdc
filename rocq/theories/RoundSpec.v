(** Notions for the statements about rounding: what a rounding function is,
    how far a computed number may be from the exact one, and the sums of
    absolute values to which rounding errors are relative.  Nothing here models
    code. *)
From mathcomp Require Import all_ssreflect all_algebra.
Set Implicit Arguments.
Unset Strict Implicit.
Unset Printing Implicit Defensive.
Import GRing.Theory Num.Theory.
Local Open Scope ring_scope.

Section Spec.
Variable F : realDomainType.
Implicit Types (u ul eta etal P h s v w bmax : F).

(** [fl] rounds with relative error at most u, plus an absolute error of at most
    eta where the result underflows.  IEEE arithmetic with p bits of precision,
    rounding to nearest, has u = 2^-p, and eta = half the smallest positive
    number. *)
Definition rounds (fl : F -> F) u eta : Prop :=
  [/\ 0 <= u, 0 <= eta & forall x, `|fl x - x| <= u * `|x| + eta].

(** The computed number [w] is near the exact one [v]: up to a factor P of
    growth on a number of magnitude s, and h for underflow. *)
Definition within P h s v w : Prop := `|w - v| <= (P - 1) * s + P * h.

(** Absolute values of the entries. *)
Definition absmx m n (M : 'M[F]_(m, n)) : 'M[F]_(m, n) := \matrix_(i, j) `|M i j|.
Definition absarray (a : seq F) : seq F := [seq `|x| | x <- a].

(** The run ended without an access outside the arrays, entry i < n of the
    output array is near [v i], and the size and the other entries of the
    output array [c] did not change. *)
Definition writes_within n (c : seq F) (P h : nat -> F) (s v : 'cV[F]_n)
    (result : option (seq F)) : Prop :=
  exists c', [/\ result = Some c', size c' = size c,
    forall i : 'I_n, within (P i) (h i) (s i 0) (v i 0) c'`_i &
    forall k, (n <= k)%N -> c'`_k = c`_k].

(** Sums of n products with a long double accumulator: at most six roundings to
    DataType (relative error u) touch a product, and one to long double (ul)
    for every addition to the accumulator. *)
Definition unrolled_growth u ul (n : nat) : F := (1 + u) ^+ 6 * (1 + ul) ^+ (n %/ 5 + n %% 5).
Definition unrolled_slack eta etal (n : nat) : F :=
  (n + 4 * (n %/ 5) + 1)%:R * eta + (n %/ 5 + n %% 5)%:R * etal.
Definition plain_growth u ul (n : nat) : F := (1 + u) ^+ 2 * (1 + ul) ^+ n.
Definition plain_slack eta etal (n : nat) : F := (n + 1)%:R * eta + n%:R * etal.

(** Entries stored in line i of a compressed matrix, and entries of the first
    [lines] lines whose position is k. *)
Definition line_length (ptr : seq nat) (i : nat) : nat := (nth 0 ptr i.+1 - nth 0 ptr i)%N.
Definition entries_at (lines : nat) (idx ptr : seq nat) (k : nat) : nat :=
  (\sum_(0 <= i < lines) \sum_(nth 0 ptr i <= q < nth 0 ptr i.+1 | nth 0 idx q == k) 1)%N.

(** The factors and slacks for a dense line of n products, with and without the
    unrolled loop, and for line i of a compressed matrix. *)
Definition dense_growth u ul (n : nat) (unrolled : bool) : F :=
  if unrolled then unrolled_growth u ul n else plain_growth u ul n.
Definition dense_slack eta etal (n : nat) (unrolled : bool) : F :=
  if unrolled then unrolled_slack eta etal n else plain_slack eta etal n.
Definition line_growth u ul (ptr : seq nat) (i : nat) : F := plain_growth u ul (line_length ptr i).
Definition line_slack eta etal (ptr : seq nat) (i : nat) : F := plain_slack eta etal (line_length ptr i).

(** The same where the product with alpha is a long double. *)
Definition long_growth u ul (ptr : seq nat) (i : nat) : F :=
  (1 + u) ^+ 3 * (1 + ul) ^+ (line_length ptr i).+1.
Definition long_slack eta etal (ptr : seq nat) (i : nat) (alpha : F) : F :=
  `|alpha| * ((line_length ptr i)%:R * (eta + etal)) + 2%:R * eta + etal.

(** The factors and slacks for position k where every product is added to the
    output array, of type DataType; [bmax] bounds the vector. *)
Definition scatter_growth u (lines : nat) (idx ptr : seq nat) (k : nat) : F :=
  (1 + u) ^+ (1 + entries_at lines idx ptr k).
Definition scatter_slack eta (lines : nat) (idx ptr : seq nat) (k : nat) : F :=
  (entries_at lines idx ptr k)%:R * (2%:R * eta).
Definition scatter_plus_growth u (lines : nat) (idx ptr : seq nat) (k : nat) : F :=
  (1 + u) ^+ (2 + entries_at lines idx ptr k).
Definition scatter_plus_slack eta bmax (lines : nat) (idx ptr : seq nat) (k : nat) : F :=
  (entries_at lines idx ptr k)%:R * ((bmax + 2%:R) * eta).

(** [fl] does not change the integers up to M in absolute value. *)
Definition keeps_integers (fl : F -> F) (M : nat) : Prop :=
  forall z : int, (absz z <= M)%N -> fl z%:~R = z%:~R.

(** An array of integers. *)
Definition integers (a : seq F) : Prop := forall k, exists z : int, a`_k = z%:~R.

End Spec.

Section Norms.
Variable F : rcfType.
Implicit Types (u ul uq eta etal etaq : F).

(** Length of the vector of the first n entries. *)
Definition length (n : nat) (x : seq F) : F := Num.sqrt (\sum_(i < n) x`_i ^+ 2).

(** The factor and slack for the norm of n entries; uq and etaq are those of the
    type in which the square root is computed. *)
Definition norm_growth u ul uq (n : nat) : F := unrolled_growth u ul n * (1 + uq) ^+ 2 * (1 + u).
Definition norm_slack u ul uq eta etal etaq (n : nat) : F :=
  (1 + u) * ((1 + uq) * Num.sqrt (unrolled_growth u ul n * (1 + uq) * (unrolled_slack eta etal n + etaq))
             + etaq) + eta.

End Norms.
