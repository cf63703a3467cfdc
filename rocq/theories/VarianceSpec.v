(** Means over all vectors of signs, and how far quadratic forms are from the
    trace. *)
From mathcomp Require Import all_ssreflect all_algebra.
Set Implicit Arguments.
Unset Strict Implicit.
Unset Printing Implicit Defensive.
Import GRing.Theory Num.Theory.
Local Open Scope ring_scope.

Section Spec.
Variable R : rcfType.

(** The mean of a function on a finite set *)
Definition average (T : finType) (f : T -> R) : R := (#|T|)%:R^-1 * \sum_x f x.

(** The sum of F i j (F i j + F j i) over i <> j: for a symmetric matrix twice
    the sum of the squares of the entries that are not on the diagonal *)
Definition spread n (F : 'M[R]_n) : R := \sum_i \sum_(j | j != i) F i j * (F i j + F j i).

(** K independent draws from T, and the mean of a function of them *)
Definition draws (K : nat) (T : finType) := {ffun 'I_K -> T}.
Definition sample_mean K (T : finType) (f : T -> R) (S : draws K T) : R := K%:R^-1 * \sum_k f (S k).
(** What C76 says of samples taken at the vectors of signs: the squared distance
    of a sample from tr(F) has mean spread(F); that of the mean of K samples has
    mean spread(F) / K; and at most the share spread(F) / (K e^2) of all choices
    of K vectors gives a mean that is e or more from tr(F). *)
Definition concentrated n (F : 'M[R]_n) (sample : n.-tuple bool -> R) : Prop :=
  average sample = \tr F /\
  average (fun s => (sample s - \tr F) ^+ 2) = spread F /\
  (forall K, (0 < K)%N ->
     average (fun S : draws K [finType of n.-tuple bool] => (sample_mean sample S - \tr F) ^+ 2) = spread F / K%:R) /\
  (forall K e, (0 < K)%N -> 0 < e ->
     (#|[set S : draws K [finType of n.-tuple bool] | e <= `|sample_mean sample S - \tr F|]|)%:R <=
     (#|{: draws K [finType of n.-tuple bool]}|)%:R * (spread F / (K%:R * e ^+ 2))).
End Spec.
