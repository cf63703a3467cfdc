(** * Specification of a run of the stochastic Lanczos quadrature

    [X i j] is the i-th sample of inquiry j. *)
From Coq Require Import ZArith NArith.
From mathcomp Require Import all_ssreflect all_algebra.
From Verif Require Import ConvModel ConvSpec RngModel SlqRunModel.
From Verif Require PropRng.

Set Implicit Arguments.
Unset Strict Implicit.
Unset Printing Implicit Defensive.

Import GRing.Theory Num.Theory.
Local Open Scope ring_scope.

Section Spec.
Variable R : rcfType.
Variables (z atol rtol : R) (mn mx q : nat) (X : nat -> nat -> R).

(** The first k samples of inquiry j. *)
Definition first_samples (j k : nat) : seq R := [seq X i j | i <- iota 0 k].

(** The documented criterion for inquiry j after k samples: the minimum number
    of samples is reached, there are two of them, and the half width of the
    confidence interval is below the larger tolerance. *)
Definition satisfied (j k : nat) : bool :=
  [&& (mn <= k)%N, (1 < k)%N &
      half_width z (first_samples j k) <
      Num.max atol (rtol * mean (first_samples j k))].

(** K is the first moment at which inquiry j satisfies the criterion, or the
    maximum number of samples. *)
Definition stops_at (j K : nat) : Prop :=
  [/\ (0 < K <= mx)%N, forall k, (0 < k < K)%N -> ~~ satisfied j k &
      satisfied j K \/ K = mx].

(** The same for the first moment at which all inquiries satisfy it. *)
Definition stops_together (K : nat) : Prop :=
  [/\ (0 < K <= mx)%N,
      forall k, (0 < k < K)%N -> exists2 j, (j < q)%N & ~~ satisfied j k &
      (forall j, (j < q)%N -> satisfied j K) \/ K = mx].

(** What the caller reads for one inquiry whose samples are [xs]: the mean of
    the samples kept by the outlier test, the half width of its confidence
    interval, the number of samples discarded. *)
Definition summary (zo : R) (xs : seq R) (trace error : num R) (outliers : nat) : Prop :=
  [/\ (1 < size xs)%N -> inliers zo xs != [::] ->
        trace = Fin (mean (inliers zo xs)) /\ (outliers + size (inliers zo xs) = size xs)%N,
      (1 < size (inliers zo xs))%N -> error = Fin (half_width z (inliers zo xs)) &
      forall x, xs = [:: x] -> 0 < z -> 0 <= zo -> [/\ trace = Fin x, error = PInf & outliers = 0%N]].

(** The arrays left by a run in which inquiry j used its first [K j] samples,
    processed in order. *)
Definition reports (zo : R) (K : nat -> nat) (r : report R) : Prop :=
  [/\ rp_used r = [seq K j | j <- iota 0 q] /\
      (size (rp_order r) = mx /\ forall j, (j < q)%N -> take (K j) (rp_order r) = iota 0 (K j)),
      rp_converged r = [seq satisfied j (K j) | j <- iota 0 q],
      rp_all r = all (fun j => satisfied j (K j)) (iota 0 q),
      size (rp_samples r) = mx /\
      (forall i j, (i < mx)%N -> (j < q)%N ->
        nth NaN (nth [::] (rp_samples r) i) j = if (i < K j)%N then Fin (X i j) else NaN) &
      [/\ size (rp_trace r) = q, size (rp_error r) = q, size (rp_outliers r) = q &
      forall j, (j < q)%N ->
        summary zo (first_samples j (K j)) (nth NaN (rp_trace r) j) (nth NaN (rp_error r) j)
          (nth 0%N (rp_outliers r) j)]].
End Spec.

(** The i-th vector of signs of the stream of generator [g]: every vector takes
    n/64 + 1 draws, entry k is bit k mod 64 of draw k/64 of these. *)
Definition rademacher (R : rcfType) (g : xstate) (n i : nat) : 'cV[R]_n :=
  \col_(k < n) (if N.testbit (PropRng.draw g (i * (Nat.div n 64 + 1) + Nat.div k 64)) (N.of_nat (Nat.modulo k 64))
                then 1 else -1).

(** The stream of the only thread (see C03): the generator of the seed, 2^128
    draws further. *)
Definition stream (clock : nat -> N) (seed : Z) : xstate :=
  PropRng.after (2 ^ 128) (xoshiro_init (clock 0%N) seed).
