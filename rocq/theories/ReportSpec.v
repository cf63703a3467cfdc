(** * Specification of what the caller of the stochastic Lanczos quadrature gets *)
From mathcomp Require Import all_ssreflect all_algebra.
From Verif Require Import ConvModel ConvSpec HutchRunSpec.

Set Implicit Arguments.
Unset Strict Implicit.
Unset Printing Implicit Defensive.

Import GRing.Theory Num.Theory.
Local Open Scope ring_scope.

Section Spec.
Variable R : rcfType.

(** The numbers among the entries of an array: what the user keeps of a column
    of samples after dropping not-a-number. *)
Definition numbers (xs : seq (num R)) : seq R :=
  flatten [seq if x is Fin r then [:: r] else [::] | x <- xs].

(** x is not further from the mean of xs than zo deviations. *)
Definition near (zo : R) (xs : seq R) (x : R) : bool := `|x - mean xs| <= zo * pop_std xs.

(** A convergence plot of the samples xs, in the order processed: over the
    abscissa i+1 the i-th sample (left out if it is an outlier) and the mean of
    the first i+1 samples without the outliers, with the half width
    z * deviation / sqrt(i+1) and its ratio to the mean. *)
Definition shows (z zo : R) (xs : seq R) (drawn : seq (num R) * seq (num R * num R * num R)) : Prop :=
  [/\ size drawn.1 = size xs, size drawn.2 = size xs &
   forall i, (i < size xs)%N ->
     let good := [seq x <- take i.+1 xs | near zo xs x] in
     let width := z * pop_std good / Num.sqrt i.+1%:R in
     nth NaN drawn.1 i = (if near zo xs (nth 0 xs i) then Fin (nth 0 xs i) else NaN) /\
     exists rel, nth (NaN, NaN, NaN) drawn.2 i =
         (if good is [::] then (NaN, NaN, NaN) else (Fin (mean good), Fin width, rel)) /\
       (good != [::] -> mean good != 0 -> rel = Fin (width / `|mean good|))].
End Spec.
