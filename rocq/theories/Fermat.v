(** Fermat's little theorem over [Z], transferred from mathcomp. *)
From Coq Require Import ZArith Znumtheory Lia.
From mathcomp Require Import ssreflect ssrfun ssrbool eqtype ssrnat div prime binomial.
Set Implicit Arguments.

Lemma Zprime_nat_prime (p : nat) : Znumtheory.prime (Z.of_nat p) -> prime p.
Proof.
  move=> [Hp1 Hp2]. apply/primeP. split.
  - apply/ssrnat.ltP. lia.
  - move=> d /dvdnP [k Hk].
    have Hdiv : (Z.of_nat d | Z.of_nat p)%Z.
    { exists (Z.of_nat k). rewrite Hk -multE Nat2Z.inj_mul //. }
    have Hpr : Znumtheory.prime (Z.of_nat p) by split.
    case: (prime_divisors (Z.of_nat p) Hpr _ Hdiv) => [H|[H|[H|H]]].
    + lia.
    + have -> : d = 1%N by lia. by [].
    + have -> : d = p by lia. by rewrite /= eqxx orbT.
    + lia.
Qed.

Lemma modn_Z (a b : nat) : Z.of_nat (a %% b) = (Z.of_nat a mod Z.of_nat b)%Z.
Proof.
  case: b => [|b].
  - rewrite modn0. by rewrite Zmod_0_r.
  - apply: (Zmod_unique _ _ (Z.of_nat (a %/ b.+1))).
    + have := ltn_pmod a (ltn0Sn b). move=> /ssrnat.ltP. lia.
    + have := divn_eq a b.+1. rewrite -plusE -multE. lia.
Qed.

Lemma expn_Z (a n : nat) : Z.of_nat (a ^ n) = (Z.of_nat a ^ Z.of_nat n)%Z.
Proof.
  elim: n => [|n IH]; first by rewrite expn0.
  rewrite expnS -multE Nat2Z.inj_mul IH Nat2Z.inj_succ Z.pow_succ_r //. lia.
Qed.

Lemma fermat_Z (p a : Z) :
  Znumtheory.prime p -> (0 <= a)%Z -> ((a ^ p) mod p = a mod p)%Z.
Proof.
  move=> Hp Ha. have Hp2 := prime_ge_2 _ Hp.
  have [q Eq] : exists q, p = Z.of_nat q by exists (Z.to_nat p); lia.
  have [b Eb] : exists b, a = Z.of_nat b by exists (Z.to_nat a); lia.
  subst p a. rewrite -expn_Z -!modn_Z. congr Z.of_nat.
  exact: (fermat_little b (Zprime_nat_prime _ Hp)).
Qed.
