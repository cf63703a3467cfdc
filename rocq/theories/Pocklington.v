(** Primality certificates (Pocklington) over [Z]. *)
From Coq Require Import ZArith Znumtheory Zpow_facts List Lia Bool Wf_nat.
From Verif Require Import Fermat.
Import ListNotations.
Local Open Scope Z_scope.

Lemma prime_divisor_nat (k : nat) (n : Z) :
  (Z.to_nat n < k)%nat -> 1 < n -> exists p, prime p /\ (p | n).
Proof.
  revert n. induction k as [|k IH]; intros n Hk Hn; [lia|].
  destruct (prime_dec n) as [Hp|Hp]; [exists n; split; [assumption|apply Z.divide_refl]|].
  destruct (not_prime_divide n Hn Hp) as [m [Hm Hd]].
  destruct (IH m) as [p [Hpp Hpd]]; [lia|lia|].
  exists p. split; [assumption|]. eapply Z.divide_trans; eassumption.
Qed.

Lemma prime_divisor (n : Z) : 1 < n -> exists p, prime p /\ (p | n).
Proof. apply (prime_divisor_nat (S (Z.to_nat n))). lia. Qed.

(** If every prime divisor [p] of [n] satisfies [n < p * p], [n] is prime. *)
Lemma prime_of_large_divisors (n : Z) :
  1 < n -> (forall p, prime p -> (p | n) -> n < p * p) -> prime n.
Proof.
  intros Hn H. destruct (prime_dec n) as [Hp|Hp]; [assumption|].
  destruct (not_prime_divide n Hn Hp) as [m [Hm [c Hc]]].
  assert (1 < c) by nia.
  destruct (prime_divisor m) as [p [Pp Dp]]; [lia|].
  destruct (prime_divisor c) as [q [Pq Dq]]; [lia|].
  pose proof (prime_ge_2 _ Pp). pose proof (prime_ge_2 _ Pq).
  assert (p <= m) by (apply Z.divide_pos_le; [lia|assumption]).
  assert (q <= c) by (apply Z.divide_pos_le; [lia|assumption]).
  assert (n < p * p).
  { apply H; [assumption|]. exists (c * (m / p)).
    destruct Dp as [u Hu]. rewrite Hu, Z.div_mul by lia. rewrite Hc, Hu. ring. }
  assert (n < q * q).
  { apply H; [assumption|]. exists ((c / q) * m).
    destruct Dq as [u Hu]. rewrite Hu, Z.div_mul by lia. rewrite Hc, Hu. ring. }
  exfalso. assert (HH1 : p * q <= m * c) by (apply Z.mul_le_mono_nonneg; lia).
  assert (HH2 : n * n < (p * p) * (q * q)) by (apply Z.mul_lt_mono_nonneg; lia).
  assert (HH3 : (p * q) * (p * q) <= (m * c) * (m * c)) by (apply Z.mul_le_mono_nonneg; nia).
  rewrite Hc in HH2. nia.
Qed.

(** Modular exponentiation by squaring. *)
Fixpoint zpowmod (a : Z) (e : positive) (n : Z) : Z :=
  match e with
  | xH => a mod n
  | xO e' => let q := zpowmod a e' n in (q * q) mod n
  | xI e' => let q := zpowmod a e' n in (a * ((q * q) mod n)) mod n
  end.

Lemma zpowmod_spec a e n : zpowmod a e n = (a ^ Zpos e) mod n.
Proof.
  induction e as [e IH|e IH|]; cbn [zpowmod].
  - rewrite IH. rewrite <- Zmult_mod. rewrite Zmult_mod_idemp_r.
    rewrite Pos2Z.inj_xI, Z.pow_add_r, Z.pow_1_r, Z.mul_comm, <- Z.add_diag, Z.pow_add_r by lia.
    reflexivity.
  - rewrite IH. rewrite <- Zmult_mod.
    rewrite (Pos2Z.inj_xO e), <- Z.add_diag, Z.pow_add_r by lia. reflexivity.
  - rewrite Z.pow_1_r. reflexivity.
Qed.

Lemma pow_1_mod b k m : 1 < m -> 0 <= k -> b mod m = 1 -> (b ^ k) mod m = 1.
Proof.
  intros Hm Hk Hb. rewrite Zpower_mod by lia. rewrite Hb, Z.pow_1_l by assumption.
  apply Z.mod_1_l. assumption.
Qed.

(** Key step: a prime divisor [p] of [n] is congruent to 1 modulo [q]. *)
Lemma pocklington_step n q R a p :
  1 < n -> prime q -> 0 < R -> n - 1 = q * R -> 0 < a ->
  (a ^ (n - 1)) mod n = 1 -> Z.gcd ((a ^ R) mod n - 1) n = 1 ->
  prime p -> (p | n) -> (q | p - 1).
Proof.
  intros Hn Hq HR Hqr Ha Hpow Hgcd Hp Hdiv.
  pose proof (prime_ge_2 _ Hp) as Hp2. pose proof (prime_ge_2 _ Hq) as Hq2.
  destruct (Zdivide_dec q (p - 1)) as [Hd|Hd]; [assumption|exfalso].
  (* p does not divide a *)
  assert (Hpow_p : (a ^ (n - 1)) mod p = 1).
  { destruct Hdiv as [c Hc].
    pose proof (Z.div_mod (a ^ (n - 1)) n ltac:(lia)) as E.
    rewrite Hpow in E. rewrite E. rewrite Hc at 1.
    replace (c * p * (a ^ (n - 1) / n) + 1) with (1 + (c * (a ^ (n - 1) / n)) * p) by ring.
    rewrite Z.mod_add by lia. apply Z.mod_1_l. lia. }
  assert (Hna : ~ (p | a)).
  { intros [u Hu]. rewrite Hu in Hpow_p.
    replace (n - 1) with (1 + (n - 2)) in Hpow_p by lia.
    rewrite Z.pow_add_r, Z.pow_1_r in Hpow_p by lia.
    replace (u * p * (u * p) ^ (n - 2)) with ((u * (u * p) ^ (n - 2)) * p) in Hpow_p by ring.
    rewrite Z.mod_mul in Hpow_p by lia. lia. }
  (* Fermat *)
  assert (Hf : (a ^ (p - 1)) mod p = 1).
  { pose proof (@fermat_Z p a Hp ltac:(lia)) as F.
    replace p with (1 + (p - 1)) in F at 1 by lia.
    rewrite Z.pow_add_r, Z.pow_1_r in F by lia.
    assert (D : (p | a * (a ^ (p - 1) - 1))).
    { apply Z.mod_divide; [lia|].
      replace (a * (a ^ (p - 1) - 1)) with (a * a ^ (p - 1) - a) by ring.
      rewrite Zminus_mod, F, Z.sub_diag. apply Z.mod_0_l. lia. }
    destruct (prime_mult p Hp _ _ D) as [D1|D1]; [contradiction|].
    destruct D1 as [u Hu].
    replace (a ^ (p - 1)) with (1 + u * p) by lia.
    rewrite Z.mod_add by lia. apply Z.mod_1_l. lia. }
  (* b = a^R has b^q = 1 and b^(p-1) = 1 mod p *)
  set (b := a ^ R) in *.
  assert (Hbq : (b ^ q) mod p = 1).
  { unfold b. rewrite <- Z.pow_mul_r by lia. rewrite (Z.mul_comm R q), <- Hqr. assumption. }
  assert (Hbp : (b ^ (p - 1)) mod p = 1).
  { unfold b. rewrite <- Z.pow_mul_r, Z.mul_comm, Z.pow_mul_r by lia.
    apply pow_1_mod; lia. }
  assert (Hrel : rel_prime q (p - 1)) by (apply prime_rel_prime; assumption).
  destruct (rel_prime_bezout _ _ Hrel) as [u v Huv].
  (* nonnegative version: U*q = 1 + V*(p-1) *)
  assert (exists U V, 0 <= U /\ 0 <= V /\ U * q = 1 + V * (p - 1)) as (U & V & HU & HV & HUV).
  { exists (u + (Z.abs u + Z.abs v) * (p - 1)), (- v + (Z.abs u + Z.abs v) * q).
    repeat split; nia. }
  assert (Hb1 : b mod p = 1).
  { assert (E1 : (b ^ (U * q)) mod p = 1).
    { rewrite Z.mul_comm, Z.pow_mul_r by lia. apply pow_1_mod; lia. }
    rewrite HUV, Z.pow_add_r, Z.pow_1_r in E1 by nia.
    rewrite <- Zmult_mod_idemp_r in E1.
    rewrite (Z.mul_comm V), Z.pow_mul_r in E1 by lia.
    rewrite (pow_1_mod _ V p) in E1 by lia.
    rewrite Z.mul_1_r in E1. assumption. }
  (* so p divides gcd *)
  assert (Dp : (p | b mod n - 1)).
  { destruct Hdiv as [c Hc].
    pose proof (Z.div_mod b n ltac:(lia)) as E.
    pose proof (Z.div_mod b p ltac:(lia)) as E'.
    exists (b / p - c * (b / n)). rewrite Hb1 in E'.
    set (y := b mod n) in *. rewrite Hc in E at 1. lia. }
  assert (Dg : (p | Z.gcd (b mod n - 1) n)) by (apply Z.gcd_greatest; assumption).
  rewrite Hgcd in Dg. apply Z.divide_1_r_nonneg in Dg; lia.
Qed.

Fixpoint zrange (s : Z) (len : nat) : list Z :=
  match len with O => [] | S k => s :: zrange (s + 1) k end.

Lemma zrange_in s len i : In i (zrange s len) <-> s <= i < s + Z.of_nat len.
Proof.
  revert s. induction len as [|len IH]; intros s; cbn [zrange In]; [lia|].
  rewrite IH. lia.
Qed.

(** Certificate check: [q] prime factor of [n-1], witness [a], and the few
    candidates 1 + k q up to the square root, k = 1..K. *)
Definition pock_check (n q R a : Z) (K : nat) : bool :=
  (1 <? n) && (0 <? R) && (n - 1 =? q * R) && (0 <? a) &&
  (zpowmod a (Z.to_pos (n - 1)) n =? 1) &&
  (Z.gcd (zpowmod a (Z.to_pos R) n - 1) n =? 1) &&
  forallb (fun k => negb (n mod (1 + k * q) =? 0)) (zrange 1 K) &&
  (n <? (1 + (Z.of_nat K + 1) * q) * (1 + (Z.of_nat K + 1) * q)).

Lemma pock_check_prime n q R a K :
  prime q -> pock_check n q R a K = true -> prime n.
Proof.
  intros Hq H. unfold pock_check in H.
  rewrite !andb_true_iff, !Z.ltb_lt, !Z.eqb_eq in H.
  destruct H as [[[[[[[Hn HR] Hqr] Ha] Hpow] Hgcd] Htr] Hbig].
  rewrite zpowmod_spec, Z2Pos.id in Hpow by lia.
  rewrite zpowmod_spec, Z2Pos.id in Hgcd by lia.
  apply prime_of_large_divisors; [assumption|].
  intros p Hp Hd. pose proof (prime_ge_2 _ Hp) as Hp2.
  pose proof (prime_ge_2 _ Hq) as Hq2.
  destruct (pocklington_step n q R a p) as [k Hk]; try assumption.
  assert (Hk0 : 0 < k) by nia.
  destruct (Z.le_gt_cases k (Z.of_nat K)) as [Hle|Hgt].
  - exfalso.
    rewrite forallb_forall in Htr. specialize (Htr k).
    rewrite zrange_in in Htr. specialize (Htr ltac:(lia)).
    apply negb_true_iff, Z.eqb_neq in Htr. apply Htr.
    replace (1 + k * q) with p by lia. apply Z.mod_divide; [lia|assumption].
  - assert ((1 + (Z.of_nat K + 1) * q) <= p) by nia. nia.
Qed.

(** Trial division for the small primes. *)
Definition trial_check (n : Z) (K : nat) : bool :=
  (1 <? n) && forallb (fun k => negb (n mod k =? 0)) (zrange 2 K) &&
  (n <? (Z.of_nat K + 2) * (Z.of_nat K + 2)).

Lemma trial_check_prime n K : trial_check n K = true -> prime n.
Proof.
  intros H. unfold trial_check in H. rewrite !andb_true_iff, !Z.ltb_lt in H.
  destruct H as [[Hn Htr] Hbig].
  apply prime_of_large_divisors; [assumption|].
  intros p Hp Hd. pose proof (prime_ge_2 _ Hp) as Hp2.
  destruct (Z.lt_ge_cases p (Z.of_nat K + 2)) as [Hlt|Hge]; [exfalso|nia].
  rewrite forallb_forall in Htr. specialize (Htr p).
  rewrite zrange_in in Htr. specialize (Htr ltac:(lia)).
  apply negb_true_iff, Z.eqb_neq in Htr. apply Htr, Z.mod_divide; [lia|assumption].
Qed.

Lemma p3 : prime 3. Proof. apply (trial_check_prime 3 0). vm_compute. reflexivity. Qed.
Lemma p5 : prime 5. Proof. apply (trial_check_prime 5 1). vm_compute. reflexivity. Qed.
Lemma p17 : prime 17. Proof. apply (trial_check_prime 17 3). vm_compute. reflexivity. Qed.
Lemma p257 : prime 257. Proof. apply (trial_check_prime 257 16). vm_compute. reflexivity. Qed.
Lemma p641 : prime 641. Proof. apply (trial_check_prime 641 30). vm_compute. reflexivity. Qed.
Lemma p65537 : prime 65537. Proof. apply (trial_check_prime 65537 260). vm_compute. reflexivity. Qed.
Lemma p274177 : prime 274177. Proof. apply (trial_check_prime 274177 530). vm_compute. reflexivity. Qed.

Local Lemma p17449 : prime 17449. Proof. apply (trial_check_prime 17449 140). vm_compute. reflexivity. Qed.
Lemma p6700417 : prime 6700417.
Proof. apply (pock_check_prime 6700417 17449 384 3 0 p17449). vm_compute. reflexivity. Qed.

Local Lemma p166571 : prime 166571. Proof. apply (trial_check_prime 166571 410). vm_compute. reflexivity. Qed.
Local Lemma p2998279 : prime 2998279.
Proof. apply (pock_check_prime _ 166571 18 2 0 p166571). vm_compute. reflexivity. Qed.
Lemma p67280421310721 : prime 67280421310721.
Proof. apply (pock_check_prime _ 2998279 22439680 3 2 p2998279). vm_compute. reflexivity. Qed.

Local Lemma p52673 : prime 52673. Proof. apply (trial_check_prime 52673 240). vm_compute. reflexivity. Qed.
Local Lemma p1896229 : prime 1896229.
Proof. apply (pock_check_prime _ 52673 36 2 0 p52673). vm_compute. reflexivity. Qed.
Local Lemma p18533742247 : prime 18533742247.
Proof. apply (pock_check_prime _ 1896229 9774 2 0 p1896229). vm_compute. reflexivity. Qed.
Local Lemma p116503103764643 : prime 116503103764643.
Proof. apply (pock_check_prime _ 18533742247 6286 2 0 p18533742247). vm_compute. reflexivity. Qed.
Lemma p59649589127497217 : prime 59649589127497217.
Proof. apply (pock_check_prime _ 116503103764643 512 3 0 p116503103764643). vm_compute. reflexivity. Qed.

Local Lemma p1783 : prime 1783. Proof. apply (trial_check_prime 1783 60). vm_compute. reflexivity. Qed.
Local Lemma p6939437 : prime 6939437.
Proof. apply (pock_check_prime _ 1783 3892 2 1 p1783). vm_compute. reflexivity. Qed.
Local Lemma p55515497 : prime 55515497.
Proof. apply (pock_check_prime _ 6939437 8 2 0 p6939437). vm_compute. reflexivity. Qed.
Local Lemma p733803839347 : prime 733803839347.
Proof. apply (pock_check_prime _ 55515497 13218 2 0 p55515497). vm_compute. reflexivity. Qed.
Lemma p5704689200685129054721 : prime 5704689200685129054721.
Proof. apply (pock_check_prime _ 733803839347 7774133760 3 0 p733803839347). vm_compute. reflexivity. Qed.
