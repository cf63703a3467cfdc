(** Floating-point formats: binary, with gradual underflow, rounding to nearest
    and ties to even, as IEEE 754 and the x87 extended format do.  This is what
    the compiler and the processor give for the types of
    imate/_definitions/types.h and the long double accumulators of
    c_vector_operations.cpp and c_matrix_operations.cpp; the library itself has
    no code for it.  Overflow is not modelled: there is no largest number. *)
Require Import ZArith Reals Lia Lra.
From Flocq Require Import Core Relative.
Local Open Scope R_scope.

(** Rounding to [prec] bits with smallest positive number 2^emin. *)
Definition ieee (prec emin : Z) (x : R) : R :=
  round radix2 (FLT_exp emin prec) ZnearestE x.

(** float, double, and the long double of x86-64. *)
Definition single : R -> R := ieee 24 (-149).
Definition double : R -> R := ieee 53 (-1074).
Definition extended : R -> R := ieee 64 (-16445).

(** Half a unit in the last place of 1, and half the smallest positive number. *)
Definition eps_single : R := bpow radix2 (-24).
Definition tiny_single : R := bpow radix2 (-150).
Definition eps_double : R := bpow radix2 (-53).
Definition tiny_double : R := bpow radix2 (-1075).
Definition eps_extended : R := bpow radix2 (-64).
Definition tiny_extended : R := bpow radix2 (-16446).

(** 2^24, 2^25 and 2^32. *)
Definition two24 : R := 16777216.
Definition two25 : Z := 33554432.
Definition two32 : Z := 4294967296.

Lemma ieee_error prec emin x : (0 < prec)%Z ->
  Rabs (ieee prec emin x - x) <= bpow radix2 (- prec) * Rabs x + bpow radix2 (emin - 1).
Proof.
  intros Hp.
  destruct (error_N_FLT radix2 emin prec Hp (fun t => negb (Z.even t)) x) as (eps & e & H1 & H2 & _ & H).
  unfold ieee. rewrite H.
  replace (x * (1 + eps) + e - x) with (x * eps + e) by ring.
  eapply Rle_trans; [apply Rabs_triang|]. apply Rplus_le_compat.
  - rewrite Rabs_mult, Rmult_comm. apply Rmult_le_compat_r; [apply Rabs_pos|].
    eapply Rle_trans; [exact H1|]. rewrite bpow_plus. simpl (bpow radix2 1). lra.
  - eapply Rle_trans; [exact H2|]. unfold Z.sub. rewrite bpow_plus. simpl (bpow radix2 (-(1))). lra.
Qed.

Lemma ieee_format prec emin x : (0 < prec)%Z ->
  (exists m e : Z, x = IZR m * bpow radix2 e /\ (Z.abs m < 2 ^ prec)%Z /\ (emin <= e)%Z) ->
  ieee prec emin x = x.
Proof.
  intros Hp (m & e & -> & Hm & He). unfold ieee. apply round_generic; [typeclasses eauto|].
  apply generic_format_FLT. exists (Float radix2 m e); trivial.
Qed.

Lemma ieee_int prec emin z : (0 < prec)%Z -> (emin <= 0)%Z -> (Z.abs z <= 2 ^ prec)%Z ->
  ieee prec emin (IZR z) = IZR z.
Proof.
  intros Hp He Hz. apply ieee_format; trivial.
  destruct (Z.eq_dec (Z.abs z) (2 ^ prec)) as [E|E].
  - exists (Z.sgn z), prec. rewrite <- IZR_Zpower by lia. rewrite <- mult_IZR. simpl radix_val.
    rewrite <- E. rewrite Z.mul_comm, Z.abs_sgn. repeat split; try lia.
    assert (1 < 2 ^ prec)%Z by (apply Z.pow_gt_1; lia). destruct z; simpl; lia.
  - exists z, 0%Z. simpl. rewrite Rmult_1_r. repeat split; lia.
Qed.

(** The rounded value, given the exponent and the nearest integer. *)
Lemma ieee_val prec emin x e k n :
  bpow radix2 (e - 1) <= x < bpow radix2 e -> FLT_exp emin prec e = k ->
  ZnearestE (x * bpow radix2 (- k)) = n -> ieee prec emin x = IZR n * bpow radix2 k.
Proof.
  intros Hx Hk Hn. unfold ieee, round, F2R, scaled_mantissa. simpl.
  rewrite (cexp_fexp_pos _ _ _ _ Hx), Hk. now rewrite Hn.
Qed.

Lemma ieee_0 prec emin : ieee prec emin 0 = 0.
Proof. apply round_0; typeclasses eauto. Qed.

(** 2^24 + 1 is half way between two numbers; the even one is below. *)
Lemma single_tie : single (two24 + 1) = two24.
Proof.
  unfold single, two24. rewrite (ieee_val 24 (-149) _ 25 1 8388608).
  - simpl. lra.
  - simpl. lra.
  - reflexivity.
  - change (bpow radix2 (-(1))) with (/ 2). unfold Znearest.
    assert (F : Zfloor ((16777216 + 1) * / 2) = 8388608%Z).
    { apply Zfloor_imp. simpl. lra. }
    rewrite F. rewrite Rcompare_Eq by (simpl; lra). reflexivity.
Qed.

Lemma single_two24 : single two24 = two24.
Proof. apply (ieee_int 24 (-149) 16777216); lia. Qed.

Lemma single_one : single 1 = 1.
Proof. apply (ieee_int 24 (-149) 1); try lia; reflexivity. Qed.

(** 2^-80 *)
Definition tiny_entry : R := bpow radix2 (-80).

(** (2^-80)^2 is less than half the smallest single precision number. *)
Lemma single_tiny : single (tiny_entry * tiny_entry) = 0.
Proof.
  unfold tiny_entry, single, ieee. apply round_N_small with (ex := (-159)%Z).
  - rewrite <- bpow_plus. rewrite Rabs_pos_eq by apply bpow_ge_0. split.
    + apply Req_le. reflexivity.
    + apply bpow_lt. lia.
  - reflexivity.
Qed.

(** The square of 1 + 2^-60 in the extended format, and the latter as a double. *)
Definition almost_one : R := 1 + bpow radix2 (-60).

(** 1 + 2^-59 *)
Definition almost_square : R := 1 + bpow radix2 (-59).

Lemma extended_square : extended (almost_one * almost_one) = almost_square.
Proof.
  unfold extended, almost_one, almost_square. rewrite (ieee_val 64 (-16445) _ 1 (-63) (9223372036854775808 + 16)).
  - simpl. lra.
  - simpl. lra.
  - reflexivity.
  - apply Znearest_imp. simpl. apply Rabs_def1; lra.
Qed.

Lemma double_square : double almost_square = 1.
Proof.
  unfold double, almost_square. rewrite (ieee_val 53 (-1074) _ 1 (-52) 4503599627370496).
  - simpl. lra.
  - simpl. lra.
  - reflexivity.
  - apply Znearest_imp. simpl. apply Rabs_def1; lra.
Qed.

Lemma extended_sum : extended almost_square = almost_square.
Proof.
  unfold almost_square.
  apply ieee_format; [lia|]. exists (576460752303423488 + 1)%Z, (-59)%Z.
  repeat split; try lia. simpl. lra.
Qed.

(** Growth of many roundings to long double. *)
Lemma pow_bound x k n : 0 <= x -> INR n * x <= k -> k <= / 2 -> (1 + x) ^ n <= 1 + 2 * k.
Proof.
  intros Hx Hk Hh.
  assert (B : (1 - INR n * x) * (1 + x) ^ n <= 1).
  { clear Hk. induction n as [|n IH]; [simpl; lra|].
    rewrite S_INR. simpl pow.
    assert (0 <= (1 + x) ^ n) by (apply pow_le; lra).
    assert (0 <= INR n) by apply pos_INR.
    replace ((1 - (INR n + 1) * x) * ((1 + x) * (1 + x) ^ n))
      with ((1 - INR n * x) * (1 + x) ^ n - (INR n + 1) * (x * x) * (1 + x) ^ n) by ring.
    assert (0 <= (INR n + 1) * (x * x) * (1 + x) ^ n).
    { apply Rmult_le_pos; [apply Rmult_le_pos; nra|trivial]. }
    lra. }
  assert (H0 : 0 <= (1 + x) ^ n) by (apply pow_le; lra).
  assert (0 <= INR n) by apply pos_INR.
  assert (0 <= INR n * x) by (apply Rmult_le_pos; lra).
  assert (C : (1 - k) * (1 + x) ^ n <= 1).
  { eapply Rle_trans; [|exact B]. apply Rmult_le_compat_r; lra. }
  assert (1 <= (1 - k) * (1 + 2 * k)) by nra.
  apply Rmult_le_reg_l with (1 - k); lra.
Qed.

(** For sums of up to 2^32 products, all roundings together cost a few units of
    the last place of a float. *)
Lemma growth_single k n : (Z.of_nat n <= two32)%Z -> (k <= 9)%nat ->
  (1 + eps_single) ^ k * (1 + eps_extended) ^ n <= 1 + INR (S k) * eps_single.
Proof.
  unfold eps_single, eps_extended.
  intros Hn Hk.
  assert (P : (1 + bpow radix2 (-64)) ^ n <= 1 + 2 * bpow radix2 (-32)).
  { apply pow_bound.
    - apply bpow_ge_0.
    - apply IZR_le in Hn. rewrite INR_IZR_INZ. unfold two32 in Hn. simpl. lra.
    - simpl. lra. }
  assert (Q : 0 <= (1 + bpow radix2 (-24)) ^ k).
  { apply pow_le. assert (0 <= bpow radix2 (-24)) by apply bpow_ge_0. lra. }
  eapply Rle_trans; [apply Rmult_le_compat_l; [exact Q|exact P]|].
  clear P Q. do 10 (destruct k as [|k]; [simpl; lra|]). lia.
Qed.

Lemma archimedes e y : 0 < e -> exists n, y < e * INR n.
Proof.
  intros He. destruct (archimed (y / e)) as [H _]. exists (Z.to_nat (up (y / e))).
  assert (IZR (up (y / e)) <= INR (Z.to_nat (up (y / e)))).
  { rewrite INR_IZR_INZ. apply IZR_le. lia. }
  apply Rlt_le_trans with (e * IZR (up (y / e))); [|apply Rmult_le_compat_l; lra].
  apply Rmult_gt_compat_l with (r := e) in H; trivial.
  replace (e * (y / e)) with y in H by (field; lra). lra.
Qed.

(** Rounding to [prec] bits without underflow: the same as [ieee] for numbers
    that are not too small. *)
Definition unbounded (prec : Z) (x : R) : R := round radix2 (FLX_exp prec) ZnearestE x.

Lemma unbounded_error prec x : (0 < prec)%Z ->
  Rabs (unbounded prec x - x) <= bpow radix2 (- prec) * Rabs x.
Proof.
  intros Hp. unfold unbounded.
  eapply Rle_trans; [apply relative_error_N_FLX; exact Hp|].
  apply Rmult_le_compat_r; [apply Rabs_pos|]. rewrite bpow_plus. simpl (bpow radix2 1). lra.
Qed.

Lemma unbounded_same prec emin x : bpow radix2 (emin + prec - 1) <= Rabs x ->
  ieee prec emin x = unbounded prec x.
Proof.
  intros Hx. unfold ieee, unbounded. now apply round_FLT_FLX.
Qed.

Definition prec_single : Z := 24.
Definition prec_extended : Z := 64.

Lemma tiny_entry_pos : 0 < tiny_entry.
Proof. apply bpow_gt_0. Qed.

Lemma double_one : double 1 = 1.
Proof. apply (ieee_int 53 (-1074) 1); lia. Qed.
Lemma extended_one : extended 1 = 1.
Proof. apply (ieee_int 64 (-16445) 1); lia. Qed.

(** The error of the square root in double precision. *)
Lemma almost_one_far : 1 < almost_one /\ 8 * eps_extended * almost_one < almost_one - 1.
Proof. unfold almost_one, eps_extended. simpl. lra. Qed.

Lemma tiny_single_float : single tiny_entry = tiny_entry.
Proof.
  apply ieee_format; [lia|]. exists 1%Z, (-80)%Z. rewrite Rmult_1_l. repeat split; lia.
Qed.

Lemma almost_one_float : extended almost_one = almost_one.
Proof.
  apply ieee_format; [lia|]. exists (1152921504606846976 + 1)%Z, (-60)%Z.
  repeat split; try lia. unfold almost_one. simpl. lra.
Qed.
