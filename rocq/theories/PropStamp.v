(** * C81: calls without a seed use different random numbers *)
From Coq Require Import NArith ZArith List Lia.
From Verif Require Import RngModel RngGf2 RngProofs StampModel.
Local Open Scope N_scope.

(** The time in nanoseconds that a clock shows. *)
Definition shows (clock : N * N) (t : N) : Prop :=
  t = fst clock * 1000000000 + snd clock /\ snd clock < 1000000000.

(** From July 2006 to January 2043. *)
Definition our_time (t : N) : Prop := 2 ^ 60 <= t < 2 ^ 61.

(** The doubles among the natural numbers. *)
Definition is_double (d : N) : Prop := exists m e, d = m * 2 ^ e /\ m < 2 ^ 53.

(** ** Doubles *)

Lemma to_double_small x : x < 2 ^ 53 -> to_double x = x.
Proof.
  intros H. unfold to_double.
  assert (N.log2 x - 52 = 0) as ->; [|reflexivity].
  destruct (N.eq_dec x 0) as [->|H0]; [reflexivity|].
  apply N.log2_lt_pow2 in H; lia.
Qed.

Lemma to_double_exact x k : x < 2 ^ (53 + k) -> x mod 2 ^ k = 0 -> to_double x = x.
Proof.
  intros H Hm. unfold to_double.
  assert (Hk : N.log2 x - 52 <= k).
  { destruct (N.eq_dec x 0) as [->|H0]; [cbn; lia|]. apply N.log2_lt_pow2 in H; lia. }
  set (j := N.log2 x - 52) in *. clearbody j.
  destruct (N.eqb_spec j 0) as [_|_]; [reflexivity|].
  assert (Hj : x mod 2 ^ j = 0).
  { apply N.mod_divide; [apply N.pow_nonzero; discriminate|].
    apply N.mod_divide in Hm; [|apply N.pow_nonzero; discriminate].
    apply N.divide_trans with (2 ^ k); [|exact Hm].
    exists (2 ^ (k - j)). rewrite <- N.pow_add_r. f_equal. lia. }
  rewrite Hj, N.mul_0_r.
  assert (0 < 2 ^ j) by (apply N.neq_0_lt_0, N.pow_nonzero; discriminate).
  destruct (N.ltb_spec 0 (2 ^ j)) as [_|]; [|lia].
  rewrite (N.div_mod x (2 ^ j)) at 2 by lia. rewrite Hj. lia.
Qed.

(** The model rounds to a nearest double. *)
Lemma to_double_near x : let k := N.log2 x - 52 in
  exists m, to_double x = m * 2 ^ k /\ 2 * x <= 2 * (m * 2 ^ k) + 2 ^ k /\
    2 * (m * 2 ^ k) <= 2 * x + 2 ^ k.
Proof.
  intros k. unfold to_double. fold k.
  destruct (N.eqb_spec k 0) as [->|Hk].
  { exists x. rewrite N.pow_0_r. lia. }
  assert (0 < 2 ^ k) as Hp by (apply N.neq_0_lt_0, N.pow_nonzero; discriminate).
  pose proof (N.div_mod x (2 ^ k) ltac:(lia)) as E.
  pose proof (N.mod_lt x (2 ^ k) ltac:(lia)) as Hr.
  set (p := 2 ^ k) in *. set (q := x / p) in *. set (r := x mod p) in *. clearbody p q r.
  eexists. split; [reflexivity|].
  destruct (N.ltb_spec (2 * r) p); [nia|].
  destruct (N.ltb_spec p (2 * r)); [nia|].
  destruct (N.even q); nia.
Qed.

Theorem C81_double_nearest x : is_double (to_double x) /\
  (forall d, is_double d -> N.max (to_double x) x - N.min (to_double x) x <= N.max d x - N.min d x).
Proof.
  destruct (N.eq_dec x 0) as [->|H0].
  { split; [exists 0, 0; cbn; lia|]. intros d _. cbn. lia. }
  pose proof (N.log2_spec x ltac:(lia)) as [L1 L2].
  destruct (to_double_near x) as [m [E [H1 H2]]].
  set (k := N.log2 x - 52) in *.
  assert (0 < 2 ^ k) as Hp by (apply N.neq_0_lt_0, N.pow_nonzero; discriminate).
  assert (Hx : x < 2 ^ 53 * 2 ^ k).
  { rewrite <- N.pow_add_r. apply N.lt_le_trans with (1 := L2).
    apply N.pow_le_mono_r; [discriminate|]. lia. }
  split.
  - rewrite E. destruct (N.lt_ge_cases m (2 ^ 53)) as [Hm|Hm]; [exists m, k; auto|].
    exists 1, (53 + k). split; [|reflexivity].
    rewrite N.pow_add_r, N.mul_1_l. f_equal.
    apply N.le_antisymm; [|exact Hm]. apply N.lt_succ_r. apply (N.mul_lt_mono_pos_r (2 ^ k)); [exact Hp|].
    rewrite N.mul_succ_l. lia.
  - assert (M : forall p, N.max (to_double x) x - N.min (to_double x) x <=
        N.max (p * 2 ^ k) x - N.min (p * 2 ^ k) x).
    { intros p. rewrite E. destruct (N.eq_dec p m) as [->|Hne]; [lia|].
      destruct (N.lt_ge_cases p m); nia. }
    intros d [n [e [-> Hn]]]. destruct (N.le_gt_cases k e) as [He|He].
    + replace (n * 2 ^ e) with (n * 2 ^ (e - k) * 2 ^ k); [apply M|].
      rewrite <- N.mul_assoc, <- N.pow_add_r. do 2 f_equal. lia.
    + assert (Hd : n * 2 ^ e < 2 ^ 52 * 2 ^ k).
      { rewrite <- N.pow_add_r. replace (52 + k) with (53 + (k - 1)) by lia.
        rewrite N.pow_add_r. apply N.lt_le_trans with (2 ^ 53 * 2 ^ e).
        - apply N.mul_lt_mono_pos_r; [apply N.neq_0_lt_0, N.pow_nonzero; discriminate|exact Hn].
        - apply N.mul_le_mono_l. apply N.pow_le_mono_r; [discriminate|lia]. }
      assert (Hl : 2 ^ 52 * 2 ^ k <= x).
      { rewrite <- N.pow_add_r. replace (52 + k) with (N.log2 x) by lia. exact L1. }
      specialize (M (2 ^ 52)). lia.
Qed.

Print Assumptions C81_double_nearest.

(** ** The stamp *)

Lemma log2_our x : our_time x -> N.log2 x = 60.
Proof.
  intros [H1 H2]. apply N.log2_unique; [discriminate|]. split; [exact H1|].
  change (N.succ 60) with 61. exact H2.
Qed.

Lemma stampP clock t m : shows clock t -> our_time t ->
  exists q, time_stamp (Some clock) m = 256 * q /\ t <= 256 * q + 128 /\ 256 * q <= t + 128.
Proof.
  destruct clock as [sec nsec]. intros [E Hn] Ht. cbn [fst snd] in *. unfold time_stamp.
  assert (Hs : sec < 2 ^ 53).
  { destruct Ht as [_ Ht]. change (2 ^ 61) with 2305843009213693952 in Ht.
    change (2 ^ 53) with 9007199254740992. lia. }
  rewrite (to_double_small sec) by exact Hs.
  rewrite (to_double_small nsec) by (change (2 ^ 53) with 9007199254740992; lia).
  rewrite (to_double_exact (sec * 1000000000) 9).
  - rewrite <- E. destruct (to_double_near t) as [q [E1 [H1 H2]]].
    rewrite (log2_our t Ht) in *. change (2 ^ (60 - 52)) with 256 in *.
    exists q. lia.
  - destruct Ht as [_ Ht]. change (2 ^ 61) with 2305843009213693952 in Ht.
    change (2 ^ (53 + 9)) with 4611686018427387904. lia.
  - change (2 ^ 9) with 512.
    replace (sec * 1000000000) with (sec * 1953125 * 512) by lia.
    apply N.mod_mul. discriminate.
Qed.

(** The state of SplitMix64 tells the last 40 bits of a stamp without its last
    8 bits. *)
Lemma init_low40 s clock : word s -> s mod 256 = 0 ->
  splitmix_init clock (Z.of_N s) mod 2 ^ 40 = s mod 2 ^ 40.
Proof.
  intros Hs H8. rewrite <- !N.land_ones.
  unfold splitmix_init. destruct (Z.leb_spec 0 (Z.of_N s)); [|lia].
  rewrite N2Z.id. apply N.bits_inj; intros i. rewrite !N.land_spec, N.lor_spec, shl64_bit.
  destruct (N.ltb_spec i 40) as [Hi|Hi];
    [|rewrite N.ones_spec_high by lia; rewrite !Bool.andb_false_r; reflexivity].
  rewrite N.ones_spec_low by lia. rewrite !Bool.andb_true_r.
  destruct (N.leb_spec 32 i) as [H32|H32].
  - assert (E : N.testbit s (i - 32) = false).
    { change 256 with (2 ^ 8) in H8. rewrite <- N.land_ones in H8.
      pose proof (f_equal (fun n => N.testbit n (i - 32)) H8) as E. cbn beta in E.
      rewrite N.land_spec, N.ones_spec_low in E by lia. rewrite N.bits_0 in E.
      rewrite Bool.andb_true_r in E. exact E. }
    rewrite E. rewrite ?Bool.andb_false_r, ?Bool.andb_false_l. reflexivity.
  - rewrite ?Bool.andb_false_r, ?Bool.andb_false_l. reflexivity.
Qed.

Lemma init_stamp clock clock' seed seed' : (seed < 0)%Z -> (seed' < 0)%Z ->
  word clock -> word clock' -> clock mod 256 = 0 -> clock' mod 256 = 0 ->
  clock mod 2 ^ 40 <> clock' mod 2 ^ 40 ->
  xoshiro_init clock seed <> xoshiro_init clock' seed'.
Proof.
  intros Hs Hs' W W' D D' Hne.
  assert (R : forall c z, (z < 0)%Z -> xoshiro_init c z = xoshiro_init 0 (Z.of_N c)).
  { intros c z Hz. rewrite !xoshiro_init_eq. unfold splitmix_init.
    destruct (Z.leb_spec 0 z); [lia|]. destruct (Z.leb_spec 0 (Z.of_N c)); [|lia].
    rewrite N2Z.id. reflexivity. }
  rewrite (R _ _ Hs), (R _ _ Hs'). apply init_inj; [exact W|exact W'|].
  intros E. apply Hne. rewrite <- (init_low40 clock 0 W D), <- (init_low40 clock' 0 W' D').
  rewrite E. reflexivity.
Qed.

(** Two calls without a seed, more than 256 nanoseconds and less than 18 minutes
    (2^40 nanoseconds) apart, start with different generators. *)
Theorem C81_distinct_partial : forall c c' t t' m m' seed seed',
  shows c t -> shows c' t' -> our_time t -> our_time t' ->
  256 < t' - t -> t' - t < 2 ^ 40 - 256 -> (seed < 0)%Z -> (seed' < 0)%Z ->
  xoshiro_init (time_stamp (Some c) m) seed <> xoshiro_init (time_stamp (Some c') m') seed'.
Proof.
  intros c c' t t' m m' seed seed' Hc Hc' Ht Ht' H1 H2 Hs Hs'.
  destruct (stampP c t m Hc Ht) as [q [E [B1 B2]]].
  destruct (stampP c' t' m' Hc' Ht') as [q' [E' [B1' B2']]].
  rewrite E, E'.
  assert (Hq : 256 * q < 256 * q' < 256 * q + 2 ^ 40).
  { change (2 ^ 40) with 1099511627776 in *. lia. }
  assert (W : forall p u, our_time u -> 256 * p <= u + 128 -> word (256 * p)).
  { intros p u [_ Hu] Hp. unfold word, word_mod. change (2 ^ 61) with 2305843009213693952 in Hu.
    change (2 ^ 64) with 18446744073709551616. lia. }
  apply init_stamp; auto; [apply (W q t)|apply (W q' t')| | |]; auto;
    try (rewrite N.mul_comm; apply N.mod_mul; discriminate).
  intros Em. change (2 ^ 40) with 1099511627776 in *.
  pose proof (N.div_mod (256 * q) 1099511627776 ltac:(discriminate)) as D.
  pose proof (N.div_mod (256 * q') 1099511627776 ltac:(discriminate)) as D'.
  rewrite Em in D.
  set (a := 256 * q / 1099511627776) in *. set (b := 256 * q' / 1099511627776) in *.
  set (r := (256 * q') mod 1099511627776) in *. clearbody a b r. nia.
Qed.
Print Assumptions C81_distinct_partial.

(** The resolution is 256 nanoseconds, not one: calls in the same interval
    start with the same generator. *)
Theorem C81_resolution_refuted : forall c c' t t' q m m' seed seed',
  shows c t -> shows c' t' -> our_time t -> our_time t' ->
  256 * q - 128 < t < 256 * q + 128 -> 256 * q - 128 < t' < 256 * q + 128 ->
  (seed < 0)%Z -> (seed' < 0)%Z ->
  xoshiro_init (time_stamp (Some c) m) seed = xoshiro_init (time_stamp (Some c') m') seed'.
Proof.
  intros c c' t t' q m m' seed seed' Hc Hc' Ht Ht' H1 H2 Hs Hs'.
  destruct (stampP c t m Hc Ht) as [p [E [B1 B2]]].
  destruct (stampP c' t' m' Hc' Ht') as [p' [E' [B1' B2']]].
  assert (p = q) as -> by lia. assert (p' = q) as -> by lia.
  rewrite E, E', !xoshiro_init_eq. unfold splitmix_init.
  destruct (Z.leb_spec 0 seed); [lia|]. destruct (Z.leb_spec 0 seed'); [lia|]. reflexivity.
Qed.
Print Assumptions C81_resolution_refuted.

(** Calls that are minutes apart can start with the same generator too. *)
Theorem C81_apart_refuted : exists c c' t t',
  shows c t /\ shows c' t' /\ our_time t /\ our_time t' /\ t' - t = 2 ^ 40 /\
  forall m m' seed seed', (seed < 0)%Z -> (seed' < 0)%Z ->
    xoshiro_init (time_stamp (Some c) m) seed = xoshiro_init (time_stamp (Some c') m') seed'.
Proof.
  exists (1700000000, 256), (1700001099, 511628032), 1700000000000000256, 1700001099511628032.
  repeat split; try reflexivity; try discriminate.
  intros m m' seed seed' Hs Hs'. rewrite !xoshiro_init_eq. unfold splitmix_init.
  destruct (Z.leb_spec 0 seed); [lia|]. destruct (Z.leb_spec 0 seed'); [lia|].
  vm_compute. reflexivity.
Qed.
Print Assumptions C81_apart_refuted.

(** If the clock cannot be read, the stamp is not the 1 that is meant but
    depends on what was in memory. *)
Theorem C81_failed_refuted : exists m m', time_stamp None m <> time_stamp None m' /\
  time_stamp None m <> 1 /\ time_stamp None m' <> 1.
Proof. exists (0, 0), (2, 0). repeat split; discriminate. Qed.
Print Assumptions C81_failed_refuted.

(** The hypotheses are met: two calls one second apart in 2023, and two in the
    same interval of 256 nanoseconds. *)
Example C81_case : forall m m',
  xoshiro_init (time_stamp (Some (1700000000, 5)) m) (-1) <>
  xoshiro_init (time_stamp (Some (1700000001, 5)) m') (-1) /\
  xoshiro_init (time_stamp (Some (1700000000, 5)) m) (-1) =
  xoshiro_init (time_stamp (Some (1700000000, 100)) m') (-1).
Proof.
  intros m m'. split.
  - apply (C81_distinct_partial _ _ 1700000000000000005 1700000001000000005);
      try reflexivity; try (split; [reflexivity|reflexivity]); split; [discriminate|reflexivity|discriminate|reflexivity].
  - apply (C81_resolution_refuted _ _ 1700000000000000005 1700000000000000100 6640625000000000);
      try reflexivity; try (split; [reflexivity|reflexivity]); split; try discriminate; reflexivity.
Qed.

(** Rounding at work: 2^53 + 1 and 2^53 + 3 are halfway. *)
Example C81_double_case : to_double (2 ^ 53 + 1) = 2 ^ 53 /\ to_double (2 ^ 53 + 3) = 2 ^ 53 + 4.
Proof. split; reflexivity. Qed.
