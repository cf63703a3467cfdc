(** C92: the time alg_wall_time in the returned info. *)
Require Import ZArith Reals Lia Lra.
From Flocq Require Import Core.
From Verif Require Import IeeeModel WallTimeModel.
Local Open Scope R_scope.

(** A reading of the clock up to the year 2106 *)
Definition regular (t : timeval) : Prop := (0 <= tv_sec t < 2 ^ 32)%Z /\ (0 <= tv_usec t < 1000000)%Z.

(** Microseconds from the first reading to the second *)
Definition microseconds (t1 t2 : timeval) : Z :=
  ((tv_sec t2 - tv_sec t1) * 1000000 + (tv_usec t2 - tv_usec t1))%Z.

Lemma ieee_le prec emin x y : (0 < prec)%Z -> x <= y -> ieee prec emin x <= ieee prec emin y.
Proof.
  intros Hp H. unfold ieee. assert (P : Prec_gt_0 prec) by exact Hp.
  apply round_le; trivial; typeclasses eauto.
Qed.

Lemma tiny_small e : (e <= - 100)%Z -> bpow radix2 e <= / 1267650600228229401496703205376.
Proof.
  intros H. apply Rle_trans with (bpow radix2 (- 100)); [apply bpow_le; lia|].
  right. reflexivity.
Qed.

Definition tau : R := / 1267650600228229401496703205376.

Lemma double_error x : Rabs (double x - x) <= / 9007199254740992 * Rabs x + tau.
Proof.
  unfold double. eapply Rle_trans; [apply ieee_error; reflexivity|].
  change (bpow radix2 (- (53))) with (/ 9007199254740992). apply Rplus_le_compat_l. apply tiny_small. discriminate.
Qed.

Lemma single_error x : Rabs (single x - x) <= / 16777216 * Rabs x + tau.
Proof.
  unfold single. eapply Rle_trans; [apply ieee_error; reflexivity|].
  change (bpow radix2 (- (24))) with (/ 16777216). apply Rplus_le_compat_l. apply tiny_small. discriminate.
Qed.

Lemma double_int z : (Z.abs z <= 2 ^ 53)%Z -> double (IZR z) = IZR z.
Proof. intros H. apply ieee_int; trivial; [reflexivity|discriminate]. Qed.

(** The double next to 1e-6 *)
Definition micro : R := double (1 / 1000000).
Lemma micro_error : Rabs (micro - 1 / 1000000) <= / 9000000000000000000000.
Proof.
  eapply Rle_trans; [apply double_error|]. rewrite Rabs_pos_eq by lra. unfold tau. lra.
Qed.

Lemma secondsE t : regular t ->
  seconds t = double (IZR (tv_sec t) + double (IZR (tv_usec t) * micro)).
Proof.
  intros [Hs Hu]. unfold seconds. rewrite (double_int (tv_sec t)) by lia.
  rewrite (double_int (tv_usec t)) by lia. reflexivity.
Qed.

(** Fraction of a second *)
Lemma fraction t : regular t ->
  0 <= double (IZR (tv_usec t) * micro) <= 1 /\
  Rabs (double (IZR (tv_usec t) * micro) - IZR (tv_usec t) / 1000000) <= / 1000000000000000.
Proof.
  intros [_ Hu].
  assert (U0 : 0 <= IZR (tv_usec t)) by (apply IZR_le; lia).
  assert (U1 : IZR (tv_usec t) <= 999999) by (apply IZR_le; lia).
  pose proof micro_error as M. apply Rabs_le_inv in M.
  assert (P0 : 0 <= IZR (tv_usec t) * micro) by (apply Rmult_le_pos; lra).
  assert (P1 : IZR (tv_usec t) * micro <= 1).
  { apply Rle_trans with (999999 * micro); [apply Rmult_le_compat_r; lra|lra]. }
  split.
  { split.
    - rewrite <- (double_int 0) by (simpl; lia). apply ieee_le; [reflexivity|exact P0].
    - rewrite <- (double_int 1) by (simpl; lia). apply ieee_le; [reflexivity|exact P1]. }
  pose proof (double_error (IZR (tv_usec t) * micro)) as D.
  rewrite (Rabs_pos_eq (IZR (tv_usec t) * micro)) in D by exact P0. apply Rabs_le_inv in D.
  assert (E : Rabs (IZR (tv_usec t) * micro - IZR (tv_usec t) / 1000000) <= 999999 * / 9000000000000000000000).
  { replace (IZR (tv_usec t) * micro - IZR (tv_usec t) / 1000000)
      with (IZR (tv_usec t) * (micro - 1 / 1000000)) by field.
    rewrite Rabs_mult, (Rabs_pos_eq (IZR (tv_usec t))) by exact U0.
    apply Rmult_le_compat; [lra|apply Rabs_pos|lra|exact micro_error]. }
  apply Rabs_le_inv in E. unfold tau in D. apply Rabs_le. lra.
Qed.

Lemma seconds_error t : regular t ->
  Rabs (seconds t - (IZR (tv_sec t) + IZR (tv_usec t) / 1000000)) <= 48 / 100000000.
Proof.
  intros H. rewrite secondsE by exact H. destruct (fraction t H) as [F0 F]. destruct H as [Hs _].
  assert (S0 : 0 <= IZR (tv_sec t)) by (apply IZR_le; lia).
  assert (S1 : IZR (tv_sec t) <= 4294967295) by (apply IZR_le; lia).
  pose proof (double_error (IZR (tv_sec t) + double (IZR (tv_usec t) * micro))) as D.
  rewrite (Rabs_pos_eq (IZR (tv_sec t) + _)) in D by lra.
  apply Rabs_le_inv in D. apply Rabs_le_inv in F. unfold tau in D. apply Rabs_le. lra.
Qed.

Lemma seconds_le t1 t2 : regular t1 -> regular t2 -> (0 <= microseconds t1 t2)%Z -> seconds t1 <= seconds t2.
Proof.
  intros H1 H2 H. rewrite !secondsE by assumption. apply ieee_le; [reflexivity|].
  destruct (fraction t1 H1) as [F1 _]. destruct (fraction t2 H2) as [F2 _].
  unfold microseconds in H. destruct H1 as [S1 U1]. destruct H2 as [S2 U2].
  destruct (Z.eq_dec (tv_sec t1) (tv_sec t2)) as [E|E].
  - rewrite E. apply Rplus_le_compat_l. apply ieee_le; [reflexivity|].
    apply Rmult_le_compat_r; [pose proof (Rabs_le_inv _ _ micro_error); lra|apply IZR_le; lia].
  - assert (L : IZR (tv_sec t1) + 1 <= IZR (tv_sec t2)) by (rewrite <- plus_IZR; apply IZR_le; lia). lra.
Qed.

Lemma microsecondsE t1 t2 : IZR (microseconds t1 t2) / 1000000 =
  (IZR (tv_sec t2) + IZR (tv_usec t2) / 1000000) - (IZR (tv_sec t1) + IZR (tv_usec t1) / 1000000).
Proof. unfold microseconds. rewrite plus_IZR, mult_IZR, !minus_IZR. field. Qed.

(** The reported time is the time between the readings up to a microsecond, and up to
    the precision of float *)
Theorem C92_accuracy t1 t2 : regular t1 -> regular t2 ->
  exists2 w, alg_wall_time (Some t1) (Some t2) = Some w &
  Rabs (w - IZR (microseconds t1 t2) / 1000000) <=
    1 / 1000000 + Rabs (IZR (microseconds t1 t2) / 1000000) / 2 ^ 23.
Proof.
  intros H1 H2. eexists; [reflexivity|]. simpl start_time.
  rewrite microsecondsE. pose proof (seconds_error t1 H1) as E1. pose proof (seconds_error t2 H2) as E2.
  set (x1 := IZR (tv_sec t1) + _) in *. set (x2 := IZR (tv_sec t2) + _) in *.
  set (d := seconds t2 - seconds t1).
  assert (D : Rabs (d - (x2 - x1)) <= 96 / 100000000).
  { apply Rabs_le_inv in E1. apply Rabs_le_inv in E2. apply Rabs_le. unfold d. lra. }
  pose proof (double_error d) as P. pose proof (single_error (double d)) as Q.
  assert (Ad : Rabs d <= Rabs (x2 - x1) + 96 / 100000000).
  { replace d with ((d - (x2 - x1)) + (x2 - x1)) by ring. eapply Rle_trans; [apply Rabs_triang|]. lra. }
  assert (Add : Rabs (double d) <= Rabs d + (/ 9007199254740992 * Rabs d + tau)).
  { replace (double d) with ((double d - d) + d) by ring. eapply Rle_trans; [apply Rabs_triang|].
    fold (double d). lra. }
  replace (single (double d) - (x2 - x1)) with
    ((single (double d) - double d) + ((double d - d) + (d - (x2 - x1)))) by ring.
  eapply Rle_trans; [apply Rabs_triang|].
  pose proof (Rabs_triang (double d - d) (d - (x2 - x1))) as T.
  pose proof (Rabs_pos (x2 - x1)) as Z0. unfold tau in *. lra.
Qed.

(** It is not negative if the clock was not set back meanwhile *)
Theorem C92_not_negative t1 t2 : regular t1 -> regular t2 -> (0 <= microseconds t1 t2)%Z ->
  exists2 w, alg_wall_time (Some t1) (Some t2) = Some w & 0 <= w.
Proof.
  intros H1 H2 H. eexists; [reflexivity|]. simpl start_time.
  pose proof (seconds_le t1 t2 H1 H2 H) as L.
  assert (D : 0 <= double (seconds t2 - seconds t1)).
  { rewrite <- (ieee_0 53 (-1074)). apply ieee_le; [reflexivity|lra]. }
  rewrite <- (ieee_0 24 (-149)). apply ieee_le; [reflexivity|exact D].
Qed.

(** and zero if both readings are the same *)
Theorem C92_zero t : alg_wall_time (Some t) (Some t) = Some 0.
Proof.
  unfold alg_wall_time. simpl. rewrite Rminus_diag_eq by reflexivity.
  unfold double, single. rewrite !ieee_0. reflexivity.
Qed.

(** A time of two microseconds or more is seen *)
Theorem C92_positive t1 t2 : regular t1 -> regular t2 -> (2 <= microseconds t1 t2)%Z ->
  exists2 w, alg_wall_time (Some t1) (Some t2) = Some w & 0 < w.
Proof.
  intros H1 H2 H. destruct (C92_accuracy t1 t2 H1 H2) as [w E A]. exists w; [exact E|].
  apply IZR_le in H. rewrite (Rabs_pos_eq (_ / _)) in A by lra. apply Rabs_le_inv in A. lra.
Qed.

(** Full statement: the time is never negative.  It is false, for the clock is the one
    of the day, and can be set back while the call runs *)
Theorem C92_set_back_refuted t1 t2 : regular t1 -> regular t2 -> (microseconds t1 t2 <= - 2)%Z ->
  exists2 w, alg_wall_time (Some t1) (Some t2) = Some w & w < 0.
Proof.
  intros H1 H2 H. destruct (C92_accuracy t1 t2 H1 H2) as [w E A]. exists w; [exact E|].
  apply IZR_le in H. rewrite (Rabs_left1 (_ / _)) in A by lra. apply Rabs_le_inv in A. lra.
Qed.

(** A failed reading gives NaN, never a number *)
Theorem C92_failed r1 r2 : alg_wall_time r1 r2 = None <-> r1 = None \/ r2 = None.
Proof.
  destruct r1, r2; simpl; split; intros H; try discriminate; try (destruct H; discriminate); try reflexivity; auto.
Qed.

(** Cases: readings of November 2026, 1.5 s apart, and an hour set back *)
Example C92_case : regular (Timeval 1794872938 750000) /\ regular (Timeval 1794872940 250000) /\
  microseconds (Timeval 1794872938 750000) (Timeval 1794872940 250000) = 1500000%Z.
Proof. repeat split; simpl; try lia. Qed.
Example C92_set_back_case : regular (Timeval 1794872938 0) /\ regular (Timeval 1794869338 0) /\
  (microseconds (Timeval 1794872938 0) (Timeval 1794869338 0) <= - 2)%Z.
Proof. repeat split; simpl; try lia. unfold microseconds. simpl. lia. Qed.

Definition C92_assumptions := (@C92_accuracy, @C92_not_negative, @C92_zero, @C92_positive, @C92_set_back_refuted,
  @C92_failed).
Print Assumptions C92_assumptions.
