(** Which entries a sparse correlation matrix keeps: C90, first part. *)
Require Import Reals Lra Lia Arith ZArith.
From Verif Require Import CorrKernelModel PropCorrKernel DensityModel DensitySpec.
Local Open Scope R_scope.

Lemma sqrt_pi_pos : 0 < sqrt PI.
Proof. apply sqrt_lt_R0. exact PI_RGT_0. Qed.

Lemma even_loop_mult k c g : even_loop k (c * g) = c * even_loop k g.
Proof. revert g. induction k as [|k IH]; intros g; [reflexivity|]. simpl even_loop. rewrite <- IH. f_equal. ring. Qed.

Lemma odd_loop_mult k c g : odd_loop k (c * g) = c * odd_loop k g.
Proof. revert g. induction k as [|k IH]; intros g; [reflexivity|]. simpl odd_loop. rewrite <- IH. f_equal. ring. Qed.

Lemma gamma_step d : ball_gamma (S (S d)) = INR (S (S d)) / 2 * ball_gamma d.
Proof.
unfold ball_gamma. change (Nat.even (S (S d))) with (Nat.even d). destruct (Nat.even d) eqn:E.
- apply Nat.even_spec in E. destruct E as [j ->].
  assert (Nat.div2 (S (S (2 * j))) = S j) as -> by (simpl Nat.div2; f_equal; apply (Nat.div2_double j)).
  rewrite Nat.div2_double. simpl even_loop at 1. rewrite Rmult_comm at 1. rewrite even_loop_mult.
  f_equal. rewrite !S_INR, mult_INR. simpl INR. destruct j; simpl; lra.
- assert (O : Nat.odd d = true) by (unfold Nat.odd; rewrite E; reflexivity).
  apply Nat.odd_spec in O. destruct O as [j ->].
  assert (Nat.div2 (S (S (S (2 * j + 1)))) = S (S j)) as ->.
  { replace (S (S (S (2 * j + 1)))) with (2 * (S (S j)))%nat by lia. apply Nat.div2_double. }
  assert (Nat.div2 (S (2 * j + 1)) = S j) as ->.
  { replace (S (2 * j + 1)) with (2 * (S j))%nat by lia. apply Nat.div2_double. }
  remember (S j) as m eqn:Em. simpl odd_loop at 1. rewrite Rmult_comm at 1. rewrite odd_loop_mult. f_equal.
  change (match m with O => 1 | S _ => INR m + 1 end) with (INR (S m)).
  rewrite Em, !S_INR, plus_INR, mult_INR. simpl INR. lra.
Qed.

Lemma two_step (P : nat -> Prop) : P O -> P (S O) -> (forall d, P d -> P (S (S d))) -> forall d, P d.
Proof. intros H0 H1 H d. assert (P d /\ P (S d)) as [A _]; [|exact A]. induction d; [|destruct IHd]; auto. Qed.

Lemma gamma_pos d : 0 < ball_gamma d.
Proof.
induction d as [| |d IH] using two_step.
- unfold ball_gamma. simpl. lra.
- unfold ball_gamma. simpl. assert (H := sqrt_pi_pos). lra.
- rewrite gamma_step. apply Rmult_lt_0_compat; [|exact IH]. assert (0 < INR (S (S d))) by (apply lt_0_INR; lia). lra.
Qed.

Lemma volume_gamma d r : ball_volume d r = (sqrt PI * r) ^ d / ball_gamma d.
Proof.
assert (H := sqrt_pi_pos).
induction d as [| |d IH] using two_step.
- unfold ball_gamma. simpl. field.
- unfold ball_gamma. simpl. field. lra.
- change (ball_volume (S (S d)) r) with (2 * PI * r ^ 2 / INR (S (S d)) * ball_volume d r).
  rewrite IH, gamma_step. assert (G := gamma_pos d). assert (0 < INR (S (S d))) by (apply lt_0_INR; lia).
  replace ((sqrt PI * r) ^ S (S d)) with (PI * r ^ 2 * (sqrt PI * r) ^ d).
  + field. lra.
  + change ((sqrt PI * r) ^ S (S d)) with ((sqrt PI * r) * ((sqrt PI * r) * (sqrt PI * r) ^ d)).
    rewrite <- (sqrt_sqrt PI) at 1 by (left; exact PI_RGT_0). ring.
Qed.

(** C90: a ball with the computed radius has the given volume, and no other has. *)
Theorem C90_ball d volume : (0 < d)%nat -> 0 < volume ->
  0 < ball_radius volume d /\ ball_volume d (ball_radius volume d) = volume /\
  (forall r, 0 < r -> ball_volume d r = volume -> r = ball_radius volume d).
Proof.
intros Hd Hv. assert (H := sqrt_pi_pos). assert (G := gamma_pos d).
assert (Hn : 0 < INR d) by (apply lt_0_INR; exact Hd).
assert (HG : 0 < ball_gamma d * volume) by (apply Rmult_lt_0_compat; assumption).
split; [|split].
- unfold ball_radius. apply Rmult_lt_0_compat; [apply exp_pos|]. apply Rinv_0_lt_compat. exact H.
- rewrite volume_gamma. unfold ball_radius.
  replace (sqrt PI * (Rpower (ball_gamma d * volume) (1 / INR d) / sqrt PI))
    with (Rpower (ball_gamma d * volume) (1 / INR d)) by (field; lra).
  rewrite <- Rpower_pow by apply exp_pos. rewrite Rpower_mult.
  replace (1 / INR d * INR d) with 1 by (field; lra). rewrite Rpower_1 by assumption. field. lra.
- intros r Hr E. rewrite volume_gamma in E. unfold ball_radius.
  assert (E' : ball_gamma d * volume = (sqrt PI * r) ^ d) by (rewrite <- E; field; lra).
  rewrite E'. rewrite <- Rpower_pow by (apply Rmult_lt_0_compat; assumption). rewrite Rpower_mult.
  replace (INR d * (1 / INR d)) with 1 by (field; lra).
  rewrite Rpower_1 by (apply Rmult_lt_0_compat; assumption). field. lra.
Qed.

Lemma axis_gt1 N d : (1 < N)%nat -> (0 < d)%nat -> 1 < Rpower (INR N) (1 / INR d).
Proof.
intros HN Hd. assert (Hn : 0 < INR d) by (apply lt_0_INR; exact Hd).
assert (H1 : 1 < INR N) by (change 1 with (INR 1); apply lt_INR; exact HN).
apply Rle_lt_trans with (Rpower (INR N) 0); [right; rewrite Rpower_O; lra|]. apply Rpower_lt; [exact H1|].
apply Rmult_lt_0_compat; [lra|apply Rinv_0_lt_compat; exact Hn].
Qed.

(** C90: a ValueError is raised exactly if the ball would hold less than one point;
    otherwise there is a radius (no division by zero for any density below 1). *)
Theorem C90_raises N d density : (0 < d)%nat -> density < 1 ->
  (kernel_radius N d density = ValueError <-> density * INR N < 1) /\
  (1 <= density * INR N -> exists R,
     0 < R /\ ball_volume d R = density * INR N /\ 1 < Rpower (INR N) (1 / INR d) /\
     kernel_radius N d density = Estimate (R / (Rpower (INR N) (1 / INR d) - 1))).
Proof.
intros Hd H1. unfold kernel_radius. destruct (Rlt_dec (density * INR N) 1) as [H|H].
- split; [tauto|]. intros H'. lra.
- assert (HN : (1 < N)%nat).
  { destruct N as [|[|N]]; [simpl in H; lra|simpl in H; lra|lia]. }
  assert (A := axis_gt1 N d HN Hd).
  destruct (Req_EM_T (Rpower (INR N) (1 / INR d) - 1) 0) as [E|_]; [lra|].
  split; [split; [discriminate|tauto]|]. intros _.
  destruct (C90_ball d (density * INR N) Hd) as (B1 & B2 & _); [lra|].
  exists (ball_radius (density * INR N) d). split; [exact B1|]. split; [exact B2|]. split; [exact A|].
  f_equal. field. lra.
Qed.

(** C90: exactly the pairs of points nearer than the radius are kept, whatever kernel
    (with a closed form) and scale; so the pattern depends on the points and on the
    density only, and a point is always kept with itself. *)
Theorem C90_kept bessel N d density scale k p f (x y : nat -> R) r :
  closed_form k p f -> 0 < scale -> 0 <= r -> kernel_radius N d density = Estimate r ->
  exists threshold v,
    estimate_kernel_threshold bessel N d density scale k p = Estimate (Some threshold) /\
    kernel_function bessel k (euclidean_distance x y scale d) p = Some v /\
    (threshold < v <-> euclid d x y < r).
Proof.
intros Hk Hs Hr E. unfold estimate_kernel_threshold. rewrite E.
exists (f (r / scale)), (f (euclid d x y / scale)).
rewrite distance_euclid, !(C45_kernel bessel k p f Hk). split; [reflexivity|]. split; [reflexivity|].
assert (C := closed_form_corr k p f Hk). assert (S : 0 < / scale) by (apply Rinv_0_lt_compat; assumption).
assert (P := euclid_pos d x y).
assert (Pd : 0 <= euclid d x y / scale) by (apply Rmult_le_pos; lra).
assert (Pr : 0 <= r / scale) by (apply Rmult_le_pos; lra). split.
- intros H. apply Rnot_le_lt. intros G. apply (Rlt_not_le _ _ H).
  assert (G' : r / scale <= euclid d x y / scale) by (apply Rmult_le_compat_r; [lra|assumption]).
  destruct G' as [G'|G']; [|rewrite G'; lra]. left. apply (corr_dec f C); assumption.
- intros H. apply (corr_dec f C); [assumption|]. apply Rmult_lt_compat_r; assumption.
Qed.

(** C90: on the grid with s points along each of d axes (s^d points at distance
    1/(s-1)) the radius is R steps of the grid, where the ball with radius R has the
    volume density s^d. *)
Theorem C90_grid s d density : (1 < s)%nat -> (0 < d)%nat -> density < 1 -> 1 <= density * INR (s ^ d) ->
  exists R, 0 < R /\ ball_volume d R = density * INR (s ^ d) /\
    kernel_radius (s ^ d) d density = Estimate (R * (1 / (INR s - 1))).
Proof.
intros Hs Hd H1 H. assert (S1 : 1 < INR s) by (change 1 with (INR 1); apply lt_INR; exact Hs).
assert (Hn : 0 < INR d) by (apply lt_0_INR; exact Hd).
destruct (C90_raises (s ^ d) d density Hd H1) as [_ E]. destruct (E H) as (R & P & V & _ & K).
exists R. split; [exact P|]. split; [exact V|]. rewrite K. f_equal. rewrite pow_INR.
rewrite <- Rpower_pow by lra. rewrite Rpower_mult.
replace (INR d * (1 / INR d)) with 1 by (field; lra). rewrite Rpower_1 by lra. field. lra.
Qed.

(** ** Room *)
Lemma ceil_ge x : x <= IZR (ceil x).
Proof. unfold ceil. rewrite opp_IZR. destruct (base_Int_part (- x)). lra. Qed.

Lemma ceil_lt x : IZR (ceil x) < x + 1.
Proof. unfold ceil. rewrite opp_IZR. destruct (base_Int_part (- x)). lra. Qed.

(** C90: the first arrays have at least density N^2 / radius entries, where the ball
    with this radius has the volume 1; in particular they are not empty. *)
Theorem C90_room N d density : (0 < d)%nat -> 1 <= density * INR N ->
  exists R, 0 < R /\ ball_volume d R = 1 /\ density * INR N ^ 2 / R <= IZR (estimate_max_nnz N d density) /\
    (0 < estimate_max_nnz N d density)%Z.
Proof.
intros Hd H. destruct (C90_ball d 1 Hd) as (B1 & B2 & _); [lra|].
exists (ball_radius 1 d). split; [exact B1|]. split; [exact B2|]. unfold estimate_max_nnz.
set (R := ball_radius 1 d) in *. assert (I : 0 < / R) by (apply Rinv_0_lt_compat; exact B1).
assert (HN : 0 < INR N).
{ assert (P := pos_INR N). destruct P as [P|P]; [exact P|]. rewrite <- P in H. lra. }
assert (H2 : 0 < density * INR N ^ 2) by (simpl; nra).
assert (C := ceil_ge (density * INR N ^ 2)). set (n := ceil (density * INR N ^ 2)) in *.
assert (C' := ceil_ge (1 / R * IZR n)). unfold Rdiv in *. rewrite Rmult_1_l in *.
assert (G : density * INR N ^ 2 * / R <= / R * IZR n) by (rewrite Rmult_comm; apply Rmult_le_compat_l; lra).
split; [lra|]. apply lt_IZR. assert (0 < density * INR N ^ 2 * / R) by (apply Rmult_lt_0_compat; assumption). simpl IZR at 1. lra.
Qed.

(** On the line the arrays have room for 2 density N^2 entries. *)
Lemma room_line N density : 1 <= density * INR N -> 2 * (density * INR N ^ 2) <= IZR (estimate_max_nnz N 1 density).
Proof.
intros H. destruct (C90_room N 1 density (le_n 1) H) as (R & P & V & B & _). simpl in V.
assert (R = 1 / 2) as -> by lra. unfold Rdiv in B. replace (/ (1 * / 2)) with 2 in B by field. lra.
Qed.

(** The intended allowance (the cube over the ball with the same diameter) shrinks
    with the dimension: in 18 dimensions the first arrays have room for less than
    the estimated number of entries. *)
Theorem C90_allowance_refuted N density : (2 ^ 18 <= N)%nat -> 1 <= density * INR N ->
  (estimate_max_nnz N 18 density < ceil (density * INR N ^ 2))%Z.
Proof.
intros HN H. unfold estimate_max_nnz. set (E := ceil (density * INR N ^ 2)).
assert (HN' : 262144 <= INR N).
{ replace 262144 with (INR (2 ^ 18)). - apply le_INR. exact HN. - rewrite pow_INR. simpl INR. field_simplify. lra. }
assert (HE : 262144 <= IZR E).
{ apply Rle_trans with (density * INR N ^ 2); [|apply ceil_ge]. simpl. nra. }
destruct (C90_ball 18 1) as (B1 & B2 & _); [lia|lra|]. set (R := ball_radius 1 18) in *.
(* R^18 = 9! / pi^9 > 1 + 18 / 1000 *)
assert (HR : 1001 / 1000 < R).
{ apply Rnot_le_lt. intros G.
  assert (PU : PI <= 4) by exact PI_4. assert (PL := PI_RGT_0).
  assert (HV : ball_volume 18 R = PI ^ 9 * (R ^ 2) ^ 9 / 362880).
  { simpl ball_volume. simpl INR. field. }
  rewrite HV in B2.
  assert (P9 : PI ^ 9 <= 4 ^ 9) by (apply pow_incr; lra).
  assert (R2 : 0 <= R ^ 2 <= 10021 / 10000) by (simpl; nra).
  assert (R9 : (R ^ 2) ^ 9 <= (10021 / 10000) ^ 9) by (apply pow_incr; exact R2).
  assert (P0 : 0 < PI ^ 9) by (apply pow_lt; exact PL).
  assert (Q0 : 0 <= (R ^ 2) ^ 9) by (apply pow_le; lra).
  assert (PI ^ 9 * (R ^ 2) ^ 9 <= 4 ^ 9 * (10021 / 10000) ^ 9) by (apply Rmult_le_compat; lra).
  assert (4 ^ 9 * (10021 / 10000) ^ 9 < 362880) by (simpl; lra). lra. }
apply lt_IZR. apply Rlt_le_trans with (1 / R * IZR E + 1); [apply ceil_lt|].
assert (I : 1 / R <= 1000 / 1001).
{ unfold Rdiv. rewrite Rmult_1_l. replace (1000 * / 1001) with (/ (1001 / 1000)) by field.
  apply Rinv_le_contravar; lra. }
nra.
Qed.

(** A line of 100 points with density 0.1: pairs with fewer than 5 steps between them *)
Example C90_line_case : kernel_radius 100 1 (1 / 10) = Estimate (5 * (1 / (INR 100 - 1))).
Proof.
destruct (C90_grid 100 1 (1 / 10)) as (R & P & V & E).
- lia.
- lia.
- lra.
- simpl INR. lra.
- simpl in V. assert (R = 5) as -> by (simpl INR in V; lra). exact E.
Qed.

Definition C90_ball_assumptions := (@C90_ball, @C90_raises, @C90_kept, @C90_grid, @C90_room, @C90_allowance_refuted).
Print Assumptions C90_ball_assumptions.
