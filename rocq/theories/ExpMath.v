(** Partial sums of the series of the exponential function, over the real numbers. *)
From Coq Require Import Reals Lra Lia Psatz.
Local Open Scope R_scope.

Definition eterm (x : R) (j : nat) : R := x ^ j / INR (fact j).
Fixpoint psum (x : R) (D : nat) : R := match D with O => 0 | S D' => psum x D' + eterm x D' end.

Lemma psum_sum x D : psum x (S D) = sum_f_R0 (fun i => / INR (fact i) * x ^ i) D.
Proof.
induction D as [|D IH]; [simpl; unfold eterm; simpl; lra|].
change (psum x (S (S D))) with (psum x (S D) + eterm x (S D)). rewrite IH. simpl sum_f_R0.
unfold eterm, Rdiv. rewrite (Rmult_comm (x ^ S D)). reflexivity.
Qed.

Lemma psum_cv x eps : 0 < eps -> exists M, forall N, (M <= N)%nat -> Rabs (psum x N - exp x) < eps.
Proof.
intros He. unfold exp. destruct (exist_exp x) as [y Hy]; simpl. destruct (Hy eps He) as [M HM].
exists (S M). intros [|N] HN; [lia|]. rewrite psum_sum. apply HM. lia.
Qed.

Lemma term_ge0 x j : 0 <= x -> 0 <= eterm x j.
Proof. intros H. apply Rmult_le_pos; [now apply pow_le|left; apply Rinv_0_lt_compat, INR_fact_lt_0]. Qed.

Lemma psum_mono x D i : 0 <= x -> psum x D <= psum x (i + D).
Proof. intros H. induction i as [|i IH]; simpl; [lra|]. pose proof (term_ge0 x (i + D) H). lra. Qed.

Lemma psum_le x D : 0 <= x -> psum x D <= exp x.
Proof.
intros H. destruct (Rle_or_lt (psum x D) (exp x)) as [|Hl]; [assumption|].
destruct (psum_cv x (psum x D - exp x)) as [M HM]; [lra|].
pose proof (HM (M + D)%nat ltac:(lia)) as H1. pose proof (psum_mono x D M H) as H2.
apply Rabs_def2 in H1. lra.
Qed.

Lemma fact_mul D i : (fact D * fact i <= fact (i + D))%nat.
Proof. induction i as [|i IH]; simpl; [lia|]. nia. Qed.

Lemma term_split x D i : 0 <= x -> eterm x (i + D) <= eterm x D * eterm x i.
Proof.
intros H. unfold eterm, Rdiv. rewrite pow_add.
replace (x ^ D * / INR (fact D) * (x ^ i * / INR (fact i))) with
  (x ^ i * x ^ D * (/ INR (fact D) * / INR (fact i))) by ring.
apply Rmult_le_compat_l; [apply Rmult_le_pos; now apply pow_le|].
rewrite <- Rinv_mult. rewrite <- mult_INR. apply Rinv_le_contravar.
- apply lt_0_INR. pose proof (lt_O_fact D). pose proof (lt_O_fact i). nia.
- apply le_INR, fact_mul.
Qed.

Lemma psum_tail x D i : Rabs (psum x (i + D) - psum x D) <= eterm (Rabs x) D * psum (Rabs x) i.
Proof.
induction i as [|i IH]; simpl.
- rewrite Rminus_diag_eq, Rabs_R0 by reflexivity. lra.
- replace (psum x (i + D) + eterm x (i + D) - psum x D) with
    (psum x (i + D) - psum x D + eterm x (i + D)) by ring.
  pose proof (term_split (Rabs x) D i (Rabs_pos x)).
  assert (E : Rabs (eterm x (i + D)) = eterm (Rabs x) (i + D)).
  { unfold eterm, Rdiv. rewrite Rabs_mult, RPow_abs. f_equal. apply Rabs_right.
    left. apply Rinv_0_lt_compat, INR_fact_lt_0. }
  pose proof (Rabs_triang (psum x (i + D) - psum x D) (eterm x (i + D))). lra.
Qed.

Lemma exp_taylor x D : Rabs (exp x - psum x D) <= eterm (Rabs x) D * exp (Rabs x).
Proof.
destruct (Rle_or_lt (Rabs (exp x - psum x D)) (eterm (Rabs x) D * exp (Rabs x))) as [|Hl]; [assumption|].
destruct (psum_cv x _ (Rlt_Rminus _ _ Hl)) as [M HM].
pose proof (HM (M + D)%nat ltac:(lia)) as H1.
pose proof (psum_tail x D M) as H2.
pose proof (Rmult_le_compat_l _ _ _ (term_ge0 _ D (Rabs_pos x)) (psum_le (Rabs x) M (Rabs_pos x))) as H3.
assert (H4 : Rabs (exp x - psum x D) <= Rabs (psum x (M + D) - exp x) + Rabs (psum x (M + D) - psum x D)).
{ replace (exp x - psum x D) with (- (psum x (M + D) - exp x) + (psum x (M + D) - psum x D)) by ring.
  rewrite <- (Rabs_Ropp (psum x (M + D) - exp x)). apply Rabs_triang. }
lra.
Qed.

(** The sum of the derivatives *)
Fixpoint dsum (x : R) (D : nat) : R :=
  match D with O => 0 | S D' => dsum x D' + INR D' * x ^ pred D' / INR (fact D') end.

Lemma dsum_psum x D : dsum x (S D) = psum x D.
Proof.
induction D as [|D IH]; [simpl; lra|].
change (dsum x (S (S D))) with (dsum x (S D) + INR (S D) * x ^ D / INR (fact (S D))). rewrite IH.
change (psum x (S D)) with (psum x D + eterm x D). f_equal. unfold eterm.
rewrite fact_simpl, mult_INR. field. split; [apply INR_fact_neq_0|now apply not_0_INR].
Qed.

Lemma dsum_le x D : 0 <= x -> dsum x D <= exp x.
Proof.
intros H. destruct D as [|D]; [simpl; left; apply exp_pos|]. rewrite dsum_psum. now apply psum_le.
Qed.

Lemma term_small x eps : 0 < eps -> exists M, forall N, (M <= N)%nat -> Rabs (eterm x N) < eps.
Proof.
intros He. destruct (cv_speed_pow_fact x eps He) as [M HM]. exists M. intros N HN.
generalize (HM N HN). unfold R_dist, eterm. now rewrite Rminus_0_r.
Qed.

(** A linear functional that is bounded by twice the largest value on [lo, hi], and
    small for the powers of the distance to the middle, is small for exponentials. *)
Section Functional.
Variable L : (R -> R) -> R.
Variables lo hi : R.
Hypothesis lohi : lo <= hi.
Hypothesis Llin : forall g h a, L (fun y => g y + a * h y) = L g + a * L h.
Hypothesis Lext : forall g h, (forall y, g y = h y) -> L g = L h.
Hypothesis Lbound : forall g delta, (forall y, lo <= y <= hi -> Rabs (g y) <= delta) -> Rabs (L g) <= 2 * delta.
Let mid := (lo + hi) / 2.
Let h := (hi - lo) / 2.

Lemma L0 : L (fun _ => 0) = 0.
Proof.
assert (H : Rabs (L (fun _ => 0)) <= 2 * 0) by (apply Lbound; intros; rewrite Rabs_R0; lra).
generalize (Rabs_pos (L (fun _ => 0))). intros H1. destruct (Req_dec (L (fun _ => 0)) 0) as [E|E]; [exact E|].
generalize (Rabs_pos_lt _ E). lra.
Qed.

Lemma L_psum kappa rho D :
  (forall j, (j < D)%nat -> Rabs (L (fun y => (y - mid) ^ j)) <= INR j * h ^ pred j * rho) ->
  Rabs (L (fun y => psum (kappa * (y - mid)) D)) <= Rabs kappa * dsum (Rabs kappa * h) D * rho.
Proof.
induction D as [|D IH]; intros H.
- simpl. rewrite L0, Rabs_R0. lra.
- assert (H1 := H D ltac:(lia)). assert (H2 : forall j, (j < D)%nat -> Rabs (L (fun y => (y - mid) ^ j)) <= INR j * h ^ pred j * rho).
  { intros j Hj. apply H. lia. }
  specialize (IH H2).
  rewrite (Lext _ (fun y => psum (kappa * (y - mid)) D + (kappa ^ D / INR (fact D)) * (y - mid) ^ D)).
  2:{ intros y. simpl. unfold eterm. rewrite Rpow_mult_distr. field. apply INR_fact_neq_0. }
  rewrite Llin. eapply Rle_trans; [apply Rabs_triang|].
  rewrite Rabs_mult.
  assert (E : Rabs (kappa ^ D / INR (fact D)) = Rabs kappa ^ D / INR (fact D)).
  { unfold Rdiv. rewrite Rabs_mult, RPow_abs. f_equal. apply Rabs_right. left. apply Rinv_0_lt_compat, INR_fact_lt_0. }
  rewrite E. change (dsum (Rabs kappa * h) (S D)) with
    (dsum (Rabs kappa * h) D + INR D * (Rabs kappa * h) ^ pred D / INR (fact D)).
  assert (H3 : Rabs kappa ^ D / INR (fact D) * Rabs (L (fun y => (y - mid) ^ D)) <=
    Rabs kappa * (INR D * (Rabs kappa * h) ^ pred D / INR (fact D)) * rho).
  { eapply Rle_trans; [apply Rmult_le_compat_l; [|exact H1]|].
    - apply term_ge0, Rabs_pos.
    - right. destruct D as [|D]; [simpl; lra|]. simpl pred. rewrite Rpow_mult_distr.
      change (Rabs kappa ^ S D) with (Rabs kappa * Rabs kappa ^ D). field. apply INR_fact_neq_0. }
  lra.
Qed.

Lemma exp_functional kappa rho D : 0 <= rho ->
  (forall j, (j < D)%nat -> Rabs (L (fun y => (y - mid) ^ j)) <= INR j * h ^ pred j * rho) ->
  Rabs (L (fun y => exp (kappa * y))) <=
  exp (Rmax (kappa * lo) (kappa * hi)) * (2 * eterm (Rabs kappa * h) D + Rabs kappa * rho).
Proof.
intros Hrho H. assert (Hh : 0 <= h) by (unfold h; lra).
assert (Hk := Rabs_pos kappa). assert (Hkh : 0 <= Rabs kappa * h) by now apply Rmult_le_pos.
set (g y := exp (kappa * (y - mid)) - psum (kappa * (y - mid)) D).
set (a := exp (kappa * mid)). assert (Ha : 0 < a) by apply exp_pos.
assert (Hg : Rabs (L g) <= 2 * (eterm (Rabs kappa * h) D * exp (Rabs kappa * h))).
{ apply Lbound. intros y Hy. unfold g. eapply Rle_trans; [apply exp_taylor|].
  assert (Hx : Rabs (kappa * (y - mid)) <= Rabs kappa * h).
  { rewrite Rabs_mult. apply Rmult_le_compat_l; [exact Hk|]. apply Rabs_le. unfold h, mid. lra. }
  apply Rmult_le_compat; [apply term_ge0, Rabs_pos|left; apply exp_pos| |].
  - unfold eterm, Rdiv. apply Rmult_le_compat_r; [left; apply Rinv_0_lt_compat, INR_fact_lt_0|].
    apply pow_incr. split; [apply Rabs_pos|exact Hx].
  - destruct Hx as [Hx|Hx]; [left; now apply exp_increasing|right; now rewrite Hx]. }
assert (E1 : L (fun y => exp (kappa * (y - mid))) = L g + 1 * L (fun y => psum (kappa * (y - mid)) D)).
{ rewrite <- Llin. apply Lext. intros y. unfold g. ring. }
assert (E2 : L (fun y => exp (kappa * y)) = L (fun _ => 0) + a * L (fun y => exp (kappa * (y - mid)))).
{ rewrite <- Llin. apply Lext. intros y. unfold a. rewrite Rplus_0_l, <- exp_plus. f_equal. ring. }
rewrite E2, L0, Rplus_0_l, Rabs_mult, (Rabs_right a) by lra. rewrite E1, Rmult_1_l.
assert (HP := L_psum kappa rho D H).
assert (HD := dsum_le (Rabs kappa * h) D Hkh).
assert (HP2 : Rabs kappa * dsum (Rabs kappa * h) D * rho <= Rabs kappa * exp (Rabs kappa * h) * rho).
{ apply Rmult_le_compat_r; [exact Hrho|]. now apply Rmult_le_compat_l. }
assert (EM : exp (Rmax (kappa * lo) (kappa * hi)) = a * exp (Rabs kappa * h)).
{ unfold a. rewrite <- exp_plus. f_equal. unfold mid, h. destruct (Rle_or_lt 0 kappa) as [K|K].
  - rewrite Rabs_right by lra. rewrite Rmax_right; [field|nra].
  - rewrite Rabs_left by lra. rewrite Rmax_left; [field|nra]. }
rewrite EM, Rmult_assoc. apply Rmult_le_compat_l; [lra|].
eapply Rle_trans; [apply Rabs_triang|]. nra.
Qed.

(** All powers: no term for the degree *)
Lemma exp_functional_all kappa rho : 0 <= rho ->
  (forall j, Rabs (L (fun y => (y - mid) ^ j)) <= INR j * h ^ pred j * rho) ->
  Rabs (L (fun y => exp (kappa * y))) <= exp (Rmax (kappa * lo) (kappa * hi)) * (Rabs kappa * rho).
Proof.
intros Hrho H. apply Rnot_lt_le. intros Hl. set (b := exp _) in *.
assert (Hb : 0 < b) by apply exp_pos.
set (gap := Rabs (L (fun y => exp (kappa * y))) - b * (Rabs kappa * rho)) in *.
assert (Hgap : 0 < gap / (4 * b)) by (apply Rdiv_lt_0_compat; unfold gap; lra).
destruct (term_small (Rabs kappa * h) _ Hgap) as [M HM].
assert (H1 := exp_functional kappa rho M Hrho (fun j _ => H j)). fold b in H1.
assert (H2 := HM M (le_n M)). apply Rabs_def2 in H2.
assert (H3 : b * eterm (Rabs kappa * h) M < gap / 4).
{ replace (gap / 4) with (b * (gap / (4 * b))) by (field; lra). apply Rmult_lt_compat_l; lra. }
unfold gap in *. nra.
Qed.
End Functional.
