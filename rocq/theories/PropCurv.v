(** C95: the scale found for kind='crf'. *)
Require Import Reals List Lra Lia.
From Verif Require Import CurvModel.
Import ListNotations.
Local Open Scope R_scope.

(** Specification: a minimiser never gives a point worse than the one it starts from *)
Definition le_ext (a b : extended) : Prop :=
  match a, b with _, Inf => True | Finite x, Finite y => x <= y | Inf, Finite _ => False end.
Definition minimises (minimize : (R -> extended) -> R -> R) : Prop :=
  forall f x, le_ext (f (minimize f x)) (f x).

Lemma chebytSS n x : eval_chebyt (S (S n)) x = 2 * x * eval_chebyt (S n) x - eval_chebyt n x.
Proof. reflexivity. Qed.
Lemma chebyuSS n x : eval_chebyu (S (S n)) x = 2 * x * eval_chebyu (S n) x - eval_chebyu n x.
Proof. reflexivity. Qed.

Lemma pair_ind (P : nat -> Prop) : P O -> P 1%nat -> (forall n, P n -> P (S n) -> P (S (S n))) -> forall n, P n.
Proof.
  intros H0 H1 HS n. assert (P n /\ P (S n)) as [H _]; [|exact H].
  induction n as [|n [IH1 IH2]]; split; auto.
Qed.

(** T of the first kind by U of the second *)
Lemma T_U n x : eval_chebyt (S n) x = eval_chebyu (S n) x - x * eval_chebyu n x.
Proof.
  revert n. apply pair_ind; [simpl; ring|simpl; ring|].
  intros n H1 H2. rewrite chebytSS, H1, H2, !chebyuSS. ring.
Qed.

Lemma T_deriv n : forall x, derivable_pt_lim (eval_chebyt (S n)) x (INR (S n) * eval_chebyu n x).
Proof.
  revert n. apply (pair_ind (fun n => forall x, derivable_pt_lim (eval_chebyt (S n)) x (INR (S n) * eval_chebyu n x))).
  - intros x. simpl. replace (1 * 1) with 1 by ring. apply derivable_pt_lim_id.
  - intros x. simpl.
    replace ((1 + 1) * (2 * x)) with ((2 * 1) * x + (2 * x) * 1 - 0) by ring.
    apply (derivable_pt_lim_minus (fun y => 2 * y * y) (fun _ => 1)); [|apply derivable_pt_lim_const].
    apply (derivable_pt_lim_mult (fun y => 2 * y) (fun y => y)); [|apply derivable_pt_lim_id].
    apply (derivable_pt_lim_scal (fun y => y)). apply derivable_pt_lim_id.
  - intros n H1 H2 x.
    replace (INR (S (S (S n))) * eval_chebyu (S (S n)) x) with
      (((2 * 1) * eval_chebyt (S (S n)) x + (2 * x) * (INR (S (S n)) * eval_chebyu (S n) x))
       - INR (S n) * eval_chebyu n x).
    2:{ rewrite T_U, chebyuSS, !S_INR. ring. }
    apply (derivable_pt_lim_minus (fun y => 2 * y * eval_chebyt (S (S n)) y) (eval_chebyt (S n))); [|apply H1].
    apply (derivable_pt_lim_mult (fun y => 2 * y) (eval_chebyt (S (S n)))); [|apply H2].
    apply (derivable_pt_lim_scal (fun y => y)). apply derivable_pt_lim_id.
Qed.

(** The derivative of U *)
Fixpoint dU (n : nat) (x : R) : R :=
  match n with
  | O => 0
  | S m => match m with O => 2 | S k => 2 * eval_chebyu m x + 2 * x * dU m x - dU k x end
  end.
Lemma dUSS n x : dU (S (S n)) x = 2 * eval_chebyu (S n) x + 2 * x * dU (S n) x - dU n x.
Proof. reflexivity. Qed.

Lemma U_deriv n : forall x, derivable_pt_lim (eval_chebyu n) x (dU n x).
Proof.
  revert n. apply (pair_ind (fun n => forall x, derivable_pt_lim (eval_chebyu n) x (dU n x))).
  - intros x. apply derivable_pt_lim_const.
  - intros x.
    assert (E : derivable_pt_lim (fun y => 2 * y) x (2 * 1)).
    { apply (derivable_pt_lim_scal (fun y => y)). apply derivable_pt_lim_id. }
    rewrite Rmult_1_r in E. exact E.
  - intros n H1 H2 x. rewrite dUSS.
    replace (2 * eval_chebyu (S n) x) with ((2 * 1) * eval_chebyu (S n) x) by ring.
    apply (derivable_pt_lim_minus (fun y => 2 * y * eval_chebyu (S n) y) (eval_chebyu n)); [|apply H1].
    apply (derivable_pt_lim_mult (fun y => 2 * y) (eval_chebyu (S n))); [|apply H2].
    apply (derivable_pt_lim_scal (fun y => y)). apply derivable_pt_lim_id.
Qed.

Lemma dU_formula n x : (x ^ 2 - 1) * dU n x = INR (S n) * eval_chebyt (S n) x - x * eval_chebyu n x.
Proof.
  revert n. apply pair_ind; [simpl; ring|simpl; ring|].
  intros n H1 H2. rewrite dUSS.
  replace ((x ^ 2 - 1) * (2 * eval_chebyu (S n) x + 2 * x * dU (S n) x - dU n x)) with
    (2 * (x ^ 2 - 1) * eval_chebyu (S n) x + 2 * x * ((x ^ 2 - 1) * dU (S n) x) - (x ^ 2 - 1) * dU n x) by ring.
  rewrite H1, H2, !T_U, !chebyuSS, !S_INR. ring.
Qed.

Lemma U_one n : eval_chebyu n 1 = INR n + 1.
Proof.
  revert n. apply pair_ind; [simpl; ring|simpl; ring|].
  intros n H1 H2. rewrite chebyuSS, H1, H2, !S_INR. ring.
Qed.

Lemma dU_one n : dU n 1 = INR n * (INR n + 1) * (INR n + 2) / 3.
Proof.
  revert n. apply pair_ind; [simpl; field|simpl; field|].
  intros n H1 H2. rewrite dUSS, H1, H2, U_one, !S_INR. field.
Qed.

Lemma U_minus n : eval_chebyu n (- 1) = (- 1) ^ n * (INR n + 1).
Proof.
  revert n. apply pair_ind; [simpl; ring|simpl; ring|].
  intros n H1 H2. rewrite chebyuSS, H1, H2, !S_INR. simpl. ring.
Qed.

Lemma dU_minus n : dU n (- 1) = - (- 1) ^ n * (INR n * (INR n + 1) * (INR n + 2) / 3).
Proof.
  revert n. apply pair_ind; [simpl; field|simpl; field|].
  intros n H1 H2. rewrite dUSS, H1, H2, U_minus, !S_INR. simpl pow. field.
Qed.

Lemma d2T_eq n x : d2T (S n) x = INR (S n) * dU n x.
Proof.
  unfold d2T. destruct (Req_EM_T x 1) as [->|N1].
  { rewrite dU_one, S_INR. field. }
  destruct (Req_EM_T x (- 1)) as [->|N2].
  { rewrite dU_minus, S_INR. simpl pow. field. }
  replace (S n - 1)%nat with n by lia. rewrite <- dU_formula. field.
  intros H. assert ((x - 1) * (x + 1) = 0) as E by (rewrite <- H; ring).
  apply Rmult_integral in E. destruct E; [apply N1|apply N2]; lra.
Qed.

(** The functions d1T and d2T are the first and second derivative of the Chebyshev
    polynomials, at the ends of the interval too *)
Theorem C95_derivatives n x : (1 <= n)%nat ->
  derivable_pt_lim (eval_chebyt n) x (d1T n x) /\ derivable_pt_lim (d1T n) x (d2T n x).
Proof.
  intros Hn. destruct n as [|n]; [lia|]. unfold d1T. replace (S n - 1)%nat with n by lia. split.
  - apply T_deriv.
  - rewrite d2T_eq. apply (derivable_pt_lim_scal (eval_chebyu n)). apply U_deriv.
Qed.

(** Sums of terms, from the back *)
Fixpoint sum_terms (term : nat -> R -> R) (coeff : list R) (j : nat) (x : R) : R :=
  match coeff with [] => 0 | c :: l => / 2 * c * term (S j) x + sum_terms term l (S j) x end.
Lemma add_termsE term x coeff : forall j acc, add_terms term x coeff j acc = acc + sum_terms term coeff j x.
Proof.
  induction coeff as [|c l IH]; intros j acc; simpl; [ring|]. rewrite IH. ring.
Qed.

Lemma interpolant_deriv coeff : forall j x,
  derivable_pt_lim (interpolant coeff j) x (- sum_terms d1T coeff j x).
Proof.
  induction coeff as [|c l IH]; intros j x.
  { simpl. rewrite Ropp_0. apply derivable_pt_lim_const. }
  simpl. replace (- (/ 2 * c * d1T (S j) x + sum_terms d1T l (S j) x)) with
    (c * / 2 * (0 - d1T (S j) x) + - sum_terms d1T l (S j) x) by ring.
  apply (derivable_pt_lim_plus (fun y => c * / 2 * (1 - eval_chebyt (S j) y)) (interpolant l (S j))); [|apply IH].
  apply (derivable_pt_lim_scal (fun y => 1 - eval_chebyt (S j) y)).
  apply (derivable_pt_lim_minus (fun _ => 1) (eval_chebyt (S j))); [apply derivable_pt_lim_const|].
  apply C95_derivatives. lia.
Qed.

Lemma sum_deriv coeff : forall j x,
  derivable_pt_lim (fun y => - sum_terms d1T coeff j y) x (- sum_terms d2T coeff j x).
Proof.
  intros j x. apply (derivable_pt_lim_opp (sum_terms d1T coeff j)). revert j x.
  induction coeff as [|c l IH]; intros j x; [apply derivable_pt_lim_const|].
  simpl. apply (derivable_pt_lim_plus (fun y => / 2 * c * d1T (S j) y) (sum_terms d1T l (S j))); [|apply IH].
  apply (derivable_pt_lim_scal (d1T (S j))). apply C95_derivatives. lia.
Qed.

(** What is integrated is f''^2 / (1 + f'^2)^(5/2) for the interpolant f with these
    coefficients, at every point *)
Theorem C95_curvature coeff f1 f2 :
  (forall x, derivable_pt_lim (interpolant coeff 0) x (f1 x)) ->
  (forall x, derivable_pt_lim f1 x (f2 x)) ->
  forall x, arc_curvature_squared coeff x = f2 x ^ 2 / Rpower (1 + f1 x ^ 2) (5 / 2).
Proof.
  intros D1 D2 x. unfold arc_curvature_squared. rewrite !add_termsE, !Rplus_0_l.
  assert (E1 : forall y, f1 y = - sum_terms d1T coeff 0 y).
  { intros y. eapply uniqueness_limite; [apply D1|apply interpolant_deriv]. }
  assert (E2 : f2 x = - sum_terms d2T coeff 0 x).
  { eapply uniqueness_limite; [apply D2|].
    intros eps He. destruct (sum_deriv coeff 0 x eps He) as [d Hd]. exists d. intros h Hh Hd'.
    rewrite !E1. apply Hd; assumption. }
  rewrite E1, E2. f_equal; [ring|]. f_equal. ring.
Qed.

(** and the interpolant has such derivatives *)
Theorem C95_smooth coeff : exists f1 f2,
  (forall x, derivable_pt_lim (interpolant coeff 0) x (f1 x)) /\ (forall x, derivable_pt_lim f1 x (f2 x)).
Proof.
  exists (fun x => - sum_terms d1T coeff 0 x), (fun x => - sum_terms d2T coeff 0 x).
  split; intros x; [apply interpolant_deriv|apply sum_deriv].
Qed.

(** The scale that is found is at least 1e-5, so positive, and its curvature is at most
    the one with scale 1 *)
Theorem C95_scale minimize solve quad : minimises minimize ->
  let s := find_scale minimize solve quad in
  1 / 100000 <= s /\
  quad (arc_curvature_squared (solve s)) <= quad (arc_curvature_squared (solve 1)).
Proof.
  intros M s. specialize (M (curvature_integral solve quad) 1).
  unfold s, find_scale. set (r := minimize _ 1) in *. unfold curvature_integral in M.
  destruct (Rlt_dec 1 (1 / 100000)) as [H|_]; [lra|].
  destruct (Rlt_dec r (1 / 100000)) as [H|H]; [contradiction|].
  rewrite Rabs_pos_eq by lra. split; [lra|exact M].
Qed.

(** Cases: a minimiser (the start itself), and a quadratic interpolant *)
Example C95_minimises_case : minimises (fun _ x => x).
Proof. intros f x. destruct (f x); simpl; [apply Rle_refl|exact I]. Qed.
Example C95_curvature_case : arc_curvature_squared [0; 2] 0 = 16 / Rpower 1 (5 / 2).
Proof.
  unfold arc_curvature_squared. simpl add_terms. rewrite !d2T_eq. unfold d1T. simpl.
  f_equal; [field|]. f_equal. f_equal. field.
Qed.

Definition C95_assumptions := (@C95_derivatives, @C95_curvature, @C95_smooth, @C95_scale).
Print Assumptions C95_assumptions.
