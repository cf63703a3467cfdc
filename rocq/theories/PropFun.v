(** The scalar functions (C41) and the inverse error function (C52). *)
Require Import Reals Lra Psatz.
From Coquelicot Require Import Coquelicot.
From Verif Require Import FunSpec FunModel EigenSpec.
Local Open Scope R_scope.

Lemma divide_ok (x y : R) : y <> 0 -> divide x y = Some (x / y).
Proof. intros H; unfold divide; destruct (Req_EM_T y 0); congruence. Qed.

(** ** C41 *)
Theorem C41_inverse (x : R) :
  (x <> 0 -> exists y, inverse x = Some y /\ y * x = 1) /\ inverse 0 = None.
Proof.
  split.
  - intros H. exists (1 / x). split; [now apply divide_ok | field; assumption].
  - unfold inverse, divide. destruct (Req_EM_T 0 0); congruence.
Qed.

Theorem C41_logarithm (x y : R) : 0 < x -> 0 < y ->
  exists lx ly, logarithm x = Some lx /\ logarithm y = Some ly /\
    exp lx = x /\ logarithm (x * y) = Some (lx + ly).
Proof.
  intros Hx Hy. exists (ln x), (ln y). unfold logarithm.
  pose proof (Rmult_lt_0_compat _ _ Hx Hy).
  destruct (Rlt_dec 0 x); [|contradiction]. destruct (Rlt_dec 0 y); [|contradiction].
  destruct (Rlt_dec 0 (x * y)); [|contradiction].
  rewrite exp_ln, ln_mult by assumption. auto.
Qed.

Theorem C41_indicator (a b x : R) :
  (a <= x <= b -> indicator a b x = 1) /\ (~ (a <= x <= b) -> indicator a b x = 0).
Proof.
  unfold indicator. split; intros H; destruct (Rlt_dec x a), (Rlt_dec b x); try reflexivity; lra.
Qed.

Theorem C41_exponential (coeff x y : R) :
  exponential coeff (x + y) = exponential coeff x * exponential coeff y /\
  exponential coeff 0 = 1 /\ is_derive (exponential coeff) x (coeff * exponential coeff x).
Proof.
  unfold exponential. split; [|split].
  - rewrite Rmult_plus_distr_r. apply exp_plus.
  - rewrite Rmult_0_l. apply exp_0.
  - auto_derive; [exact I | ring].
Qed.

Theorem C41_homographic (a b c d x : R) : c * x + d <> 0 ->
  exists y, homographic a b c d x = Some y /\ y * (c * x + d) = a * x + b.
Proof.
  intros H. exists ((a * x + b) / (c * x + d)). split; [now apply divide_ok | field; assumption].
Qed.

Theorem C41_identity_power (x : R) : identity x = x /\ power x = x * x.
Proof. split; [reflexivity | unfold power; simpl; ring]. Qed.

Theorem C41_gaussian (mu sigma x : R) : 0 < sigma ->
  gaussian mu sigma x = Some (normal_density mu sigma x).
Proof.
  intros Hs. unfold gaussian. rewrite !divide_ok by lra. f_equal. unfold normal_density.
  assert (Hp := PI_RGT_0). assert (H2 : 0 < sqrt 2) by (apply sqrt_lt_R0; lra).
  assert (H3 : 0 < sqrt PI) by (apply sqrt_lt_R0; lra).
  rewrite (sqrt_mult 2 PI) by lra. unfold M_SQRT1_2, M_2_SQRTPI.
  replace (- (1 / 2) * ((x - mu) / sigma) * ((x - mu) / sigma))
    with (- ((x - mu) * (x - mu) / (2 * (sigma * sigma)))) by (field; lra).
  field. lra.
Qed.

(** The logistic function with slope 2 alpha *)
Lemma smoothstep_logistic (alpha x : R) : smoothstep alpha x = 1 / (1 + exp (- (2 * (alpha * x)))).
Proof.
  unfold smoothstep, tanh, sinh, cosh. set (t := alpha * x).
  assert (H1 := exp_pos t). assert (H2 := exp_pos (- t)).
  replace (- (2 * t)) with (- t + - t) by ring. rewrite exp_plus.
  assert (H3 : exp t * exp (- t) = 1) by (rewrite <- exp_plus, Rplus_opp_r; apply exp_0).
  assert (H4 : exp t = / exp (- t)) by (rewrite exp_Ropp, Rinv_inv; reflexivity).
  rewrite H4. field. repeat split; nra.
Qed.

Theorem C41_smoothstep (alpha : R) : 0 < alpha ->
  (forall x y, x < y -> smoothstep alpha x < smoothstep alpha y) /\
  (forall x, 0 < smoothstep alpha x < 1) /\
  smoothstep alpha 0 = 1 / 2 /\
  is_lim (smoothstep alpha) m_infty 0 /\ is_lim (smoothstep alpha) p_infty 1.
Proof.
  intros Ha.
  assert (Hpos : forall u, 0 < 1 + exp u) by (intros u; generalize (exp_pos u); lra).
  repeat split.
  - intros x y H. rewrite !smoothstep_logistic. unfold Rdiv. rewrite !Rmult_1_l.
    apply Rinv_lt_contravar; [apply Rmult_lt_0_compat; apply Hpos|].
    apply Rplus_lt_compat_l, exp_increasing. nra.
  - rewrite smoothstep_logistic. unfold Rdiv. rewrite Rmult_1_l. apply Rinv_0_lt_compat, Hpos.
  - rewrite smoothstep_logistic. unfold Rdiv. rewrite Rmult_1_l. set (u := exp _).
    assert (H : / (1 + u) < / 1); [|rewrite Rinv_1 in H; exact H].
    apply Rinv_lt_contravar; [rewrite Rmult_1_l; apply Hpos|]. unfold u. generalize (exp_pos (- (2 * (alpha * x)))). lra.
  - rewrite smoothstep_logistic, Rmult_0_r, Rmult_0_r, Ropp_0, exp_0. lra.
  - apply is_lim_ext with (fun x => / (1 + exp (- (2 * alpha) * x))).
    { intros y. rewrite smoothstep_logistic. unfold Rdiv. rewrite Rmult_1_l. do 3 f_equal. ring. }
    replace (Rbar.Finite 0) with (Rbar_inv p_infty) by reflexivity.
    apply is_lim_inv; [|discriminate].
    apply is_lim_plus with (Rbar.Finite 1) p_infty; [apply is_lim_const| |reflexivity].
    apply is_lim_comp with p_infty; [apply is_lim_exp_p| |exists 0; intros; discriminate].
    eapply is_lim_ext; [intros; reflexivity|].
    replace p_infty with (Rbar_mult (- (2 * alpha)) m_infty).
    { apply is_lim_scal_l, is_lim_id. }
    simpl. destruct (Rle_dec 0 (- (2 * alpha))); [exfalso; lra | reflexivity].
  - apply is_lim_ext with (fun x => / (1 + exp (- (2 * alpha) * x))).
    { intros y. rewrite smoothstep_logistic. unfold Rdiv. rewrite Rmult_1_l. do 3 f_equal. ring. }
    replace (Rbar.Finite 1) with (Rbar_inv 1) by (simpl; f_equal; lra).
    apply is_lim_inv; [|simpl; injection; lra].
    replace (Rbar.Finite 1) with (Rbar.Finite (1 + 0)) by (f_equal; lra).
    apply is_lim_plus'; [apply is_lim_const|].
    apply is_lim_comp with m_infty; [apply is_lim_exp_m| |exists 0; intros; discriminate].
    replace m_infty with (Rbar_mult (- (2 * alpha)) p_infty).
    { apply is_lim_scal_l, is_lim_id. }
    simpl. destruct (Rle_dec 0 (- (2 * alpha))); [exfalso; lra | reflexivity].
Qed.

(** ** C52 *)
Definition erf' (x : R) : R := 2 / sqrt PI * exp (- (x * x)).

Lemma two_sqrtpi_pos : 0 < 2 / sqrt PI.
Proof. apply Rdiv_lt_0_compat; [lra | apply sqrt_lt_R0, PI_RGT_0]. Qed.

Lemma erf'_pos (x : R) : 0 < erf' x.
Proof. apply Rmult_lt_0_compat; [apply two_sqrtpi_pos | apply exp_pos]. Qed.

Lemma bell_continuous (t : R) : continuous (fun t => exp (- (t * t))) t.
Proof.
  apply (ex_derive_continuous (V := R_NormedModule)). auto_derive. exact I.
Qed.

Lemma derive_continuity (f : R -> R) (x l : R) : is_derive f x l -> continuity_pt f x.
Proof.
  intros H. apply continuity_pt_filterlim. apply (ex_derive_continuous (V := R_NormedModule) f x).
  exists l. exact H.
Qed.

Lemma erf_derive (x : R) : is_derive erf x (erf' x).
Proof.
  unfold erf, erf'. apply is_derive_scal.
  apply (is_derive_RInt (fun t => exp (- (t * t))) _ 0); [|apply bell_continuous].
  apply filter_forall. intros y. apply @RInt_correct, ex_RInt_continuous.
  intros; apply bell_continuous.
Qed.

Lemma erf_0 : erf 0 = 0.
Proof. unfold erf. rewrite RInt_point. apply Rmult_0_r. Qed.

Lemma erf_odd (x : R) : erf (- x) = - erf x.
Proof.
  assert (D : forall t, is_derive (fun t => erf (- t) + erf t) t 0).
  { intros t. assert (H1 := erf_derive t). assert (H2 := erf_derive (- t)).
    auto_derive; [split; [eexists; exact H2|split; [eexists; exact H1|exact I]]|].
    rewrite (is_derive_unique (fun x : R => erf x) _ _ H1), (is_derive_unique (fun x : R => erf x) _ _ H2). unfold erf'.
    replace (- t * - t) with (t * t) by ring. ring. }
  destruct (MVT_gen (fun t => erf (- t) + erf t) 0 x (fun _ => 0)) as [c [_ E]].
  - intros t _; apply D.
  - intros t _. eapply derive_continuity; apply D.
  - rewrite Ropp_0, erf_0 in E. lra.
Qed.

Lemma erf_incr (x y : R) : x < y -> erf x < erf y.
Proof.
  intros H. destruct (MVT_gen erf x y erf') as [c [_ E]].
  - intros; apply erf_derive.
  - intros t _. eapply derive_continuity; apply erf_derive.
  - assert (Hc := erf'_pos c). nra.
Qed.

(** On the positive side the graph lies below its tangents ... *)
Lemma erf_tangent (r s : R) : 0 <= r -> 0 <= s -> erf s <= erf r + erf' r * (s - r).
Proof.
  intros Hr Hs. destruct (MVT_gen erf r s erf') as [c [Hc E]].
  - intros; apply erf_derive.
  - intros t _. eapply derive_continuity; apply erf_derive.
  - assert (Hp := two_sqrtpi_pos).
    assert (D : erf' c * (s - r) <= erf' r * (s - r)).
    { destruct (Rle_lt_dec r s) as [L|L].
      - rewrite Rmin_left, Rmax_right in Hc by lra.
        apply Rmult_le_compat_r; [lra|]. apply Rmult_le_compat_l; [lra|].
        destruct (Req_dec c r) as [->|N]; [apply Rle_refl|]. left; apply exp_increasing. nra.
      - rewrite Rmin_right, Rmax_left in Hc by lra.
        assert (erf' r <= erf' c); [|nra]. apply Rmult_le_compat_l; [lra|].
        destruct (Req_dec c r) as [->|N]; [apply Rle_refl|]. left; apply exp_increasing. nra. }
    lra.
Qed.

(** ... and not far below. *)
Lemma erf_below (r s : R) : 0 <= r <= s ->
  erf r + erf' r * (s - r) - s * erf' r * ((s - r) * (s - r)) <= erf s.
Proof.
  intros [Hr Hs].
  set (phi t := erf t - erf r - erf' r * (t - r) + s * erf' r * ((t - r) * (t - r))).
  assert (D : forall t, is_derive phi t (erf' t - erf' r + 2 * s * erf' r * (t - r))).
  { intros t. unfold phi. assert (He := erf_derive t).
    auto_derive; [eexists; apply erf_derive|]. rewrite (is_derive_unique (fun x : R => erf x) _ _ He). ring. }
  destruct (MVT_gen phi r s (fun t => erf' t - erf' r + 2 * s * erf' r * (t - r))) as [c [Hc E]].
  - intros t _. apply D.
  - intros t _. eapply derive_continuity; apply D.
  - rewrite Rmin_left, Rmax_right in Hc by lra.
    assert (P : 0 <= erf' c - erf' r + 2 * s * erf' r * (c - r)).
    { unfold erf'. assert (Hp := two_sqrtpi_pos).
      assert (X : exp (- (r * r)) * (1 - (c * c - r * r)) <= exp (- (c * c))).
      { replace (- (c * c)) with (- (r * r) + - (c * c - r * r)) by ring. rewrite exp_plus.
        apply Rmult_le_compat_l; [left; apply exp_pos|].
        generalize (exp_ineq1_le (- (c * c - r * r))). lra. }
      assert (Y := exp_pos (- (r * r))).
      assert (Z : exp (- (r * r)) * (c * c - r * r) <= exp (- (r * r)) * (2 * s * (c - r))).
      { apply Rmult_le_compat_l; [lra|]. nra. }
      assert (0 <= exp (- (c * c)) - exp (- (r * r)) + 2 * s * exp (- (r * r)) * (c - r)) by nra.
      replace (2 / sqrt PI * exp (- (c * c)) - 2 / sqrt PI * exp (- (r * r)) + 2 * s * (2 / sqrt PI * exp (- (r * r))) * (c - r))
        with (2 / sqrt PI * (exp (- (c * c)) - exp (- (r * r)) + 2 * s * exp (- (r * r)) * (c - r))) by ring.
      apply Rmult_le_pos; lra. }
    assert (Q : 0 <= phi s - phi r) by (rewrite E; apply Rmult_le_pos; lra).
    unfold phi in Q. rewrite !Rminus_eq_0, !Rmult_0_r in Q. lra.
Qed.

Lemma newton_stepE (z r : R) : newton_step z r = r + (z - erf r) / erf' r.
Proof.
  unfold newton_step, erf'. replace (- r * r) with (- (r * r)) by ring.
  assert (H1 := two_sqrtpi_pos). assert (H2 := exp_pos (- (r * r))).
  assert (H3 : 0 < sqrt PI) by apply sqrt_lt_R0, PI_RGT_0. field. lra.
Qed.

(** A refinement step changes nothing exactly if the value is exact. *)
Theorem C52_newton_fixed (z r : R) : newton_step z r = r <-> erf r = z.
Proof.
  rewrite newton_stepE. assert (H := erf'_pos r). split.
  - intros E. assert (X : (z - erf r) / erf' r = 0) by lra.
    assert (Y : z - erf r = 0).
    { replace (z - erf r) with ((z - erf r) / erf' r * erf' r) by (field; lra). rewrite X. ring. }
    lra.
  - intros <-. unfold Rminus, Rdiv. rewrite Rplus_opp_r, Rmult_0_l. ring.
Qed.

(** The first guess is a positive number: no division by zero, no logarithm or
    square root of a negative number. *)
Lemma guess_denominators (z : R) : 0 <= z < 1 ->
  (z <= 0.7 -> 0 < (((0.012229801 * (z * z) + -0.329097515) * (z * z) + 1.442710462) * (z * z) + -2.118377725) * (z * z) + 1) /\
  (0.7 < z -> 1 <= - ln ((1 - z) / 2)).
Proof.
  intros Hz. split; intros H.
  - set (t := z * z). assert (Ht : 0 <= t <= 0.49) by (unfold t; nra). clearbody t. nra.
  - apply Ropp_le_cancel. rewrite Ropp_involutive.
    apply Rle_trans with (ln (exp (Ropp 1))); [left|rewrite ln_exp; lra]. apply ln_increasing; [lra|].
    rewrite exp_Ropp. assert (X := exp_le_3). assert (Y := exp_pos 1).
    apply Rlt_le_trans with (/ 3); [lra|]. apply Rinv_le_contravar; lra.
Qed.

Lemma guess_pos (z : R) : 0 < z < 1 -> 0 < guess z.
Proof.
  intros Hz. destruct (guess_denominators z) as [H1 H2]; [lra|].
  unfold guess. destruct (Rle_dec z 0.7) as [L|L].
  - apply Rdiv_lt_0_compat; [|apply H1, L]. apply Rmult_lt_0_compat; [lra|].
    set (t := z * z). assert (Ht : 0 <= t <= 0.49) by (unfold t; nra). clearbody t. nra.
  - assert (Hy : 1 <= sqrt (- ln ((1 - z) / 2))).
    { rewrite <- sqrt_1 at 1. apply sqrt_le_1_alt. apply H2. lra. }
    set (y := sqrt _) in *. clearbody y.
    apply Rdiv_lt_0_compat; nra.
Qed.

Lemma guess_0 : guess 0 = 0.
Proof.
  unfold guess. destruct (Rle_dec 0 0.7); [|lra]. unfold Rdiv. rewrite !Rmult_0_l. reflexivity.
Qed.

Lemma sign_pos x : 0 < x -> sign x = 1.
Proof. intros. unfold sign. destruct (Rlt_dec 0 x), (Rlt_dec x 0); lra. Qed.
Lemma sign_neg x : x < 0 -> sign x = - 1.
Proof. intros. unfold sign. destruct (Rlt_dec 0 x), (Rlt_dec x 0); lra. Qed.
Lemma sign_0 : sign 0 = 0.
Proof. unfold sign. destruct (Rlt_dec 0 0); lra. Qed.

Lemma newton_odd (z r : R) : newton_step (- z) (- r) = - newton_step z r.
Proof.
  rewrite !newton_stepE, erf_odd. unfold erf'.
  replace (- r * - r) with (r * r) by ring. fold (erf' r). assert (H := erf'_pos r). field. lra.
Qed.

Lemma erf_inv_pos (x : R) : 0 < x < 1 ->
  erf_inv x = Finite (newton_step x (newton_step x (guess x))).
Proof.
  intros H. unfold erf_inv. destruct (Req_EM_T x 1); [lra|]. destruct (Req_EM_T x (-1)); [lra|].
  rewrite sign_pos by lra. rewrite !Rmult_1_l, !Rmult_1_r. reflexivity.
Qed.

Lemma erf_inv_neg (x : R) : -1 < x < 0 ->
  erf_inv x = Finite (- newton_step (- x) (newton_step (- x) (guess (- x)))).
Proof.
  intros H. unfold erf_inv. destruct (Req_EM_T x 1); [lra|]. destruct (Req_EM_T x (-1)); [lra|].
  rewrite sign_neg by lra. replace (-1 * x) with (- x) by ring.
  rewrite <- !newton_odd. do 2 f_equal; [ring|]. f_equal; ring.
Qed.

Theorem C52_ends_and_zero : erf_inv 1 = PosInf /\ erf_inv (-1) = NegInf /\ erf_inv 0 = Finite 0.
Proof.
  unfold erf_inv. repeat split.
  - destruct (Req_EM_T 1 1); congruence.
  - destruct (Req_EM_T (-1) 1); [lra|]. destruct (Req_EM_T (-1) (-1)); congruence.
  - destruct (Req_EM_T 0 1); [lra|]. destruct (Req_EM_T 0 (-1)); [lra|].
    rewrite sign_0, !Rmult_0_r. f_equal.
    assert (H : newton_step 0 0 = 0) by (apply C52_newton_fixed, erf_0).
    rewrite H. exact H.
Qed.

Definition negate (e : ext) : ext :=
  match e with Finite x => Finite (- x) | PosInf => NegInf | NegInf => PosInf end.

Theorem C52_odd (x : R) : -1 <= x <= 1 -> erf_inv (- x) = negate (erf_inv x).
Proof.
  intros H. destruct C52_ends_and_zero as [E1 [E2 E0]].
  destruct (Req_dec x 1) as [->|N1]; [rewrite E1; replace (- (1)) with (-1) by lra; exact E2|].
  destruct (Req_dec x (-1)) as [->|N2]; [rewrite E2; replace (- (-1)) with 1 by lra; exact E1|].
  destruct (Rtotal_order x 0) as [L|[->|L]].
  - rewrite (erf_inv_neg x), (erf_inv_pos (- x)) by lra. simpl. now rewrite Ropp_involutive.
  - rewrite Ropp_0, E0. simpl. now rewrite Ropp_0.
  - rewrite (erf_inv_pos x), (erf_inv_neg (- x)) by lra. now rewrite Ropp_involutive.
Qed.

(** If the first guess is exact, so is the result. *)
Theorem C52_exact_guess (x : R) : 0 < x < 1 -> erf (guess x) = x ->
  exists r, erf_inv x = Finite r /\ erf r = x.
Proof.
  intros H E. exists (guess x). split; [|exact E]. rewrite erf_inv_pos by exact H.
  apply C52_newton_fixed in E. now rewrite E, E.
Qed.

(** A refinement never passes the solution, and the remaining error is of the
    order of the square of the previous one. *)
Theorem C52_newton_quadratic (z r : R) : 0 <= r -> erf r <= z ->
  let s := newton_step z r in
  r <= s /\ erf s <= z /\ z - erf s <= s / erf' r * ((z - erf r) * (z - erf r)).
Proof.
  intros Hr He s. assert (Hp := erf'_pos r).
  assert (Hs : r <= s).
  { unfold s. rewrite newton_stepE.
    assert (0 <= (z - erf r) / erf' r); [|lra]. apply Rmult_le_pos; [lra|].
    left; apply Rinv_0_lt_compat, Hp. }
  assert (Ez : erf r + erf' r * (s - r) = z).
  { unfold s. rewrite newton_stepE. field. lra. }
  split; [exact Hs|split].
  - rewrite <- Ez. apply erf_tangent; lra.
  - assert (X := erf_below r s (conj Hr Hs)). rewrite Ez in X.
    replace (s / erf' r * ((z - erf r) * (z - erf r))) with (s * erf' r * ((s - r) * (s - r))); [lra|].
    rewrite <- Ez. field. lra.
Qed.

(** So from a guess not above the solution the result is between the guess and
    the solution; and in any case, once the first refinement is not negative,
    the result is not above the solution. *)
Theorem C52_result_below (x : R) : 0 < x < 1 -> 0 <= newton_step x (guess x) ->
  exists r, erf_inv x = Finite r /\ erf r <= x /\ newton_step x (guess x) <= r /\
    (erf (guess x) <= x -> guess x <= r).
Proof.
  intros Hx H1. assert (Hg := guess_pos x Hx). exists (newton_step x (newton_step x (guess x))).
  set (r1 := newton_step x (guess x)) in *.
  assert (E1 : erf r1 <= x).
  { assert (T := erf_tangent (guess x) r1 (Rlt_le _ _ Hg) H1).
    assert (Ez : erf (guess x) + erf' (guess x) * (r1 - guess x) = x).
    { unfold r1. rewrite newton_stepE. assert (P := erf'_pos (guess x)). field. lra. }
    lra. }
  destruct (C52_newton_quadratic x r1 H1 E1) as [A [B _]].
  split; [now apply erf_inv_pos|]. split; [exact B|]. split; [exact A|].
  intros Hle. destruct (C52_newton_quadratic x (guess x) (Rlt_le _ _ Hg) Hle) as [C _].
  fold r1 in C. lra.
Qed.

(** A case: sigma = 2, and the second argument of the logarithm law *)
Example C41_case : exists y, homographic 1 2 3 4 5 = Some y /\ y * (3 * 5 + 4) = 1 * 5 + 2.
Proof. apply C41_homographic. lra. Qed.

Example C52_case : 0 < guess (1/2) /\ 0 < guess (9/10) /\ erf_inv (-1/2) = negate (erf_inv (1/2)).
Proof.
  split; [apply guess_pos; lra|split; [apply guess_pos; lra|]].
  replace (-1/2) with (-(1/2)) by lra. apply C52_odd. lra.
Qed.

Definition C41_assumptions := (C41_inverse, C41_logarithm, C41_indicator, C41_exponential,
  C41_homographic, C41_identity_power, C41_gaussian, C41_smoothstep, C52_newton_fixed, C52_ends_and_zero,
  C52_odd, C52_exact_guess, C52_newton_quadratic, C52_result_below).
Print Assumptions C41_assumptions.
