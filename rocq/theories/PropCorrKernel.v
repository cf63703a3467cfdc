(** Correlation kernels and dense correlation matrices: C45, C46. *)
Require Import Reals Lra Lia String List ZArith Arith.
From Coquelicot Require Import Coquelicot.
From Verif Require Import DenseCorrModel PropDenseCorr CorrKernelModel.
Import ListNotations.
Local Open Scope R_scope.

(** The kernels as documented, functions of the scaled distance r *)
Definition exponential_spec (r : R) : R := exp (- r).
Definition square_exponential_spec (r : R) : R := exp (- (r * r) / 2).
Definition matern32_spec (r : R) : R := (1 + sqrt 3 * r) * exp (- (sqrt 3 * r)).
Definition matern52_spec (r : R) : R :=
  (1 + sqrt 5 * r + 5 / 3 * (r * r)) * exp (- (sqrt 5 * r)).
Definition rational_quadratic_spec (alpha r : R) : R :=
  Rpower (1 + r * r / (2 * alpha)) (- alpha).

(** The Euclidean distance *)
Definition euclid (dim : nat) (p q : nat -> R) : R :=
  sqrt (match dim with O => 0 | S d => sum_f_R0 (fun k => (p k - q k) * (p k - q k)) d end).

Lemma distance2_sum dim p q :
  distance2 dim p q = match dim with O => 0 | S d => sum_f_R0 (fun k => (p k - q k) * (p k - q k)) d end.
Proof.
induction dim as [|d IH]; [reflexivity|]. simpl distance2. rewrite IH.
destruct d as [|d]; simpl; ring.
Qed.

Lemma distance_euclid p q scale dim : euclidean_distance p q scale dim = euclid dim p q / scale.
Proof. unfold euclidean_distance, euclid. rewrite distance2_sum. reflexivity. Qed.

Lemma euclid_sym dim p q : euclid dim p q = euclid dim q p.
Proof.
unfold euclid. destruct dim as [|d]; [reflexivity|]. f_equal. apply sum_eq. intros; ring.
Qed.

Lemma euclid_refl dim p : euclid dim p p = 0.
Proof.
unfold euclid. destruct dim as [|d]; [apply sqrt_0|].
rewrite (sum_eq _ (fun _ => 0)) by (intros; ring).
rewrite sum_cte, Rmult_0_l. apply sqrt_0.
Qed.

Lemma euclid_pos dim p q : 0 <= euclid dim p q.
Proof. apply sqrt_pos. Qed.

(** A positive, decreasing function that is 1 at 0 *)
Record is_correlation (f : R -> R) : Prop := {
  corr_0 : f 0 = 1;
  corr_pos : forall r, 0 <= r -> 0 < f r;
  corr_dec : forall r r', 0 <= r -> r < r' -> f r' < f r }.

Lemma decreasing_of_derive (f f' : R -> R) :
  (forall x, 0 <= x -> is_derive f x (f' x)) -> (forall x, 0 < x -> f' x < 0) ->
  forall x y, 0 <= x -> x < y -> f y < f x.
Proof.
intros D N x y Hx Hxy.
destruct (MVT_cor2 f f' x y Hxy) as (c & E & Hc).
{ intros c Hc. apply is_derive_Reals. apply D. lra. }
assert (f' c < 0) by (apply N; lra). assert (f' c * (y - x) < 0) by nra. lra.
Qed.

Lemma exponential_corr : is_correlation exponential_spec.
Proof.
constructor; unfold exponential_spec.
- rewrite Ropp_0. apply exp_0.
- intros. apply exp_pos.
- intros. apply exp_increasing. lra.
Qed.

Lemma square_exponential_corr : is_correlation square_exponential_spec.
Proof.
constructor; unfold square_exponential_spec.
- replace (- (0 * 0) / 2) with 0 by field. apply exp_0.
- intros. apply exp_pos.
- intros. apply exp_increasing. nra.
Qed.

Lemma matern32_corr : is_correlation matern32_spec.
Proof.
assert (S := sqrt_lt_R0 3 ltac:(lra)). constructor; unfold matern32_spec.
- rewrite Rmult_0_r, Ropp_0, exp_0. ring.
- intros. apply Rmult_lt_0_compat; [nra|apply exp_pos].
- apply (decreasing_of_derive _ (fun x => - (sqrt 3 * sqrt 3) * x * exp (- (sqrt 3 * x)))).
  + intros x Hx. auto_derive; [exact I|]. ring.
  + intros x Hx. assert (E := exp_pos (- (sqrt 3 * x))). rewrite sqrt_def by lra.
    assert (0 < x * exp (- (sqrt 3 * x))) by (apply Rmult_lt_0_compat; assumption). lra.
Qed.

Lemma matern52_corr : is_correlation matern52_spec.
Proof.
assert (S := sqrt_lt_R0 5 ltac:(lra)). constructor; unfold matern52_spec.
- rewrite !Rmult_0_r, Ropp_0, exp_0. ring.
- intros. apply Rmult_lt_0_compat; [nra|apply exp_pos].
- apply (decreasing_of_derive _ (fun x => - (5 / 3) * x * (1 + sqrt 5 * x) * exp (- (sqrt 5 * x)))).
  + intros x Hx. auto_derive; [exact I|].
    assert (Q : sqrt 5 * sqrt 5 = 5) by (apply sqrt_def; lra).
    apply Rminus_diag_uniq.
    transitivity ((5 - sqrt 5 * sqrt 5) * x * exp (- (sqrt 5 * x))); [field|rewrite Q; ring].
  + intros x Hx. assert (E := exp_pos (- (sqrt 5 * x))).
    assert (0 < x * (1 + sqrt 5 * x) * exp (- (sqrt 5 * x))).
    { apply Rmult_lt_0_compat; [nra|assumption]. }
    nra.
Qed.

Lemma corr_le1 f : is_correlation f -> forall r, 0 <= r -> f r <= 1.
Proof.
intros H r Hr. rewrite <- (corr_0 f H). destruct (Req_dec r 0) as [->|D]; [lra|].
left. apply (corr_dec f H); lra.
Qed.

Lemma corr_lt1 f : is_correlation f -> forall r, 0 < r -> f r < 1.
Proof. intros H r Hr. rewrite <- (corr_0 f H). apply (corr_dec f H); lra. Qed.

(** The kernels with a closed form, with the parameters for which they have it *)
Inductive closed_form : kernel -> param -> (R -> R) -> Prop :=
  | cf_exponential p : closed_form Exponential p exponential_spec
  | cf_square_exponential p : closed_form SquareExponential p square_exponential_spec
  | cf_matern12 : closed_form Matern (Num (1/2)) exponential_spec
  | cf_matern32 : closed_form Matern (Num (3/2)) matern32_spec
  | cf_matern52 : closed_form Matern (Num (5/2)) matern52_spec
  | cf_matern_large nu : 100 <= nu -> closed_form Matern (Num nu) square_exponential_spec
  | cf_matern_inf : closed_form Matern Infinity square_exponential_spec.

Lemma closed_form_corr k p f : closed_form k p f -> is_correlation f.
Proof.
destruct 1; auto using exponential_corr, square_exponential_corr, matern32_corr, matern52_corr.
Qed.

Section Kernel.
Variable bessel : R -> R -> option R.

Lemma gauss x : - (1/2) * x ^ 2 = - (x * x) / 2.
Proof. field. Qed.

Lemma matern_half x : matern_kernel bessel x (Num (1/2)) = Some (exponential_spec x).
Proof.
unfold matern_kernel, exponential_spec. destruct (Req_EM_T x 0) as [->|D].
- rewrite Ropp_0, exp_0. reflexivity.
- destruct (Req_EM_T (1/2) (1/2)) as [_|F]; [reflexivity|destruct F; reflexivity].
Qed.

Lemma matern_gauss x nu : (match nu with Num v => 100 <= v | _ => True end) ->
  matern_kernel bessel x nu = Some (square_exponential_spec x).
Proof.
unfold matern_kernel, square_exponential_spec. intros H. destruct (Req_EM_T x 0) as [->|D].
- replace (- (0 * 0) / 2) with 0 by field. rewrite exp_0. reflexivity.
- rewrite gauss. destruct nu as [v| |]; try reflexivity.
  destruct (Req_EM_T v (1/2)); [lra|]. destruct (Req_EM_T v (3/2)); [lra|].
  destruct (Req_EM_T v (5/2)); [lra|]. destruct (Rlt_dec v 100); [lra|reflexivity].
Qed.

(** The kernels compute the documented functions *)
Theorem C45_kernel k p f : closed_form k p f ->
  forall r, kernel_function bessel k r p = Some (f r).
Proof.
destruct 1; intros r; simpl.
- apply matern_half.
- apply matern_gauss. exact I.
- apply matern_half.
- unfold matern_kernel, matern32_spec. destruct (Req_EM_T r 0) as [->|D].
  + rewrite !Rmult_0_r, Ropp_0, exp_0. f_equal. ring.
  + destruct (Req_EM_T (3/2) (1/2)); [lra|]. destruct (Req_EM_T (3/2) (3/2)) as [_|F]; [|lra].
    rewrite Ropp_mult_distr_l. reflexivity.
- unfold matern_kernel, matern52_spec. destruct (Req_EM_T r 0) as [->|D].
  + rewrite !Rmult_0_r, Ropp_0, exp_0. f_equal. ring.
  + destruct (Req_EM_T (5/2) (1/2)); [lra|]. destruct (Req_EM_T (5/2) (3/2)); [lra|].
    destruct (Req_EM_T (5/2) (5/2)) as [_|F]; [|lra].
    rewrite Ropp_mult_distr_l. repeat f_equal. ring.
- apply matern_gauss. assumption.
- apply matern_gauss. exact I.
Qed.

(** A dense correlation matrix: the memory of a finished run of the loop *)
Section Matrix.
Variables (k : kernel) (p : param) (coords : nat -> nat -> R) (scale : R) (dim n threads : nat).
Variables (m0 : Z -> option R) (s : DenseCorrModel.state (option R)).
Hypothesis Hn : fits n.
Hypothesis Hscale : 0 < scale.
Hypothesis Hrun : reachable (option R) (correlation bessel k p coords scale dim) n threads m0 s.
Hypothesis Hend : finished (option R) threads s.

Let entry (i j : nat) : option R := mem (option R) s (Z.of_nat i * Z.of_nat n + Z.of_nat j).
Let dist (i j : nat) : R := euclid dim (coords i) (coords j) / scale.

Variable f : R -> R.
Hypothesis Hk : closed_form k p f.

(** C45: every entry is the documented function of the scaled distance *)
Theorem C45_entries i j : (i < n)%nat -> (j < n)%nat -> entry i j = Some (f (dist i j)).
Proof.
intros Hi Hj. unfold entry. rewrite (C45_loop _ _ n threads m0 s Hn Hrun Hend i j Hi Hj).
unfold correlation. rewrite (C45_kernel k p f Hk), distance_euclid. unfold dist. f_equal. f_equal. f_equal.
destruct (le_ge_dec i j) as [H|H].
- rewrite Nat.min_l, Nat.max_r by assumption. reflexivity.
- rewrite Nat.min_r, Nat.max_l by assumption. apply euclid_sym.
Qed.

Theorem C45_symmetric i j : (i < n)%nat -> (j < n)%nat -> entry i j = entry j i.
Proof.
intros Hi Hj. rewrite !C45_entries by assumption. unfold dist. rewrite euclid_sym. reflexivity.
Qed.

Theorem C45_diagonal i : (i < n)%nat -> entry i i = Some 1.
Proof.
intros Hi. rewrite C45_entries by assumption. unfold dist. rewrite euclid_refl.
replace (0 / scale) with 0 by (field; lra). f_equal. apply (corr_0 f (closed_form_corr _ _ _ Hk)).
Qed.

Lemma dist_pos i j : 0 <= dist i j.
Proof.
unfold dist. apply Rmult_le_pos; [apply euclid_pos|]. left. apply Rinv_0_lt_compat. assumption.
Qed.

Theorem C45_range i j : (i < n)%nat -> (j < n)%nat ->
  exists v, entry i j = Some v /\ 0 < v <= 1.
Proof.
intros Hi Hj. exists (f (dist i j)). split; [apply C45_entries; assumption|].
assert (C := closed_form_corr _ _ _ Hk). split.
- apply (corr_pos f C). apply dist_pos.
- apply (corr_le1 f C). apply dist_pos.
Qed.

(** Points that are further apart are less correlated *)
Theorem C45_decreasing i j i' j' v v' :
  (i < n)%nat -> (j < n)%nat -> (i' < n)%nat -> (j' < n)%nat ->
  entry i j = Some v -> entry i' j' = Some v' ->
  (v' < v <-> euclid dim (coords i) (coords j) < euclid dim (coords i') (coords j')).
Proof.
intros Hi Hj Hi' Hj' E E'. rewrite C45_entries in E, E' by assumption.
injection E as <-. injection E' as <-. assert (C := closed_form_corr _ _ _ Hk).
assert (S : 0 < / scale) by (apply Rinv_0_lt_compat; assumption). split.
- intros H. apply Rnot_le_lt. intros G. apply (Rlt_not_le _ _ H).
  assert (G' : dist i' j' <= dist i j) by (unfold dist, Rdiv; apply Rmult_le_compat_r; [lra|assumption]).
  destruct G' as [G'|G']; [|rewrite G'; lra].
  left. apply (corr_dec f C); [apply dist_pos|assumption].
- intros H. apply (corr_dec f C); [apply dist_pos|].
  unfold dist, Rdiv. apply Rmult_lt_compat_r; assumption.
Qed.
End Matrix.

(** ** C46 *)

(** Names for which a matrix is generated *)
Theorem C46_usable_partial name kp : 
  (exists k p, correlation_matrix name kp = Generates k p) <-> name = "matern"%string \/ name = "exponential"%string.
Proof.
unfold correlation_matrix, check_kernel. split.
- intros (k & p & E). destruct (in_dec string_dec name accepted) as [H|H]; [|discriminate].
  simpl in H. destruct H as [<-|[<-|[<-|[<-|[]]]]]; [left; reflexivity|right; reflexivity| |];
    destruct kp; simpl in E; discriminate.
- intros [->| ->]; destruct kp; simpl; do 2 eexists; reflexivity.
Qed.

(** The kernel that is used for them, with its default parameter *)
Theorem C46_default_partial :
  correlation_matrix "exponential" None = Generates Exponential NaN /\
  correlation_matrix "matern" None = Generates Matern (Num (1/2)) /\
  forall nu, correlation_matrix "matern" (Some nu) = Generates Matern (Num nu).
Proof. repeat split. Qed.

(** For these, correlations never exceed one (for the smoothness parameters with a
    closed form) *)
Theorem C46_bound_partial name kp k p f r : correlation_matrix name kp = Generates k p ->
  closed_form k p f \/ name = "exponential"%string -> 0 <= r ->
  exists v, kernel_function bessel k r p = Some v /\ 0 < v <= 1.
Proof.
intros E H Hr.
assert (H' : exists g, closed_form k p g).
{ destruct H as [H| ->]; [exists f; assumption|]. exists exponential_spec.
  destruct kp; simpl in E; injection E as <- <-; constructor. }
destruct H' as (g & G). exists (g r). split; [apply C45_kernel; assumption|].
assert (C := closed_form_corr _ _ _ G). split; [apply (corr_pos g C)|apply (corr_le1 g C)]; assumption.
Qed.

(** Two of the four accepted (and documented) names abort the process, whatever the parameter *)
Theorem C46_abort_refuted kp :
  In "square_exponential"%string accepted /\ correlation_matrix "square_exponential" kp = Aborts /\
  In "rational_quadratic"%string accepted /\ correlation_matrix "rational_quadratic" kp = Aborts.
Proof. destruct kp; (split; [simpl; tauto|split; [reflexivity|split; [simpl; tauto|reflexivity]]]). Qed.

(** The names that the kernels have are rejected *)
Theorem C46_rejected_refuted kp :
  get_kernel "square-exponential" = Some SquareExponential /\
  correlation_matrix "square-exponential" kp = RaisesValueError /\
  get_kernel "rational-quadratic" = Some RationalQuadratic /\
  correlation_matrix "rational-quadratic" kp = RaisesValueError.
Proof. repeat split. Qed.

(** The rational quadratic kernel is right, unless alpha is 1 *)
Theorem C46_rational_quadratic alpha r : 0 < alpha -> alpha <> 1 ->
  rational_quadratic_kernel r (Num alpha) = Some (rational_quadratic_spec alpha r) /\
  0 < rational_quadratic_spec alpha r <= 1.
Proof.
intros Ha H1. assert (P : 0 <= r * r / (2 * alpha)).
{ apply Rmult_le_pos; [nra|]. left. apply Rinv_0_lt_compat. lra. }
unfold rational_quadratic_spec. split.
- unfold rational_quadratic_kernel. destruct (Req_EM_T alpha 0); [lra|].
  destruct (Req_EM_T alpha 1); [contradiction|].
  replace (r ^ 2) with (r * r) by ring. destruct (Rlt_dec 0 (1 + r * r / (2 * alpha))); [reflexivity|lra].
- split; [apply exp_pos|]. unfold Rpower. apply Rle_trans with (exp 0); [|rewrite exp_0; lra].
  assert (L : 0 <= ln (1 + r * r / (2 * alpha))).
  { rewrite <- ln_1. destruct P as [P|P]; [left; apply ln_increasing; lra|rewrite <- P; right; f_equal; ring]. }
  assert (E : - alpha * ln (1 + r * r / (2 * alpha)) <= 0) by nra.
  destruct E as [E|E]; [left; apply exp_increasing; assumption|rewrite E; lra].
Qed.

(** With alpha = 1, the default of the kernel, every correlation of distinct points
    exceeds one, and grows with the distance *)
Theorem C46_rational_quadratic_refuted r : r <> 0 ->
  exists v, rational_quadratic_kernel r (Num 1) = Some v /\ 1 < v /\ v = / rational_quadratic_spec 1 r.
Proof.
intros Hr. exists (1 + r ^ 2 / (2 * 1)). unfold rational_quadratic_kernel.
destruct (Req_EM_T 1 0); [lra|]. destruct (Req_EM_T 1 1) as [_|F]; [|lra].
assert (P : 0 < r * r) by nra.
split; [reflexivity|]. split; [lra|]. unfold rational_quadratic_spec.
rewrite Rpower_Ropp, Rpower_1 by lra. rewrite Rinv_inv. field.
Qed.

(** A kernel parameter is accepted, and ignored, for the exponential kernel *)
Theorem C46_parameter_ignored_refuted v : exists p,
  correlation_matrix "exponential" (Some v) = Generates Exponential p /\
  forall r, kernel_function bessel Exponential r p = Some (exponential_spec r).
Proof. exists (Num v). split; [reflexivity|]. intros r. apply (C45_kernel Exponential). constructor. Qed.
End Kernel.

(** A finished run meets the hypotheses: two points at distance 1, correlation exp(-10) *)
Example C45_case bessel : let coords := fun i _ : nat => INR i in
  exists s, reachable (option R) (correlation bessel Exponential NaN coords (1/10) 1) 2 2 (fun _ => Some 0) s /\
    finished (option R) 2 s /\
    mem (option R) s 1 = Some (exp (- 10)) /\ mem (option R) s 2 = Some (exp (- 10)).
Proof.
intros coords.
assert (R : exists s, reachable (option R) (correlation bessel Exponential NaN coords (1/10) 1) 2 2
  (fun _ => Some 0) s /\ finished (option R) 2 s).
{ apply C45_run; [unfold fits; simpl; lia|lia]. }
destruct R as (s & R & F). exists s. split; [assumption|]. split; [assumption|].
assert (Hf : fits 2) by (unfold fits; simpl; lia).
assert (D : forall i j, euclid 1 (coords i) (coords j) / (1/10) = 10 * Rabs (INR i - INR j)).
{ intros i j. unfold euclid. simpl. fold (Rsqr (coords i 0%nat - coords j 0%nat)). rewrite sqrt_Rsqr_abs. unfold coords. field. }
split.
- change 1%Z with (Z.of_nat 0 * Z.of_nat 2 + Z.of_nat 1)%Z.
  rewrite (C45_entries bessel Exponential NaN coords (1/10) 1 2 2 _ s Hf R F exponential_spec) by (exact (cf_exponential NaN) || lia).
  rewrite D. unfold exponential_spec. simpl. rewrite Rabs_left by lra. do 2 f_equal. lra.
- change 2%Z with (Z.of_nat 1 * Z.of_nat 2 + Z.of_nat 0)%Z.
  rewrite (C45_entries bessel Exponential NaN coords (1/10) 1 2 2 _ s Hf R F exponential_spec) by (exact (cf_exponential NaN) || lia).
  rewrite D. unfold exponential_spec. simpl. rewrite Rabs_right by lra. do 2 f_equal. lra.
Qed.

Definition C45_C46_assumptions := (@C45_loop, @C45_inside, @C45_progress, @C45_completes, @C45_terminates, @C45_index_refuted,
  @C45_kernel, @C45_entries, @C45_symmetric, @C45_diagonal, @C45_range, @C45_decreasing,
  @C46_usable_partial, @C46_default_partial, @C46_bound_partial, @C46_abort_refuted, @C46_rejected_refuted,
  @C46_rational_quadratic, @C46_rational_quadratic_refuted, @C46_parameter_ignored_refuted, C45_case).
Print Assumptions C45_C46_assumptions.
