(** The methods of a public function estimate the same quantity: C69. *)
Require Import Reals Lra String.
From mathcomp Require Import all_ssreflect all_algebra.
From mathcomp.real_closed Require Import complex.
From mathcomp Require Import zify.
From Verif Require Import Mem KernelModel KernelSpec OperatorModel OperatorSpec OperatorProofs.
From Verif Require Import LanczosSpec LanczosMath SlqModel SlqSpec SlqProofs ExactProofs PropSlq.
From Verif Require Import MatSpec Spectral EigenMath SlqMeanProofs RealField CholMath.
From Verif Require Import FunModel EigenSpec EigenModel PropEigen PropEigenGen AgreeModel.
From Verif Require CholModel PropChol HutchModel HutchRunSpec PropHutch TraceModel PropTrace.
Set Implicit Arguments.
Unset Strict Implicit.
Unset Printing Implicit Defensive.
Import GRing.Theory Num.Theory Order.TTheory.
Local Open Scope ring_scope.

Section Mean.
Variable F : rcfType.

(** The mean of the samples of the stochastic Lanczos quadrature over all 2^n
    sign vectors is t, provided that lanczos_degree is at least n and that
    lanczos_tol is below some positive bound.  [sampler] is a call with one
    inquiry, as a function of machine epsilon, fresh memory, the two LAPACK
    routines, lanczos_degree, lanczos_tol, the reorthogonalisation setting and
    the random vector. *)
Definition mean_is (n : nat)
    (sampler : F -> (nat -> seq F) -> (nat -> seq F -> seq F -> option (seq F * seq F)) ->
      (nat -> seq F -> seq F -> option (seq F * seq F)) -> nat -> F -> int -> seq F ->
      option (seq bool * seq F)) (t : F) : Prop :=
  exists2 bound, 0 < bound &
  forall eps alloc eigh svd m tol orth,
  0 < eps -> (forall k, size (alloc k) = k) -> eigh_contract eigh -> svd_contract svd ->
  (n <= m)%N -> 0 < tol <= bound ->
  exists sample : n.-tuple bool -> F,
    (forall s, sampler eps alloc eigh svd m tol orth (signs F s) = Some ([:: false], [:: sample s])) /\
    (2 ^ n)%:R^-1 * (\sum_s sample s) = t.

(** The matrix whose function is estimated, and the matrices accepted. *)
Definition subject (gram : bool) n (M : 'M[F]_n) : 'M[F]_n := if gram then M^T *m M else M.
Definition accepted (gram : bool) n (M : 'M[F]_n) : Prop :=
  if gram then forall x : 'cV_n, M *m x = 0 -> x = 0 else M^T = M.

Lemma subject_sym gram n (M : 'M[F]_n) : accepted gram M -> (subject gram M)^T = subject gram M.
Proof. by rewrite /accepted /subject; case: gram => // _; rewrite trmx_mul trmxK. Qed.

Lemma mean_core n' (Mat : seq F -> 'M[F]_n'.+1) gram p s pw f :
  accepted gram (Mat p) -> spectrum (subject gram (Mat p)) s ->
  exists2 bound, 0 < bound & forall m tol, (n'.+1 <= m)%N -> 0 < tol <= bound ->
  forall sample : n'.+1.-tuple bool -> F,
  (forall w, value_of (n' := n') Mat pw f m tol gram p (vec n'.+1 (signs F w)) (sample w)) ->
  (2 ^ n'.+1)%:R^-1 * (\sum_w sample w) = \sum_(x <- s) f (pw x).
Proof.
  move=> Hacc Hs. have [P [e HP]] := spectral_theorem (subject_sym Hacc).
  have [bound Hb Hsep] := bound_exists Mat gram p. exists bound => // m tol Hm /andP [Ht Htb] sample Hv.
  rewrite -(trace_function (fun x => f (pw x)) HP Hs). apply: mean_of_values => w.
  apply: (value_full (Mat := Mat) (gram := gram) Hm Ht Hacc (signs_nz F w) _ HP (Hv w)).
  move=> i Hi. exact: (separates_le Htb Hsep) (in_all_signs F w) Hi.
Qed.

(** C69. A matrix, in any storage. *)
Theorem C69_matrix_mean n' (A : storage F) gram params s pw f :
  let n := n'.+1 in
  well_formed A n n -> accepted gram (denotes A n n) -> spectrum (subject gram (denotes A n n)) s ->
  mean_is n (fun eps alloc eigh svd m tol orth v =>
    slq_matrix eps alloc eigh svd pw f n m tol orth gram A params 1 [:: false] v [:: 0])
    (\sum_(x <- s) f (pw x)).
Proof.
  move=> n HA Hacc Hs.
  have [bound Hb H] := mean_core (Mat := fun _ => denotes A n n) (p := [::]) pw f Hacc Hs.
  exists bound => // eps alloc eigh svd m tol orth He Hal Hei Hsv Hm Ht.
  have Hm0 : (0 < m)%N by apply: leq_trans Hm. have Ht0 : 0 < tol by case/andP: Ht.
  have Hrun (w : n.-tuple bool) : exists x,
      slq_matrix eps alloc eigh svd pw f n m tol orth gram A params 1 [:: false] (signs F w) [:: 0]
        = Some ([:: false], [:: x]) /\
      value_of (n' := n') (fun _ => denotes A n n) pw f m tol gram [::] (vec n (signs F w)) x.
  { have Hsz : (n <= size (signs F w))%N by rewrite size_map size_tuple.
    have [est' [E SE _ Hval _]] := matrix_each He Hal Hei Hsv pw f Hm0 Ht0 orth (gram := gram) params
      (conv := [:: false]) (est := [:: 0]) (num := 1) isT HA Hacc isT isT Hsz (signs_nz F w).
    have {Hval} := Hval 0%N isT isT. case: est' SE E => [|x [|]] //= _ E Hx. by exists x. }
  have [sample Hsample] := fin_all_exists Hrun.
  exists sample. split; first by move=> w; case: (Hsample w).
  apply: H Hm Ht _ _ => w. by case: (Hsample w).
Qed.

(** C69. An affine matrix function A + tB, the object in any earlier state. *)
Theorem C69_affine_mean n' (A : storage F) (B : option (storage F)) (op : affine F) gram t s pw f :
  let n := n'.+1 in
  let M := denotes A n n + t *: matrix_of_B B n n in
  well_formed A n n -> (forall S, B = Some S -> well_formed S n n /\ denotes S n n <> 0) ->
  affine_object n' A B op -> accepted gram M -> spectrum (subject gram M) s ->
  mean_is n (fun eps alloc eigh svd m tol orth v =>
    slq_affine eps alloc eigh svd pw f n m tol orth gram op [:: t] 1 [:: false] v [:: 0])
    (\sum_(x <- s) f (pw x)).
Proof.
  move=> n M HA HB Hop Hacc Hs. have [Hg _] := object_good HA HB Hop.
  pose Mat (p : seq F) := denotes A n n + p`_0 *: matrix_of_B B n n.
  have [bound Hb H] := mean_core (Mat := Mat) (p := [:: t]) pw f Hacc Hs.
  exists bound => // eps alloc eigh svd m tol orth He Hal Hei Hsv Hm Ht.
  have Hm0 : (0 < m)%N by apply: leq_trans Hm. have Ht0 : 0 < tol by case/andP: Ht.
  have Hrun (w : n.-tuple bool) : exists x,
      slq_affine eps alloc eigh svd pw f n m tol orth gram op [:: t] 1 [:: false] (signs F w) [:: 0]
        = Some ([:: false], [:: x]) /\
      value_of (n' := n') Mat pw f m tol gram [:: t] (vec n (signs F w)) x.
  { have Hsz : (n <= size (signs F w))%N by rewrite size_map size_tuple.
    have Had : forall j, (j < 1)%N -> admissible Mat gram (drop (j * 1) [:: t]) by case.
    have Hk : ~~ (eigenvalue_relation_known op && (1 < 1)%N) by rewrite andbF.
    have [est' [E SE _ Hval _]] := @aff_each F eps He alloc Hal eigh svd Hei Hsv pw f n' m Hm0 tol Ht0 orth A B
      gram op [:: t] 1 [:: false] (signs F w) [:: 0] isT Hg isT isT isT Had Hsz (signs_nz F w) Hk.
    have {Hval} := Hval 0%N isT isT. case: est' SE E => [|x [|]] //= _ E Hx. by exists x. }
  have [sample Hsample] := fin_all_exists Hrun.
  exists sample. split; first by move=> w; case: (Hsample w).
  apply: H Hm Ht _ _ => w. by case: (Hsample w).
Qed.
End Mean.

(** ** The named functions, over the real numbers *)

Lemma divideE (x y : R) : divide x y = ndiv x y.
Proof.
rewrite /divide /ndiv. case: Req_EM_T => [->|H]; first by rewrite eqxx.
by rewrite (introF eqP H) RdivE //; apply/eqP.
Qed.

Lemma gaussianE (mu sigma x : R) : 0 < sigma ->
  gaussian mu sigma x = Some (normal_density mu sigma x).
Proof.
move=> Hs. have Hs' : Rlt (IZR 0) sigma by apply/RltP.
rewrite /gaussian /divide. case: Req_EM_T => H; first by lra.
have Hpi := PI_RGT_0. have Hq := sqrt_lt_R0 _ Hpi. have H2 : Rlt 0 (R_sqrt.sqrt 2) by apply: sqrt_lt_R0; lra.
rewrite /normal_density /M_SQRT1_2 /M_2_SQRTPI sqrt_mult_alt; last by lra.
congr Some. rewrite [in RHS]/Rdiv [in RHS]Rmult_comm. congr (Rmult _ (exp _)).
  by field; repeat split; lra.
by field; lra.
Qed.

(** C69. The scalar function of the quadrature at x^p is the summand of the
    eigenvalue method at x, for all real x and p. *)
Theorem C69_same_function q p x : q <> Logdet -> (forall mu sigma, q = Density mu sigma -> 0 < sigma) ->
  obind (function_object q) (npow x p) = summand q p x.
Proof.
case: q => [||//|coeff|a b c d|lo hi|mu sigma] _ Hs.
- by rewrite /= /f_trace; case: npow.
- by rewrite /= /f_traceinv; case: npow => //= y; rewrite /inverse divideE.
- rewrite /= /f_trexp. case: npow => //= y. by rewrite /exponential Rmult_comm.
- by rewrite /= /f_trlinfrac; case: npow => //= y; rewrite /homographic divideE.
- rewrite /= /f_eigencount. case: npow => //= y. congr Some. rewrite /indicator.
  case: Rlt_dec => [/RltP ->|/RltP/negbTE ->]; first by rewrite if_same.
  by case: Rlt_dec => [/RltP ->|/RltP/negbTE ->].
- rewrite /= /f_density. case: npow => //= y.
  by rewrite gaussianE ?normal_densityE //; apply: Hs.
Qed.

Section Agree.
Variable E : eig_routines.
Hypothesis EO : eig_routines_ok E.

(** The eigenvalue method sums its summands. *)
Lemma by_eigenvalue_sum (sym gram : bool) n (A : 'M[R]_n) q p s g :
  q <> Logdet -> (forall mu sigma, q = Density mu sigma -> 0 < sigma) ->
  accepted (F := R_rcfType) gram A -> spectrum (subject (F := R_rcfType) gram A) s ->
  (forall x, x \in s -> summand q p x = Some (g x)) ->
  by_eigenvalue E sym gram A q p = Some (\sum_(x <- s) g x).
Proof.
move=> Hq Hd Hacc Hs Hg. rewrite /by_eigenvalue.
set ev := if gram then _ else _.
have Hev w : exists2 l, ev w = Some l & perm_eq (not_nan l) s.
  rewrite /ev. case: gram Hacc Hs {ev} => /= Hacc Hs.
  - eexists; first by []. rewrite (map_comp Some) not_nan_Some.
    have [_ _ Ht] := svdvals_ok EO A. move: Ht. rewrite minnn subnn cats0 => Ht.
    exact: spectrum_perm Ht Hs.
  - eexists; first by []. rewrite not_nan_Some. exact: spectrum_perm (eigh_ok EO Hacc) Hs.
have T w f : (forall x, x \in s -> f x = Some (g x)) ->
    obind (total f) (ev w) = Some (\sum_(x <- s) g x).
  by move=> H; have [l -> Hl] := Hev w; rewrite /= (totalP Hl H).
case: q Hq Hd Hg => [||//|coeff|a b c d|lo hi|mu sigma] _ Hd Hg; try exact: T.
rewrite /density_eigenvalue (Hd _ _ erefl). have := T (which_trace p) (f_density sigma mu p) Hg.
case: (ev _) => [l|] //= ->. by rewrite /= /store /=.
Qed.

(** The log-determinant is the sum of the logarithms of the powers. *)
Lemma ln_Rpower_pos (x p : R) : 0 < x -> npow x p = Some (Rpower x p).
Proof. by rewrite /npow => ->. Qed.

Lemma sum_logs (s : seq R) (p : R) : (forall x, x \in s -> 0 < x) ->
  0 < \prod_(x <- s) x /\ \sum_(x <- s) ln (Rpower x p) = p * ln (\prod_(x <- s) x)%R.
Proof.
elim: s => [|x s IH] H; first by rewrite !big_nil ln_1 ltr01 mulr0.
have [|H1 H2] := IH; first by move=> y Hy; apply: H; rewrite in_cons Hy orbT.
have Hx : 0 < x by apply: H; rewrite in_cons eqxx.
rewrite !big_cons H2 mulr_gt0 //. split=> //.
have -> : ln (x * \prod_(j <- s) j)%R = ln x + ln (\prod_(j <- s) j)%R by apply: ln_mult; apply/RltP.
by rewrite mulrDr /Rpower ln_exp.
Qed.

Lemma logdet_sum (sym gram : bool) n (A : 'M[R]_n) p s :
  (sym -> A^T = A) -> accepted (F := R_rcfType) gram A -> 0 < \det A ->
  spectrum (subject (F := R_rcfType) gram A) s -> (forall x, x \in s -> 0 < x) ->
  by_eigenvalue E sym gram A Logdet p = Some (\sum_(x <- s) ln (Rpower x p)).
Proof.
move=> Hsym Hacc Hdet Hs Hpos. have [Hp ->] := sum_logs p Hpos.
have HA : A \in unitmx by rewrite unitmxE unitfE gt_eqF.
have HW : whole_logdet sym A None None by [].
rewrite /by_eigenvalue -(det_spectrum Hs). case: gram Hacc {Hs} => _.
- by rewrite (C40_logdet_gram_partial EO p HW Hdet) /= eqxx.
- by rewrite (C40_logdet EO p HW HA) /= (ltNge _ 0) (ltW Hdet) /= eqxx gtr0_norm.
Qed.

(** C69. For every function, every real exponent p and every symmetric matrix A
    (with gram: every A with trivial null space) in any storage: if the function
    at x^p is a number for every eigenvalue x, the eigenvalue method returns a
    number, and it is the mean over all sign vectors of the samples of the
    quadrature.  pw and f stand for pow(., p) and for the function object; what
    they do elsewhere does not matter.  Missing: logdet where an eigenvalue or
    det A is negative (see C40_logdet_gram_refuted), and gram with a singular A. *)
Theorem C69_slq_agrees_partial n' (A : storage R_rcfType) (sym gram : bool) params q p s (pw f : R -> R) :
  let n := n'.+1 in
  let M := denotes A n n in
  well_formed A n n -> (sym -> M^T = M) -> accepted gram M -> spectrum (subject gram M) s ->
  (forall x, x \in s -> npow x p = Some (pw x)) ->
  (forall x, x \in s -> function_object q (pw x) = Some (f (pw x))) ->
  (q = Logdet -> 0 < \det M /\ forall x, x \in s -> 0 < x) ->
  (forall mu sigma, q = Density mu sigma -> 0 < sigma) ->
  exists2 t, by_eigenvalue E sym gram M q p = Some t &
  mean_is n (fun eps alloc eigh svd m tol orth v =>
    slq_matrix eps alloc eigh svd pw f n m tol orth gram A params 1 [:: false] v [:: 0]) t.
Proof.
move=> n M HA Hsym Hacc Hs Hpw Hf Hl Hd. exists (\sum_(x <- s) f (pw x)); last exact: C69_matrix_mean.
have [Eq|Nq] : q = Logdet \/ q <> Logdet by case: (q); by [left | right].
- have [Hdet Hpos] := Hl Eq. rewrite Eq (logdet_sum p Hsym Hacc Hdet Hs Hpos).
  congr Some. apply: eq_big_seq => x Hx. move: (Hf x Hx) (Hpw x Hx).
  rewrite Eq ln_Rpower_pos ?Hpos //= => H1 [H2]. move: H1. rewrite -H2 /logarithm.
  by case: Rlt_dec => // _ [].
- apply: by_eigenvalue_sum => // x Hx.
  by rewrite -C69_same_function // (Hpw x Hx) /= Hf.
Qed.
End Agree.

(** ** All methods of one function *)
Section Methods.
Variable E : eig_routines.
Hypothesis EO : eig_routines_ok E.

Lemma posdef_eigenvalues n (M : 'M[R]_n) : posdef M ->
  exists2 s, spectrum M s & forall x, x \in s -> 0 < x.
Proof.
move=> HM. have [s Hs] := spectrum_sym (proj1 HM). exists s => //. exact: spectrum_posdef HM Hs.
Qed.

Lemma npow_posz (x : R) (z : int) : 0 < x -> npow x z%:~R = Some (x ^ z).
Proof. by move=> Hx; apply: npowP; apply: is_power_exprz; rewrite gt_eqF. Qed.

(** C69. trace: for a symmetric matrix and p = 0, 1, 2, ... the exact method, the
    eigenvalue method and the mean of the quadrature samples agree.  The matrix
    is stored twice: once for each of the two models. *)
Theorem C69_trace_methods n' (A : storage R_rcfType) (D : TraceModel.mat [comRingType of R] n'.+1 n'.+1)
    (k : nat) :
  let n := n'.+1 in
  well_formed A n n -> denotes A n n = TraceModel.mx D -> (denotes A n n)^T = denotes A n n ->
  exists t,
  [/\ TraceModel.exact_trace (TraceModel.PyInt k) D = ArgsModel.Ok t,
      by_eigenvalue E true false (denotes A n n) Trace k%:R = Some t &
      mean_is n (fun eps alloc eigh svd m tol orth v =>
        slq_matrix eps alloc eigh svd (fun x => x ^+ k) id n m tol orth false A [::] 1 [:: false] v [:: 0]) t].
Proof.
move=> n HA HD Hsym. have [s Hs] := spectrum_sym Hsym.
have Hpw x : x \in s -> npow x k%:R = Some (x ^+ k).
  by move=> _; apply: (@npowP x k%:R (x ^+ k)); apply: (@is_power_exprz x k); rewrite orbT.
have [//|//|//|t Ht Hm] := @C69_slq_agrees_partial E EO n' A true false [::] Trace k%:R s (fun x => x ^+ k) id HA
  (fun _ => Hsym) Hsym Hs Hpw.
exists t; split=> //.
have HDs : (TraceModel.mx D)^T = TraceModel.mx D by rewrite -HD.
have := C40_agrees_with_exact EO k HDs. rewrite -HD. move: Ht. rewrite /by_eigenvalue => -> /=. by case.
Qed.

(** C69. traceinv: for a symmetric positive-definite matrix and every integer p,
    the eigenvalue method, the Cholesky method (in its variants b, inv), the mean
    of the quadrature samples and, for p >= -1, the mean of the samples of
    Hutchinson's method agree. *)
Theorem C69_traceinv_methods (F : CholModel.routines R_rcfType) : CholModel.routines_ok F ->
  forall b inv n' (A : storage R_rcfType) (p : int),
  let n := n'.+1 in
  let M := denotes A n n in
  well_formed A n n -> posdef M ->
  exists t,
  [/\ by_eigenvalue E true false M Traceinv p%:~R = Some t,
      CholModel.traceinv_cholesky F b inv M None p = Some t,
      mean_is n (fun eps alloc eigh svd m tol orth v =>
        slq_matrix eps alloc eigh svd (fun x => x ^ p) (fun x => x^-1) n m tol orth false A [::] 1
          [:: false] v [:: 0]) t &
      -1 <= p -> exists sample : n.-tuple bool -> R,
        (forall s, HutchModel.hutchinson_sample M None None false p
                     ((Num.sqrt n%:R)^-1 *: vec n (signs R_rcfType s)) = Some (sample s)) /\
        (2 ^ n)%:R^-1 * (\sum_s sample s) = t].
Proof.
move=> FO b inv n' A p n M HA HM. have [s Hs Hpos] := posdef_eigenvalues HM.
have Hpw x : x \in s -> npow x p%:~R = Some (x ^ p) by move=> /Hpos; apply: npow_posz.
have Hf x : x \in s -> function_object Traceinv (x ^ p)%R = Some (x ^ p)^-1.
  move=> /Hpos Hx. rewrite /= /inverse divideE /ndiv.
  by rewrite (negbTE (expfz_neq0 _ _)) ?gt_eqF // div1r.
have [//|//|t Ht Hm] := @C69_slq_agrees_partial E EO n' A true false [::] Traceinv p%:~R s (fun x => x ^ p)
  (fun x => x^-1) HA (fun _ => proj1 HM) (proj1 HM) Hs Hpw Hf.
exists t. split=> //; first by rewrite -(C40_agrees_with_cholesky EO FO b inv p HM).
move=> Hp. have [|||sample [H1 H2]] := @PropHutch.C38_unbiased_partial R_rcfType n' M None None false p _ Hp.
- exact: posdef_unit.
- by [].
- by [].
exists sample. split=> //. rewrite H2 /PropHutch.documented_trace /= mul1mx.
have Hw : whole_sym M None None by split=> //; case: HM.
have := C40_traceinv_matrix EO p (proj1 HM) Hw (posdef_unit HM).
move: Ht. rewrite /by_eigenvalue => ->. by case.
Qed.

(** C69. logdet: for a symmetric positive-definite matrix and every real p, the
    eigenvalue method, the Cholesky method and the mean of the quadrature samples
    are p log det A. *)
Theorem C69_logdet_methods (F : CholModel.routines R_rcfType) : CholModel.routines_ok F ->
  forall b n' (A : storage R_rcfType) (p : R),
  let n := n'.+1 in
  let M := denotes A n n in
  well_formed A n n -> posdef M ->
  let t := p * ln (\det M) in
  [/\ by_eigenvalue E true false M Logdet p = Some t,
      CholModel.logdet_square F b false M p = Some t &
      mean_is n (fun eps alloc eigh svd m tol orth v =>
        slq_matrix eps alloc eigh svd (fun x => Rpower x p) ln n m tol orth false A [::] 1
          [:: false] v [:: 0]) t].
Proof.
move=> FO b n' A p n M HA HM t. have [s Hs Hpos] := posdef_eigenvalues HM.
have [_ Hsum] := sum_logs p Hpos.
have Et : t = \sum_(x <- s) ln (Rpower x p) by rewrite Hsum -(det_spectrum Hs).
split; last by rewrite Et; apply: C69_matrix_mean => //; case: HM.
- by rewrite Et; apply: logdet_sum => //; [case: HM|case: HM|exact: det_posdef].
- exact: PropChol.C36_logdet.
Qed.
End Methods.

(** ** Arguments *)

(** C69. What the quadrature accepts, the eigenvalue method accepts, and it is
    asked for the same quantity. *)
Theorem C69_arguments c q : slq_quantity c = Value q -> eigenvalue_quantities c = Value [:: q].
Proof.
case: c => [|||coeff|coeff|interval|mu sigma] /=; try by case=> <-.
- by case: check_coeff => //= -[[[a b] c] d] [<-].
- by case: check_interval => //= -[lo hi] [<-].
- case: mu => [m|s|s|[|m [|? ?]]|] //=; case: sigma => [r|?|?|?|] //=; case: ifP => // _ [<-]; by [].
Qed.

(** C69. The other way round for all functions but density. *)
Theorem C69_arguments_back c : (forall mu sigma, c <> CallDensity mu sigma) ->
  eigenvalue_quantities c = bind (slq_quantity c) (fun q => Value [:: q]).
Proof.
case: c => [|||coeff|coeff|interval|mu sigma] H //=; last by case: (H mu sigma).
- by case: check_coeff => //= -[[[a b] c] d].
- by case: check_interval => //= -[lo hi].
Qed.

(** The quantity is the one asked for: a number or a list or tuple of the right
    length with the coefficients in order. *)
Theorem C69_accepted c q : slq_quantity c = Value q ->
  match c, q with
  | CallTrace, Trace | CallTraceinv, Traceinv | CallLogdet, Logdet => True
  | CallTrexp x, Trexp y => x = y
  | CallTrlinfrac x, Trlinfrac a b c d =>
      (x = PyList [:: a; b; c; d] \/ x = PyTuple [:: a; b; c; d]) /\ a * d <> b * c
  | CallEigencount x, Eigencount lo hi => x = PyList [:: lo; hi] \/ x = PyTuple [:: lo; hi]
  | CallDensity x y, Density mu sigma =>
      (x = PyNumber mu \/ x = PyArray [:: mu]) /\ y = PyNumber sigma /\ 0 < sigma
  | _, _ => False
  end.
Proof.
case: c => [|||coeff|x|x|x y] /=; try by case=> <-.
- rewrite /check_coeff. by case: x => [?|[|a [|b [|c [|d [|]]]]]|[|a [|b [|c [|d [|]]]]]|?|] //=;
    case: eqP => //= H [<-]; split=> //; [left|right].
- rewrite /check_interval. by case: x => [?|[|a [|b [|]]]|[|a [|b [|]]]|?|] //= [<-]; [left|right].
- case: x => [m|s|s|[|m [|? ?]]|] //=; case: y => [r|?|?|?|] //=; case: ltP => //= Hr;
    rewrite ?leNgt ?Hr //= => -[<-]; repeat split=> //; by [left|right].
Qed.

(** Refuted: a numpy array as interval or coeff is documented (eigencount.py
    97, trlinfrac.py 89) but rejected by both methods. *)
Theorem C69_array_refuted s :
  [/\ slq_quantity (CallEigencount (PyArray s)) = Error TypeError,
      eigenvalue_quantities (CallEigencount (PyArray s)) = Error TypeError,
      slq_quantity (CallTrlinfrac (PyArray s)) = Error TypeError &
      eigenvalue_quantities (CallTrlinfrac (PyArray s)) = Error TypeError].
Proof. by []. Qed.

(** Refuted: a list of several mu passes the checks of both methods of density
    (the message for other types names lists, tuples and arrays), but the
    quadrature cannot use it. *)
Theorem C69_density_list_refuted (ms : seq R) (sigma : R) : 0 < sigma ->
  slq_quantity (CallDensity (PyList ms) (PyNumber sigma)) = Error TypeError /\
  eigenvalue_quantities (CallDensity (PyList ms) (PyNumber sigma)) = Value [seq Density m sigma | m <- ms].
Proof. by move=> H /=; rewrite leNgt H. Qed.

(** The documented methods of a function, and the name of a routine. *)
Definition documented_methods (c : call) : list string :=
  match c with
  | CallTrace => [:: "exact"; "eigenvalue"; "slq"]
  | CallTraceinv => [:: "eigenvalue"; "cholesky"; "hutchinson"; "slq"]
  | CallLogdet => [:: "eigenvalue"; "cholesky"; "slq"]
  | _ => [:: "eigenvalue"; "slq"]
  end%string.
Definition method_name (r : routine) : string :=
  match r with
  | ExactMethod => "exact"
  | EigenvalueMethod => "eigenvalue"
  | CholeskyMethod => "cholesky"
  | HutchinsonMethod => "hutchinson"
  | SlqMethod => "slq"
  end%string.

(** C69. Every documented method selects the routine of that name, every other
    string raises an exception. *)
Theorem C69_methods c m :
  (List.In m (documented_methods c) -> exists2 r, route c m = Value r & method_name r = m) /\
  (~ List.In m (documented_methods c) -> exists e, route c m = Error e).
Proof.
split.
- case: c => [|||x|x|x|x y] /= H; repeat (case: H => [<-|H]; first by eexists); by case: H.
- case: c => [|||x|x|x|x y] /= H; rewrite /route_trace /route_traceinv /route_logdet /route_other;
    repeat (case: eqb_spec => [E|_]; first by case: H; rewrite E; tauto); by eexists.
Qed.

(** ** A degree below n *)
Section Low.
Variable F : rcfType.

Lemma one_step n' (Mat : seq F -> 'M[F]_n'.+1) p w x pw f tol : (Mat p)^T = Mat p -> w != 0 -> 0 < tol ->
  value_of (n' := n') Mat pw f 1 tol false p w x -> x = n'.+1%:R * f (pw (rayleigh (Mat p) w)).
Proof.
  move=> HM Hw Ht [k [Q [d [Hs Hsp ->]]]]. congr (_ * _).
  have Hal := stops_alive Ht Hs. have Hk : (k < 1)%N by case: Hs.
  have Ek : k = 0%N by lia. move: Q d Hs Hsp Hal. rewrite Ek => Q d _ Hsp Hal.
  rewrite /projected in Hsp.
  have Hray (c : F) : rayleigh (horner_mx (Mat p) c%:P) w = c.
    by rewrite horner_mx_C /rayleigh mul_scalar_mx ipZr mulfK // ip_eq0.
  have C (g : F -> F) : matrix_function g Q d 0 0 = g (d 0 0).
    rewrite (exact_poly Hw HM Hal (p := (g (d 0 0))%:P) Hsp) ?Hray // => [|i].
    - left. by rewrite size_polyC; case: (_ == _).
    - by rewrite hornerC (ord1 i).
  rewrite C. congr (f (pw _)). rewrite -(C id).
  rewrite (exact_poly Hw HM Hal (p := 'X) Hsp) ?horner_mx_X // => [|i]; last by rewrite hornerX.
  left. by rewrite size_polyX.
Qed.

Lemma diag13_spectrum : spectrum (denotes (Dense true [:: 1; 0; 0; 3%:R]) 2 2 : 'M[F]_2) [:: 1; 3%:R].
Proof.
  rewrite /spectrum char_poly_trig.
    by rewrite !big_ord_recl big_ord0 !big_cons big_nil !mxE /=.
  apply/is_trig_mxP => -[[|[|//]] Hi] [[|[|//]] Hj] //= _. by rewrite mxE.
Qed.

(** Refuted: agreement for a lanczos_degree below n.  The matrix diag(1, 3) and
    the function 1/x, with lanczos_degree=1: every sample is 1, but the trace of
    the inverse is 4/3. *)
Theorem C69_degree_refuted : exists A : storage F,
  [/\ well_formed A 2 2, (denotes A 2 2)^T = denotes A 2 2, spectrum (denotes A 2 2) [:: 1; 3%:R] &
  forall eps alloc eigh svd tol orth,
  0 < eps -> (forall k, size (alloc k) = k) -> eigh_contract eigh -> svd_contract svd -> 0 < tol ->
  (forall s : 2.-tuple bool,
    slq_matrix eps alloc eigh svd id (fun x => x^-1) 2 1 tol orth false A [::] 1 [:: false]
      (signs F s) [:: 0] = Some ([:: false], [:: 1])) /\
  (1 : F) <> \sum_(x <- [:: 1; 3%:R]) x^-1].
Proof.
  pose A : storage F := Dense true [:: 1; 0; 0; 3%:R].
  have Hsym : (denotes A 2 2)^T = denotes A 2 2.
  { apply/matrixP => -[[|[|//]] Hi] [[|[|//]] Hj]; by rewrite !mxE. }
  exists A. split => //; first exact: diag13_spectrum.
  move=> eps alloc eigh svd tol orth He Hal Hei Hsv Ht. split; last first.
  { rewrite !big_cons big_nil addr0 invr1 => /eqP. rewrite addrC -subr_eq subrr eq_sym invr_eq0 pnatr_eq0. by []. }
  move=> s. have Hsz : (2 <= size (signs F s))%N by rewrite size_map size_tuple.
  have [est' [E SE _ Hval _]] := matrix_each He Hal Hei Hsv id (fun x => x^-1) (m := 1) isT Ht orth (gram := false) [::]
      (A := A) (n' := 1) (conv := [:: false]) (est := [:: 0]) (num := 1) isT isT Hsym isT isT Hsz (signs_nz F s).
  rewrite E. congr (Some (_, _)). have {Hval E} := Hval 0%N isT isT. case: est' SE => [|x [|]] //= _ Hx.
  rewrite (one_step Hsym (signs_nz F s) Ht Hx). congr [:: _].
  have -> : rayleigh (denotes A 2 2) (vec 2 (signs F s)) = 2%:R.
  { rewrite /rayleigh signs_norm.
    have -> : ip (vec 2 (signs F s)) (denotes A 2 2 *m vec 2 (signs F s)) = 4%:R.
    { rewrite /ip !big_ord_recl big_ord0 ![(denotes A 2 2 *m _) _ _]mxE !big_ord_recl !big_ord0.
      rewrite ![denotes A 2 2 _ _]mxE /= !mul0r !addr0 ?add0r mul1r mulrCA !signsE !sign_sqr mulr1.
      by rewrite -(natrD F 1 3). }
    have -> : 4%:R = 2%:R * 2%:R :> F by rewrite -natrM.
    rewrite mulfK // pnatr_eq0. by []. }
  by rewrite mulfV // pnatr_eq0.
Qed.
End Low.

(** ** The hypotheses are met *)

(** trexp of [[2, 1], [1, 2]] with coeff 1/2 and p = 3, in dense storage *)
Definition case_storage : storage R_rcfType := Dense true [:: 2%:R; 1; 1; 2%:R].

Lemma case_denotes : denotes case_storage 2 2 = two_one.
Proof.
  apply/matrixP => -[[|[|//]] Hi] [[|[|//]] Hj]; rewrite !mxE /= ?add0r // -[1%:R]/(1 : R) -mulr2n; by [].
Qed.

Lemma case_sym : (denotes case_storage 2 2)^T = denotes case_storage 2 2.
Proof. by rewrite case_denotes /two_one linearD /= trmx1 trmx_const. Qed.

Example C69_case E : eig_routines_ok E ->
  exists2 t, by_eigenvalue E true false (denotes case_storage 2 2) (Trexp (1 / 2%:R)) 3%:R = Some t &
  mean_is 2 (fun eps alloc eigh svd m tol orth v =>
    slq_matrix eps alloc eigh svd (fun x => x ^+ 3) (fun x => exp (Rmult x (1 / 2%:R))) 2 m tol orth false
      case_storage [::] 1 [:: false] v [:: 0]) t.
Proof.
  move=> EO. apply: (@C69_slq_agrees_partial E EO 1 case_storage true false [::] (Trexp (1 / 2%:R)) 3%:R [:: 1; 3%:R]
    (fun x => x ^+ 3) (fun x => exp (Rmult x (1 / 2%:R)))) => //.
  - by move=> _; exact: case_sym.
  - exact: case_sym.
  - rewrite /subject case_denotes. exact: two_one_spectrum.
  - move=> x _. apply: (@npowP x 3%:R (x ^+ 3)). apply: (@is_power_exprz x 3). by rewrite orbT.
Qed.

(** Gram: the same matrix, the number of eigenvalues of A^T A in [0, 5] *)
Example C69_gram_case E : eig_routines_ok E ->
  exists2 t, by_eigenvalue E false true (denotes case_storage 2 2) (Eigencount 0 5%:R) 1%:R = Some t &
  mean_is 2 (fun eps alloc eigh svd m tol orth v =>
    slq_matrix eps alloc eigh svd (fun x => x ^+ 1) (indicator 0 5%:R) 2 m tol orth true
      case_storage [::] 1 [:: false] v [:: 0]) t.
Proof.
  move=> EO. have Hu : denotes case_storage 2 2 \in unitmx.
  { rewrite case_denotes (spectrum_unit two_one_spectrum) !inE negb_or eq_sym oner_eq0 eq_sym pnatr_eq0. by []. }
  have [s Hs] : exists s, spectrum (subject (F := R_rcfType) true (denotes case_storage 2 2)) s.
  { apply: spectrum_sym. by rewrite /subject trmx_mul trmxK. }
  apply: (@C69_slq_agrees_partial E EO 1 case_storage false true [::] (Eigencount 0 5%:R) 1%:R s
    (fun x => x ^+ 1) (indicator 0 5%:R)) => //.
  - move=> x Hx. by rewrite -[x](mulKmx Hu) Hx mulmx0.
  - move=> x _. apply: (@npowP x 1%:R (x ^+ 1)). apply: (@is_power_exprz x 1). by rewrite orbT.
Qed.

Lemma case_posdef : posdef (denotes case_storage 2 2).
Proof.
  split; first exact: case_sym. move=> x Hx. rewrite /qform case_denotes /two_one mulmxDr mulmx1 mulmxDl mxE.
  have -> : (x^T *m const_mx 1 *m x) 0 0 = (\sum_i x i 0) ^+ 2.
  { rewrite !mxE !big_ord_recl !big_ord0 !mxE !big_ord_recl !big_ord0 !mxE !addr0 !mulr1 expr2. by rewrite -mulrDr. }
  apply: ltr_paddr; first exact: sqr_ge0.
  have -> : (x^T *m x) 0 0 = ip (R := R_rcfType) x x by rewrite mxE; apply: eq_bigr => i _; rewrite mxE.
  by rewrite lt_neqAle ip_ge0 eq_sym (@ip_eq0 R_rcfType) Hx.
Qed.

Example C69_posdef_case E F b inv : eig_routines_ok E -> CholModel.routines_ok F ->
  (exists t, by_eigenvalue E true false (denotes case_storage 2 2) Traceinv 2%:~R = Some t /\
     CholModel.traceinv_cholesky F b inv (denotes case_storage 2 2) None 2 = Some t) /\
  by_eigenvalue E true false (denotes case_storage 2 2) Logdet 2%:R = Some (2%:R * ln (\det (denotes case_storage 2 2))).
Proof.
  move=> EO FO. split.
  - have [t [H1 H2 _ _]] := C69_traceinv_methods EO FO b inv 2 (isT : well_formed case_storage 2 2) case_posdef. by exists t.
  - by have [] := C69_logdet_methods EO FO b 2%:R (isT : well_formed case_storage 2 2) case_posdef.
Qed.

Definition C69_assumptions :=
  (@C69_matrix_mean, @C69_affine_mean, @C69_same_function, @C69_slq_agrees_partial, @C69_trace_methods,
   @C69_traceinv_methods, @C69_logdet_methods, @C69_arguments, @C69_arguments_back, @C69_accepted,
   @C69_array_refuted, @C69_density_list_refuted, @C69_methods, @C69_degree_refuted).
Print Assumptions C69_assumptions.
