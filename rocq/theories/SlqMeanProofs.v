(** With at least as many Lanczos steps as rows, and a tolerance that is small
    enough, the iteration ends with remainder zero. *)
From mathcomp Require Import all_ssreflect all_algebra.
From mathcomp Require Import zify.
From Verif Require Import Mem KernelModel KernelSpec OperatorModel OperatorSpec.
From Verif Require Import LanczosModel LanczosSpec LanczosMath LanczosProofs GolubKahnProofs.
From Verif Require Import MatSpec Spectral SlqModel SlqSpec SlqProofs ExactProofs PropSlq EigenMath.
Set Implicit Arguments.
Unset Strict Implicit.
Unset Printing Implicit Defensive.
Import GRing.Theory Num.Theory Order.TTheory.
Local Open Scope ring_scope.

Section Mean.
Variable R : rcfType.
Variable n' : nat.
Notation n := n'.+1.

Lemma full_basis (V : 'M[R]_n) (r : 'cV[R]_n) : orthonormal V -> V^T *m r = 0 -> r = 0.
Proof.
  move=> /mulmx1C HV Hr. by rewrite -[r]mul1mx -HV -mulmxA Hr mulmx0.
Qed.

(** Positive numbers of a finite list have a positive lower bound. *)
Lemma positive_bound (s : seq R) : (forall x, x \in s -> 0 <= x) ->
  exists2 t, 0 < t & forall x, x \in s -> x = 0 \/ t <= x.
Proof.
  elim: s => [|x s IH] H; first by exists 1.
  have [|t Ht Hs] := IH; first by move=> y Hy; apply: H; rewrite in_cons Hy orbT.
  have Hx : 0 <= x by apply: H; rewrite in_cons eqxx.
  case: (altP (x =P 0)) => [->|Hx0].
  - exists t => // y. rewrite in_cons => /orP [/eqP ->|/Hs] //. by left.
  - have {Hx} Hx0 : 0 < x by rewrite lt_neqAle eq_sym Hx0.
    exists (Num.min x t); first by rewrite lt_minr Hx0.
    move=> y. rewrite in_cons => /orP [/eqP ->|/Hs [->|Hy]]; [right|by left|right].
    + by rewrite le_minl lexx.
    + by rewrite le_minl Hy orbT.
Qed.

Section Vector.
Variable M : 'M[R]_n.
Variable w : 'cV[R]_n.
Hypothesis w_nz : w != 0.

Lemma lanczos_full : M^T = M -> alive M w n' -> lzb M w n' = 0.
Proof.
  move=> HM Ha. have [H1 _ _ H2 _] := lanczos_result_ok w_nz HM Ha.
  apply/eqP. rewrite nrm_eq0. apply/eqP. exact: full_basis H1 H2.
Qed.

Lemma alive_bound k : M^T = M -> alive M w k -> (k < n)%N.
Proof.
  move=> HM Ha. rewrite ltnNge. apply/negP => Hk.
  have := Ha n' Hk. by rewrite lanczos_full ?eqxx // => j Hj; apply: Ha; lia.
Qed.

Lemma gk_full : (forall x : 'cV_n, M *m x = 0 -> x = 0) -> gkalive M w n' -> gkb M w n' = 0.
Proof.
  move=> HM Ha. have Hk : gka M w n' != 0 by exact: gk_injective.
  have [_ H1 _ _ [_ H2 _]] := golub_kahn_result_ok w_nz Ha Hk.
  apply/eqP. rewrite nrm_eq0. apply/eqP. exact: full_basis H1 H2.
Qed.

Lemma gkalive_bound k : (forall x : 'cV_n, M *m x = 0 -> x = 0) -> gkalive M w k -> (k < n)%N.
Proof.
  move=> HM Ha. rewrite ltnNge. apply/negP => Hk.
  have := Ha n' Hk. rewrite gk_full //; first by rewrite eqxx => -[].
  by move=> j Hj; apply: Ha; lia.
Qed.
End Vector.

(** The off-diagonal entries for all vectors in a list, bounded away from zero. *)
Definition separates (b : 'cV[R]_n -> nat -> R) (ws : seq 'cV[R]_n) (t : R) : Prop :=
  forall w i, w \in ws -> (i < n)%N -> b w i = 0 \/ t * Num.sqrt n%:R <= b w i.

Lemma separates_exists b ws : (forall w i, 0 <= b w i) -> exists2 t, 0 < t & separates b ws t.
Proof.
  move=> Hb.
  have [x|t Ht H] := @positive_bound [seq b w i | w <- ws, i <- iota 0 n].
    by case/allpairsP => -[w i] [_ _ ->].
  have Hn : 0 < Num.sqrt n%:R :> R by rewrite sqrtr_gt0 ltr0n.
  exists (t / Num.sqrt n%:R); first by rewrite divr_gt0.
  move=> w i Hw Hi. rewrite divfK; last by rewrite gt_eqF.
  apply: H. apply/allpairsP. exists (w, i). by rewrite mem_iota.
Qed.

Lemma separates_le b ws t t' : t' <= t -> separates b ws t -> separates b ws t'.
Proof.
  move=> Ht H w i Hw Hi. case: (H w i Hw Hi) => [->|Hb]; [by left|right].
  apply: le_trans Hb. by rewrite ler_pmul2r // sqrtr_gt0 ltr0n.
Qed.

Variable pw f : R -> R.
Notation g := (fun x => f (pw x)).

Definition end_value (gram : bool) (M : 'M[R]_n) : 'M[R]_n := if gram then M^T *m M else M.

(** Then a sample is n times the Rayleigh quotient of g(M). *)
Lemma value_full (Mat : seq R -> 'M[R]_n) m tol gram p w x P e :
  (n <= m)%N -> 0 < tol -> admissible Mat gram p -> w != 0 ->
  (forall i, (i < n)%N -> offdiag Mat gram p w i = 0 \/ tol * Num.sqrt n%:R <= offdiag Mat gram p w i) ->
  spectral (end_value gram (Mat p)) P e ->
  value_of (n' := n') Mat pw f m tol gram p w x ->
  x = n%:R * rayleigh (matrix_function g P e) w.
Proof.
  move=> Hm Ht Had Hw Hsep HP [k [Q [d [Hs Hsp ->]]]]. congr (_ * _).
  have Hzero : (k < n)%N -> ((k = n')%N -> offdiag Mat gram p w n' = 0) -> offdiag Mat gram p w k = 0.
  { move=> Hk Hfull. case: Hs => _ _ H3. case: (ltnP k.+1 m) => Hkm.
    - case: (Hsep k Hk) => // H. by rewrite leNgt H3 in H.
    - have Ek : k = n' by lia. by rewrite {1}Ek; apply: Hfull. }
  move: Hsp Hs Hzero Had HP. rewrite /projected /offdiag /admissible /end_value.
  set M := Mat p. case: gram {Hsep} => Hsp Hs Hzero HM HP.
  - have Hal := stops_gkalive Ht Hw HM (let: And3 _ H _ := Hs in H).
    have Ha : gka M w k != 0 by exact: gk_injective.
    have Hy : gkb M w k = 0.
    { apply: Hzero; first exact: gkalive_bound Hal. move=> E. apply: gk_full => // j Hj. apply: Hal. by rewrite E. }
    apply: (gram_exact_any Hw Hal Ha _ Hsp _ HP). apply/eqP. by rewrite -nrm_eq0 -/(gkb M w k) Hy.
  - have Hal := stops_alive Ht Hs.
    have Hy : lzb M w k = 0.
    { apply: Hzero; first exact: alive_bound Hal. move=> E. apply: lanczos_full => // j Hj. apply: Hal. by rewrite E. }
    apply: (exact_any Hw HM Hal _ Hsp _ HP). apply/eqP. by rewrite -nrm_eq0 -/(lzb M w k) Hy.
Qed.

Lemma spectrum_of_spectral (M P : 'M[R]_n) e : spectral M P e ->
  spectrum M [seq e 0 i | i <- enum 'I_n].
Proof.
  case=> HP HA. have HP' : P^T \in unitmx by case: (mulmx1_unit HP).
  have E : P^T *m M = diag_mx e *m P^T by rewrite HA !mulmxA HP mul1mx.
  rewrite /spectrum (char_poly_similar HP' E) char_poly_trig ?diag_mx_is_trig // big_map big_enum /=.
  by apply: eq_bigr => i _; rewrite mxE eqxx.
Qed.

(** The trace of g(M) is the sum of g over the spectrum. *)
Lemma trace_function (M P : 'M[R]_n) e s (h : R -> R) : spectral M P e -> spectrum M s ->
  \tr (matrix_function h P e) = \sum_(x <- s) h x.
Proof.
  move=> HP Hs. rewrite /matrix_function mxtrace_mulC mulmxA (proj1 HP) mul1mx mxtrace_diag.
  rewrite (perm_big _ (spectrum_perm Hs (spectrum_of_spectral HP))) big_map big_enum /=.
  apply: eq_bigr => i _. by rewrite mxE.
Qed.

Lemma signs_norm (s : n.-tuple bool) : ip (vec n (signs R s)) (vec n (signs R s)) = n%:R.
Proof. rewrite /ip. under eq_bigr do rewrite signsE sign_sqr. by rewrite sumr_const card_ord. Qed.

Lemma signs_nz (s : n.-tuple bool) : vec n (signs R s) != 0.
Proof. by rewrite -ip_eq0 signs_norm pnatr_eq0. Qed.

(** The mean over the sign vectors. *)
Lemma mean_of_values (F : 'M[R]_n) (x : n.-tuple bool -> R) :
  (forall s, x s = n%:R * rayleigh F (vec n (signs R s))) ->
  (2 ^ n)%:R^-1 * (\sum_s x s) = \tr F.
Proof.
  move=> H. rewrite -(C19_rademacher F). congr (_ * _). apply: eq_bigr => s _.
  by rewrite H /rayleigh signs_norm mulrC divfK // pnatr_eq0.
Qed.

Definition all_signs : seq 'cV[R]_n := [seq vec n (signs R s) | s : n.-tuple bool].

Lemma in_all_signs (s : n.-tuple bool) : vec n (signs R s) \in all_signs.
Proof. exact: image_f. Qed.

(** For every matrix there is a bound of the tolerance that works. *)
Lemma bound_exists (Mat : seq R -> 'M[R]_n) gram p :
  exists2 t, 0 < t & separates (fun w => offdiag Mat gram p w) all_signs t.
Proof.
  apply: separates_exists => w i. rewrite /offdiag. case: gram; exact: nrm_ge0.
Qed.
End Mean.
