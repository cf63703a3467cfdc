(** The eigenvalue methods: C40. *)
Require Import Reals Lra Epsilon.
From mathcomp Require Import all_ssreflect all_algebra.
From mathcomp.real_closed Require Import complex.
From mathcomp Require Import zify.
From Verif Require Import MatSpec CholMath RealField EigenMath EigenSpec EigenModel.
From Verif Require TraceModel PropTrace CholModel PropChol.
Set Implicit Arguments.
Unset Strict Implicit.
Unset Printing Implicit Defensive.
Import GRing.Theory Num.Theory Order.TTheory.
Local Open Scope ring_scope.

Arguments mxpow : simpl never.

Lemma R2E : 2%:R = IZR 2 :> R.
Proof. by rewrite RnatE INR_IZR_INZ. Qed.

Lemma Int_part_IZR (z : Z) : Int_part (IZR z) = z.
Proof.
have [H1 H2] := base_Int_part (IZR z).
have H3 : Rlt (IZR (Int_part (IZR z))) (IZR (z + 1)) by rewrite plus_IZR; lra.
have H4 : Rlt (IZR (z - 1)) (IZR (Int_part (IZR z))) by rewrite minus_IZR; lra.
apply lt_IZR in H3. apply lt_IZR in H4. lia.
Qed.

Lemma Int_part_unique (x : R) (z : Z) : Rle (IZR z) x -> Rlt x (Rplus (IZR z) 1) -> Int_part x = z.
Proof.
move=> A1 A2. have [H1 H2] := base_Int_part x.
have H3 : Rlt (IZR (Int_part x)) (IZR (z + 1)) by rewrite plus_IZR; lra.
have H4 : Rlt (IZR (z - 1)) (IZR (Int_part x)) by rewrite minus_IZR; lra.
apply lt_IZR in H3. apply lt_IZR in H4. lia.
Qed.

Lemma npowP x p y : is_power x p y -> npow x p = Some y.
Proof.
rewrite /npow => -[[/RltP -> ->] //|[z [-> [Hz ->]]]].
case: ltP => Hx; first by rewrite powerRZ_Rpower //; apply/RltP.
case: eqP => [E|/eqP Hn].
  have {}Hz : Z.le 0 z by case: Hz.
  rewrite E. case: (Z.eq_dec z 0) Hz => [-> _|H1 H2].
    by rewrite ltxx eqxx /=.
  have -> : (0 : R) < IZR z by apply/RltP; apply: IZR_lt; lia.
  case: z H1 H2 => [|q|q] //= _ _; rewrite pow_i //. exact: Pos2Nat.is_pos.
by rewrite /integral Int_part_IZR eqxx.
Qed.

Lemma nsumP T (s : seq T) (f : T -> option R) (g : T -> R) :
  (forall x, List.In x s -> f x = Some (g x)) -> nsum (map f s) = Some (\sum_(x <- s) g x).
Proof.
elim: s => [|x s IH] H /=; first by rewrite big_nil.
rewrite H; last by left. rewrite IH; first by rewrite big_cons.
by move=> y Hy; apply: H; right.
Qed.

Lemma InP (T : eqType) (x : T) s : List.In x s <-> x \in s.
Proof.
elim: s => [|y s IH] //=. rewrite in_cons. split.
- by case=> [->|/IH ->]; rewrite ?eqxx ?orbT.
- by case/orP => [/eqP ->|/IH]; [left|right].
Qed.

Lemma not_nan_Some T (s : seq T) : not_nan (map Some s) = s.
Proof. by rewrite /not_nan (map_pK (g := Some)). Qed.

Lemma not_nan_pad T (s : seq T) k : not_nan (map Some s ++ nseq k None) = s.
Proof. by rewrite /not_nan pmap_cat -[pmap id _]/(not_nan _) not_nan_Some; elim: k => [|k]; rewrite /= ?cats0. Qed.

Lemma totalP f g ev s : perm_eq (not_nan ev) s -> (forall x, x \in s -> f x = Some (g x)) ->
  total f ev = Some (\sum_(x <- s) g x).
Proof.
move=> Hp H. rewrite /total (nsumP (g := g)); first by rewrite (perm_big _ Hp).
by move=> x /InP; rewrite (perm_mem Hp) => /H.
Qed.

(** Where the eigenvalues come from: computed from a dense matrix, or given by
    the caller. *)
Definition whole_sym n (A : 'M[R]_n) (given : option (seq (option R))) (fraction : option R) : Prop :=
  if given is Some ev then exists2 t, ev = map Some t & spectrum A t
  else A^T = A /\ fraction = None.

(** With gram=True the singular values are given, as many as A has rows. *)
Definition whole_gram n m (A : 'M[R]_(n, m)) (given : option (seq (option R))) (fraction : option R) : Prop :=
  if given is Some ev then
    exists t, [/\ ev = map Some t, size t = n & spectrum (A^T *m A) [seq x ^+ 2 | x <- t]]
  else (m <= n)%N /\ fraction = None.

(** The six methods return the sum of f(x^p) over the numbers x in s. *)
Definition sums_over (ev : which -> option (seq (option R))) (s : seq R) : Prop :=
  forall (p : R) (pw : R -> R), (forall x, x \in s -> is_power x p (pw x)) ->
  trace_eigenvalue ev p = Some (\sum_(x <- s) pw x) /\
  ((forall x, x \in s -> pw x != 0) ->
    traceinv_eigenvalue ev p = Some (\sum_(x <- s) 1 / pw x)) /\
  (forall c : R, trexp_eigenvalue ev c p = Some (\sum_(x <- s) exp (c * pw x))) /\
  (forall a b c d : R, (forall x, x \in s -> c * pw x + d != 0) ->
    trlinfrac_eigenvalue ev a b c d p = Some (\sum_(x <- s) (a * pw x + b) / (c * pw x + d))) /\
  (forall lo hi : R,
    eigencount_eigenvalue ev lo hi p = Some (count (fun x => lo <= pw x <= hi) s)%:R) /\
  (forall (sigma : R) (mu : seq number), 0 < sigma -> ~~ all is_int mu ->
    density_eigenvalue ev sigma mu p =
      Some [seq \sum_(x <- s) normal_density (val_of m) sigma (pw x) | m <- mu]).

Lemma normal_densityE (mu sigma x : R) : 0 < sigma ->
  let u := (x - mu) / sigma in
  (1 / (Num.sqrt (2%:R * PI) * sigma)) * exp (- (1 / 2%:R) * u ^+ 2) =
  normal_density mu sigma x.
Proof.
move=> Hs u. rewrite /u {u}. have Hpi : Rlt 0 (Rmult 2 PI) by have := PI_RGT_0; lra.
have Hq : Rlt 0 (R_sqrt.sqrt (Rmult 2 PI)) by apply: sqrt_lt_R0.
have E2 : (2%:R * PI : R) = Rmult 2 PI by rewrite R2E.
rewrite E2 RsqrtE; last by apply/RleP; toR; lra.
have /RltP Hs' := Hs. have Hs0 : sigma <> 0 :> R by move=> E; rewrite E ltxx in Hs.
rewrite /normal_density ?RdivE; first last.
- by apply/eqP.
- by rewrite mulf_neq0 ?gt_eqF //; apply/RltP.
rewrite [in LHS]mulrC /Rdiv. toR; simpl INR. rewrite Rmult_1_l.
rewrite [Rmult sigma (R_sqrt.sqrt _)]Rmult_comm. congr (Rmult (exp _) _).
  by field.
by rewrite Rmult_1_l.
Qed.

Lemma sums_over_perm ev s :
  (forall w, exists2 l, ev w = Some l & perm_eq (not_nan l) s) -> sums_over ev s.
Proof.
move=> Hev p pw Hpw.
have T w f g : (forall x, x \in s -> f x = Some (g x)) ->
    obind (total f) (ev w) = Some (\sum_(x <- s) g x).
  by move=> H; have [l -> Hl] := Hev w; rewrite /= (totalP Hl H).
split; first by apply: T => x /Hpw /npowP.
split.
  move=> H0; apply: T => x Hx. rewrite /f_traceinv (npowP (Hpw _ Hx)) /= /ndiv.
  by rewrite (negbTE (H0 _ Hx)).
split; first by move=> c; apply: T => x Hx; rewrite /f_trexp (npowP (Hpw _ Hx)).
split.
  move=> a b c d H0; apply: T => x Hx. rewrite /f_trlinfrac (npowP (Hpw _ Hx)) /= /ndiv.
  by rewrite (negbTE (H0 _ Hx)).
split.
  move=> lo hi. rewrite /eigencount_eigenvalue.
  rewrite (T _ _ (fun x => ((lo <= pw x) && (pw x <= hi))%R%:R)).
    rewrite -sum1_count natr_sum [in RHS]big_mkcond; congr Some; apply: eq_bigr => x _. by case: (_ && _).
  move=> x Hx. rewrite /f_eigencount (npowP (Hpw _ Hx)) /=. congr Some.
  by case: (leP lo (pw x)) => _; case: (leP (pw x) hi).
move=> sigma mu Hs Hmu. rewrite /density_eigenvalue Hs.
have [l -> Hl] := Hev (which_trace p). rewrite /=.
have Est x : store mu x = x by rewrite /store (negbTE Hmu) andbF.
elim: {2 3}mu => [|m t IH] //=.
rewrite (totalP Hl (g := fun x => normal_density (val_of m) sigma (pw x))).
  by rewrite IH /= Est.
move=> x Hx. by rewrite /f_density (npowP (Hpw _ Hx)) /= normal_densityE.
Qed.

Section Real.
Variable E : eig_routines.
Hypothesis EO : eig_routines_ok E.

(** C40 for symmetric matrices (assume_matrix='sym') and for given eigenvalues:
    the sums over the whole spectrum. *)
Theorem C40_symmetric n (A : 'M[R]_n) given fraction s :
  whole_sym A given fraction -> spectrum A s -> sums_over (eigenvalues_sym E A given fraction) s.
Proof.
move=> H Hs. apply: sums_over_perm => w. rewrite /eigenvalues_sym.
case: given H => [ev [t -> Ht]|[HA ->]].
  rewrite size_map (spectrum_size Ht) eqxx. eexists; first by [].
  by rewrite not_nan_Some (spectrum_perm Ht Hs).
eexists; first by []. rewrite not_nan_Some. exact: spectrum_perm (eigh_ok EO HA) Hs.
Qed.

(** C40 for the Gramian matrix of a square or tall A.  Missing: wide matrices
    (see the refutations below). *)
Theorem C40_gram_partial n m (A : 'M[R]_(n, m)) given fraction s :
  whole_gram A given fraction -> spectrum (A^T *m A) s ->
  sums_over (eigenvalues_gram E A given fraction) s.
Proof.
move=> H Hs. apply: sums_over_perm => w. rewrite /eigenvalues_gram.
case: given H => [ev [t [-> Ht Hg]]|[HA ->]].
  rewrite size_map Ht eqxx. eexists; first by [].
  by rewrite -map_comp (map_comp Some) not_nan_Some (spectrum_perm Hg Hs).
eexists; first by []. rewrite (map_comp Some) not_nan_Some.
have [_ _ Ht] := svdvals_ok EO A. move: Ht. rewrite (minn_idPr HA) subnn cats0 => Ht.
exact: spectrum_perm Ht Hs.
Qed.

End Real.

(** Integer powers. *)
Lemma is_power_exprz (x : R) (z : int) : (x != 0) || (0 <= z) -> is_power x z%:~R (x ^ z)%R.
Proof.
move=> H. right. case: z H => k H.
  exists (Z.of_nat k). split; first by rewrite -INR_IZR_INZ -RnatE.
  split; first by right; apply: Nat2Z.is_nonneg.
  by rewrite -pow_powerRZ -RexpE.
exists (Z.opp (Z.of_nat k.+1)). rewrite orbF in H.
split; first by rewrite NegzE mulrNz opp_IZR -INR_IZR_INZ -RnatE.
split; first by left; apply/eqP.
have Hx : x ^+ k.+1 != 0 by rewrite expf_neq0.
rewrite NegzE -exprnN RinvE // RexpE.
by rewrite /= SuccNat2Pos.id_succ.
Qed.

Lemma spectrum_powz n (A : 'M[R]_n) s z : spectrum A s -> (A \in unitmx) || (0 <= z) ->
  spectrum (mxpowz A z) [seq x ^ z | x <- s].
Proof.
move=> Hs. case: z => k H; first exact: spectrum_powR.
rewrite orbF in H. have := spectrum_powR k.+1 (spectrum_invR H Hs).
rewrite -map_comp /=. congr spectrum. apply: eq_map => x. by rewrite NegzE -exprnN /= exprVn.
Qed.

Section Matrix.
Variable E : eig_routines.
Hypothesis EO : eig_routines_ok E.

Lemma powz_side n (A : 'M[R]_n) s (z : int) : spectrum A s -> (A \in unitmx) || (0 <= z) ->
  forall x, x \in s -> is_power x z%:~R (x ^ z)%R.
Proof.
move=> Hs H x Hx. apply: is_power_exprz. case/orP: H => [|->]; rewrite ?orbT //.
rewrite (spectrum_unit Hs) => H. by apply/orP; left; apply: contraNneq H => <-.
Qed.

Lemma sums_matrix n (B : 'M[R]_n) s ev (z : int) : spectrum B s -> sums_over ev s ->
  (B \in unitmx) || (0 <= z) -> trace_eigenvalue ev z%:~R = Some (\tr (mxpowz B z)).
Proof.
move=> Hs Hev H. have [-> _] := Hev _ _ (powz_side Hs H).
by rewrite (trace_spectrumR (spectrum_powz Hs H)) big_map.
Qed.

Lemma sums_matrixinv n (B : 'M[R]_n) s ev (z : int) : spectrum B s -> sums_over ev s ->
  B \in unitmx -> traceinv_eigenvalue ev z%:~R = Some (\tr (mxpowz B (- z))).
Proof.
move=> Hs Hev H.
have Hz (y : int) : (B \in unitmx) || (0 <= y) by rewrite H.
have Hn x : x \in s -> x != 0.
  by move=> Hx; apply: contraTneq H => E0; rewrite (spectrum_unit Hs) negbK -E0.
have [_ [H2 _]] := Hev _ _ (powz_side Hs (Hz z)).
rewrite {}H2; last first.
  by move=> x /Hn Hx; rewrite expfz_neq0.
rewrite (trace_spectrumR (spectrum_powz Hs (Hz (- z)))) big_map. congr Some.
by apply: eq_big_seq => x Hx; rewrite mul1r invr_expz.
Qed.

(** For an integer exponent, the trace of the matrix power, and the same value
    as the exact method for every k >= 0. *)
Theorem C40_trace_matrix n (A : 'M[R]_n) given fraction (z : int) :
  A^T = A -> whole_sym A given fraction -> (A \in unitmx) || (0 <= z) ->
  trace_eigenvalue (eigenvalues_sym E A given fraction) z%:~R = Some (\tr (mxpowz A z)).
Proof.
move=> HA Hw Hz. have [s Hs] := spectrum_sym HA.
exact: sums_matrix Hs (C40_symmetric EO Hw Hs) Hz.
Qed.

Theorem C40_agrees_with_exact n (A : TraceModel.mat [comRingType of R] n n) (k : nat) :
  (TraceModel.mx A)^T = TraceModel.mx A ->
  omap (@ArgsModel.Ok R) (trace_eigenvalue (eigenvalues_sym E (TraceModel.mx A) None None) k%:R) =
  Some (TraceModel.exact_trace (TraceModel.PyInt k) A).
Proof.
move=> HA. rewrite PropTrace.C34_trace_of_power pmulrn.
by rewrite (@C40_trace_matrix _ _ None None k HA) ?orbT.
Qed.

(** Likewise traceinv, and the same value as the Cholesky method for every
    symmetric positive-definite A and every integer p. *)
Theorem C40_traceinv_matrix n (A : 'M[R]_n) given fraction (z : int) :
  A^T = A -> whole_sym A given fraction -> A \in unitmx ->
  traceinv_eigenvalue (eigenvalues_sym E A given fraction) z%:~R = Some (\tr (mxpowz A (- z))).
Proof.
move=> HA Hw Hz. have [s Hs] := spectrum_sym HA.
exact: sums_matrixinv Hs (C40_symmetric EO Hw Hs) Hz.
Qed.

Theorem C40_agrees_with_cholesky (F : CholModel.routines R_rcfType) :
  CholModel.routines_ok F -> forall b inv n (A : 'M[R]_n) (z : int), posdef A ->
  traceinv_eigenvalue (eigenvalues_sym E A None None) z%:~R =
  CholModel.traceinv_cholesky F b inv A None z.
Proof.
move=> FO b inv n A z HA. rewrite C40_traceinv_matrix ?posdef_unit ?(proj1 HA) //; last first.
  by split=> //; case: HA.
by rewrite PropChol.C37_traceinv //=; [rewrite mulmx1|exact: one_posdef].
Qed.

(** The Gramian matrix of a square or tall matrix *)
Theorem C40_gram_matrix n m (A : 'M[R]_(n, m)) given fraction (z : int) :
  whole_gram A given fraction -> (A^T *m A \in unitmx) || (0 <= z) ->
  trace_eigenvalue (eigenvalues_gram E A given fraction) z%:~R = Some (\tr (mxpowz (A^T *m A) z)).
Proof.
move=> Hw Hz. have [s Hs] : exists s, spectrum (A^T *m A) s by apply: spectrum_sym; rewrite trmx_mul trmxK.
exact: sums_matrix Hs (C40_gram_partial EO Hw Hs) Hz.
Qed.

Theorem C40_gram_matrixinv n m (A : 'M[R]_(n, m)) given fraction (z : int) :
  whole_gram A given fraction -> A^T *m A \in unitmx ->
  traceinv_eigenvalue (eigenvalues_gram E A given fraction) z%:~R = Some (\tr (mxpowz (A^T *m A) (- z))).
Proof.
move=> Hw Hz. have [s Hs] : exists s, spectrum (A^T *m A) s by apply: spectrum_sym; rewrite trmx_mul trmxK.
exact: sums_matrixinv Hs (C40_gram_partial EO Hw Hs) Hz.
Qed.

(** Wide matrices: the trace of a positive power is right, because the missing
    eigenvalues are zero. *)
Theorem C40_wide_trace n m (A : 'M[R]_(n, m)) (k : nat) : (0 < k)%N ->
  trace_eigenvalue (eigenvalues_gram E A None None) k%:R = Some (\tr (mxpow (A^T *m A) k)).
Proof.
move=> Hk. rewrite /trace_eigenvalue /= (map_comp Some).
have [H1 H2 H3] := svdvals_ok EO A.
rewrite (totalP (s := [seq x ^+ 2 | x <- svdvals E A]) (g := fun x => x ^+ k)); first last.
- move=> x _. apply: npowP. have := @is_power_exprz x k. rewrite orbT pmulrn => /(_ isT). by [].
- by rewrite not_nan_Some.
rewrite (trace_spectrumR (spectrum_powR k H3)) map_cat big_cat /= [X in _ + X]big1_seq ?addr0; last first.
  by move=> x /= /mapP [y /nseqP [-> _] ->]; rewrite expr0n eqn0Ngt Hk.
by rewrite [in RHS]big_map.
Qed.

End Matrix.

(** The assumptions about the library routines can be met. *)
Lemma split_largest (T : eqType) (a : T -> R) (s : seq T) k : (k <= size s)%N ->
  exists t r, [/\ perm_eq s (t ++ r), size t = k & forall x y, x \in t -> y \in r -> a y <= a x].
Proof.
move=> Hk. pose leT := fun x y => a y <= a x. pose l := sort leT s.
exists (take k l), (drop k l). split.
- by rewrite cat_take_drop perm_sym perm_sort.
- by rewrite size_takel // size_sort.
have Ht : transitive leT by move=> x y z /= H1 H2; exact: le_trans H2 H1.
have : sorted leT l by apply: sort_sorted => x y; rewrite /leT le_total.
rewrite -{1}(cat_take_drop k l) sorted_pairwise // pairwise_cat => /and3P [/allrelP H _ _] x y.
exact: H.
Qed.

Definition pick_seq T (P : seq T -> Prop) : seq T := epsilon (inhabits [::]) P.

Lemma pick_seqP T (P : seq T -> Prop) : (exists s, P s) -> P (pick_seq P).
Proof. exact: epsilon_spec. Qed.

Definition part n (A : 'M[R]_n) k w s : Prop := exists rest,
  [/\ spectrum A (s ++ rest), size s = k &
     w = LM -> forall x y, x \in s -> y \in rest -> `|y| <= `|x|].
Definition partC n (A : 'M[R[i]]_n) k w s : Prop := exists rest,
  [/\ spectrum A (s ++ rest), size s = k &
     w = LM -> forall x y, x \in s -> y \in rest -> `|y| <= `|x|].
Definition part_svd n m (A : 'M[R]_(n, m)) k w s : Prop := exists rest,
  [/\ spectrum (A^T *m A) ([seq x ^+ 2 | x <- s] ++ rest),
      size s = k, (forall x, x \in s -> 0 <= x) &
      w = LM -> forall x y, x \in s -> y \in rest -> y <= x ^+ 2].

Definition eig_ref : eig_routines := EigRoutines
  (fun n A => pick_seq (spectrum A))
  (fun n A => pick_seq (spectrum (map_mx (real_complex R) A)))
  (fun n m A => pick_seq (fun s => [/\ size s = minn n m, forall x, x \in s -> 0 <= x &
    spectrum (A^T *m A) ([seq x ^+ 2 | x <- s] ++ nseq (m - minn n m) 0)]))
  (fun n A k w => pick_seq (part A k w))
  (fun n A k w => pick_seq (partC (map_mx (real_complex R) A) k w))
  (fun n m A k w => pick_seq (part_svd A k w)).

Lemma eig_ref_ok : eig_routines_ok eig_ref.
Proof.
split.
- move=> n A HA. apply: pick_seqP. exact: spectrum_sym.
- move=> n A. apply: pick_seqP. exact: spectrum_exists.
- move=> n m A. exact: (pick_seqP (singular_values A)).
- move=> n A k w HA /andP [_ Hk]. apply: (pick_seqP (P := part A k w)).
  have [s Hs] := spectrum_sym HA. rewrite -(spectrum_size Hs) in Hk.
  have [t [r [H1 H2 H3]]] := split_largest (fun x : R => `|x|) (ltnW Hk).
  exists t, r. split=> //. exact: (perm_spectrum H1 Hs).
- move=> n A k w /andP [_ Hk]. apply: (pick_seqP (P := partC (map_mx (real_complex R) A) k w)).
  have [s Hs] := spectrum_exists (map_mx (real_complex R) A).
  have {}Hk : (k <= size s)%N by rewrite (spectrum_size Hs); lia.
  have [t [r [H1 H2 H3]]] := split_largest (fun x : R[i] => complex.Re `|x|) Hk.
  exists t, r. split=> //; first exact: (perm_spectrum H1 Hs).
  move=> _ x y Hx Hy. have := H3 x y Hx Hy. rewrite !normc_def /=. by rewrite lecR.
- move=> n m A k w /andP [_ Hk]. apply: (pick_seqP (P := part_svd A k w)).
  have [s [H1 H2 H3]] := singular_values A. rewrite -H1 in Hk.
  have [t [r [H4 H5 H6]]] := split_largest id (ltnW Hk).
  exists t, ([seq x ^+ 2 | x <- r] ++ nseq (m - minn n m) 0). split=> //.
  + apply: perm_spectrum H3. by rewrite catA -map_cat perm_cat2r perm_map.
  + by move=> x Hx; apply: H2; rewrite (perm_mem H4) mem_cat Hx.
  + move=> _ x y Hx. rewrite mem_cat => /orP [/mapP [z Hz ->]|/nseqP [-> _]]; last exact: sqr_ge0.
    rewrite ler_sqr ?nnegrE; first exact: H6.
    * by apply: H2; rewrite (perm_mem H4) mem_cat Hz orbT.
    * by apply: H2; rewrite (perm_mem H4) mem_cat Hx.
Qed.

Section Series.
Variable E : eig_routines.
Hypothesis EO : eig_routines_ok E.

Lemma infinite_sum_plus (f g : nat -> R) (a b : R) : infinite_sum f a -> infinite_sum g b ->
  infinite_sum (fun j => Rplus (f j) (g j)) (Rplus a b).
Proof.
move=> Hf Hg. have H := CV_plus _ _ _ _ Hf Hg. move=> eps He.
have [N HN] := H eps He. exists N => n Hn. rewrite sum_plus. exact: HN.
Qed.

Lemma exp_series (s : seq R) (f : R -> R) :
  infinite_sum (fun j => Rmult (/ INR (fact j)) (\sum_(x <- s) pow (f x) j)%R) (\sum_(x <- s) exp (f x))%R.
Proof.
elim: s => [|x s IH].
  rewrite big_nil => eps He. exists 0%N => n _. rewrite (_ : sum_f_R0 _ n = 0).
    by rewrite R_dist_eq.
  elim: n => [|n IHn] /=; rewrite ?IHn big_nil R0E Rmult_0_r ?Rplus_0_r //.
have H : infinite_sum (fun i => Rmult (/ INR (fact i)) (pow (f x) i)) (exp (f x)).
  rewrite /exp. by case: exist_exp.
have := infinite_sum_plus H IH. rewrite big_cons => H2 eps He.
have [N HN] := H2 eps He. exists N => n Hn. have := HN n Hn.
rewrite (PartSum.sum_eq _ (fun j => Rmult (/ INR (fact j)) (\sum_(x0 <- (x :: s)) pow (f x0) j)%R)) //.
by move=> i _; rewrite big_cons -Rmult_plus_distr_l.
Qed.

(** The exponential: the sum of the series c^j tr(A^(k j)) / j!. *)
Theorem C40_trexp_series n (A : 'M[R]_n) (c : R) (k : nat) : A^T = A ->
  exists r, trexp_eigenvalue (eigenvalues_sym E A None None) c k%:R = Some r /\
    infinite_sum (fun j => (pow c j / INR (fact j) * \tr (mxpow A (k * j)))%R) r.
Proof.
move=> HA. have [s Hs] := spectrum_sym HA.
have Hw : whole_sym A None None by [].
have Hp x : x \in s -> is_power x k%:R (x ^+ k)%R.
  by move=> _; have := @is_power_exprz x k; rewrite orbT pmulrn; apply.
have [_ [_ [H _]]] := C40_symmetric EO Hw Hs Hp.
rewrite (H c). eexists; split; first by [].
move=> eps He. have [N HN] := exp_series s (fun x => (c * x ^+ k)%R) He.
exists N => m Hm. have := HN m Hm.
rewrite (PartSum.sum_eq _ (fun j => (pow c j / INR (fact j) * \tr (mxpow A (k * j)))%R)) // => j _.
rewrite (trace_spectrumR (spectrum_powR (k * j) Hs)) big_map.
have Hf : INR (fact j) != 0 by apply/eqP; apply: INR_fact_neq_0.
rewrite RinvE // [pow c j * _]mulrC -mulrA. congr (_ * _). rewrite mulr_sumr. apply: eq_bigr => x _.
by rewrite -!RexpE exprMn exprM.
Qed.
End Series.

Section Failures.
Variable E : eig_routines.
Hypothesis EO : eig_routines_ok E.

Lemma is_power_nat (x : R) (k : nat) : is_power x k%:R (x ^+ k)%R.
Proof. by have := @is_power_exprz x k; rewrite orbT pmulrn; apply. Qed.

(** Wide matrices: m - n zero eigenvalues of A^T A are left out, so the trace of
    the exponential is always wrong ... *)
Theorem C40_wide_trexp_refuted n m (A : 'M[R]_(n, m)) s (c : R) (k : nat) :
  (n < m)%N -> spectrum (A^T *m A) s ->
  exists r, trexp_eigenvalue (eigenvalues_gram E A None None) c k%:R = Some r /\
    r < \sum_(x <- s) exp (c * x ^+ k).
Proof.
move=> Hnm Hs. have [H1 H2 H3] := svdvals_ok EO A.
exists (\sum_(x <- [seq x ^+ 2 | x <- svdvals E A]) exp (c * x ^+ k)). split.
  rewrite /trexp_eigenvalue /= (map_comp Some). apply: totalP; first by rewrite not_nan_Some.
  by move=> x _; rewrite /f_trexp (npowP (is_power_nat x k)).
rewrite (perm_big _ (spectrum_perm Hs H3)) big_cat /= ltr_addl.
have -> : (m - minn n m = (m - minn n m).-1.+1)%N by lia.
rewrite /= big_cons ltr_paddr //; last by apply/RltP/exp_pos.
by apply: sumr_ge0 => x _; apply/RleP/Rlt_le/exp_pos.
Qed.

(** ... and so is the number of eigenvalues in an interval that contains zero ... *)
Theorem C40_wide_eigencount_refuted n m (A : 'M[R]_(n, m)) s (lo hi : R) (k : nat) :
  (n < m)%N -> (0 < k)%N -> lo <= 0 <= hi -> spectrum (A^T *m A) s ->
  exists r, eigencount_eigenvalue (eigenvalues_gram E A None None) lo hi k%:R = Some r%:R /\
    (r < count (fun x => lo <= (x ^+ k)%R <= hi)%R s)%N.
Proof.
move=> Hnm Hk H0 Hs. have [H1 H2 H3] := svdvals_ok EO A.
exists (count (fun x => lo <= (x ^+ k)%R <= hi)%R [seq x ^+ 2 | x <- svdvals E A]). split.
  have Hc : sums_over (eigenvalues_gram E A None None) [seq x ^+ 2 | x <- svdvals E A].
    by apply: sums_over_perm => w; eexists; [by []|rewrite (map_comp Some) not_nan_Some].
  have Hp x : x \in [seq x ^+ 2 | x <- svdvals E A] -> is_power x k%:R (x ^+ k)%R.
    by move=> _; apply: is_power_nat.
  by have [_ [_ [_ [_ [H _]]]]] := Hc _ _ Hp; rewrite H.
rewrite (permP (spectrum_perm Hs H3)) count_cat -[X in (X < _)%N]addn0 ltn_add2l.
rewrite -has_count. apply/hasP. exists 0; last by rewrite expr0n eqn0Ngt Hk.
by rewrite mem_nseq eqxx andbT; lia.
Qed.

(** ... and the trace for p = 0. *)
Theorem C40_wide_zero_refuted n m (A : 'M[R]_(n, m)) : (n < m)%N ->
  trace_eigenvalue (eigenvalues_gram E A None None) 0 <> Some (\tr (mxpow (A^T *m A) 0)).
Proof.
move=> Hnm. have [H1 H2 H3] := svdvals_ok EO A. rewrite /trace_eigenvalue /= (map_comp Some).
rewrite (totalP (s := [seq x ^+ 2 | x <- svdvals E A]) (g := fun x => 1)); first last.
- by move=> x _; apply: npowP; have := is_power_nat x 0; rewrite expr0.
- by rewrite not_nan_Some.
rewrite mxtrace1 big_const_seq count_predT size_map H1 iter_addr_0 => -[] /eqP.
rewrite eqr_nat. by lia.
Qed.

(** Integer means: the results of density are truncated to integers. *)
Theorem C40_density_integer_refuted :
  exists r, density_eigenvalue (eigenvalues_sym E (0 : 'M[R]_1) None None) 1 [:: IntNum 0] 1 = Some r /\
    spectrum (0 : 'M[R]_1) [:: 0] /\ r <> [:: normal_density 0 1 0].
Proof.
have Hs : spectrum (0 : 'M[R]_1) [:: 0].
  rewrite /spectrum char_poly_trig ?mx0_is_trig // big_ord1 big_seq1 mxE. by [].
have Hq : Rlt 1 (R_sqrt.sqrt (Rmult 2 PI)).
  rewrite -{1}sqrt_1. apply: sqrt_lt_1; have := PI2_1; rewrite /PI2; lra.
have Hd : Rlt 0 (normal_density 0 1 0) /\ Rlt (normal_density 0 1 0) 1.
  rewrite /normal_density. have -> : Ropp (Rdiv (Rmult (Rminus 0 0) (Rminus 0 0)) (Rmult 2 (Rmult 1 1))) = IZR 0 by field.
  rewrite exp_0 /Rdiv Rmult_1_l Rmult_1_l. split; first by apply: Rinv_0_lt_compat; lra.
  rewrite -[X in Rlt _ X]Rinv_1. apply: Rinv_lt_contravar; lra.
exists [:: 0]. split; last first.
  split=> // -[H]. case: Hd => Hd _. move: Hd. rewrite -H. exact: Rlt_irrefl.
rewrite /density_eigenvalue ltr01 /=. have HE := eigh_ok EO (trmx0 _ 1 1).
rewrite (totalP (s := [:: 0]) (g := fun x => normal_density 0 1 x)); first last.
- move=> x _. have := is_power_nat x 1. rewrite expr1 => /npowP H. rewrite /f_density H /=.
  congr Some. apply: normal_densityE. exact: ltr01.
- by rewrite not_nan_Some; apply: spectrum_perm HE Hs.
rewrite /= big_seq1 /store /= /trunc.
have -> : 0 <= normal_density 0 1 0 by apply/RleP; toR; lra.
case: Hd => Hd1 Hd2. rewrite (@Int_part_unique _ 0) //; first exact: Rlt_le.
by rewrite Rplus_0_l.
Qed.

(** Sparse matrices: a tenth of the eigenvalues is left out; the trace of the
    2 x 2 identity matrix comes out as 1. *)
Theorem C40_sparse_refuted :
  trace_eigenvalue (eigenvalues_sym E (1%:M : 'M[R]_2) None (Some (Rdiv 9 10))) 1 = Some 1 /\
  \tr (1%:M : 'M[R]_2) = 2%:R.
Proof.
split; last by rewrite mxtrace1.
rewrite /trace_eigenvalue /= /num_none_zero_eig (@Int_part_unique _ 1) /=; first last.
- lra.
- lra.
have [rest [Hs Hk _]] := @eigsh_ok _ EO 2 1%:M 1 (which_trace 1) (trmx1 _ 2) isT.
have Hs1 : spectrum (1%:M : 'M[R]_2) [:: 1; 1].
  rewrite /spectrum char_poly_trig ?scalar_mx_is_trig // !big_ord_recl big_ord0 !big_cons big_nil !mxE.
  by [].
have : size (eigsh E (1%:M : 'M[R]_2) 1 (which_trace 1)) = 1%N by [].
case Ee : (eigsh E _ 1 (which_trace 1)) Hs => [|x [|]] //= Hs _.
have Hx : x = 1.
  have : x \in [:: 1; 1 : R] by rewrite (perm_mem (spectrum_perm Hs1 Hs)) mem_head.
  by rewrite !inE orbb => /eqP.
have [_ _] := (I, I). rewrite Hx /total /not_nan /=. have := is_power_nat 1 1.
by rewrite expr1 => /npowP; rewrite /f_trace => -> /=; rewrite addr0.
Qed.

(** But if no more than the computed number of eigenvalues are non-zero (the
    meaning of non_zero_eig_fraction), the trace of a positive power is right. *)
Theorem C40_sparse_trace n (A : 'M[R]_n) s (fraction : R) (k : nat) :
  A^T = A -> spectrum A s -> (0 < k)%N -> (0 < num_none_zero_eig n fraction < n)%N ->
  (count (fun x : R => x != 0%R) s <= num_none_zero_eig n fraction)%N ->
  trace_eigenvalue (eigenvalues_sym E A None (Some fraction)) k%:R = Some (\tr (mxpow A k)).
Proof.
move=> HA Hs Hk Hn Hc. rewrite /trace_eigenvalue /= Hn.
have -> : which_trace k%:R = LM by rewrite /which_trace ler0n.
have [rest [Hr Hsz Hm]] := eigsh_ok EO LM HA Hn.
set t := eigsh E A _ LM in Hr Hsz Hm *. rewrite /=.
have Hz x : x \in rest -> x = 0.
  move=> Hx. apply/eqP/negP => /negP Hx0.
  have Ht y : y \in t -> y != 0.
    move=> Hy. rewrite -normr_gt0. apply: lt_le_trans (Hm erefl _ _ Hy Hx). by rewrite normr_gt0.
  move: Hc. rewrite (permP (spectrum_perm Hs Hr)) count_cat.
  have -> : count (fun x : R => x != 0%R) t = size t by apply/eqP; rewrite -all_count; apply/allP.
  rewrite -Hsz. have : (0 < count (fun x : R => x != 0%R) rest)%N.
    by rewrite -has_count; apply/hasP; exists x.
  by move=> H; rewrite leqNgt -[X in (X < _)%N]addn0 ltn_add2l H.
rewrite (totalP (s := t) (g := fun x => x ^+ k)); first last.
- by move=> x _; apply: npowP; apply: is_power_nat.
- by rewrite not_nan_pad.
rewrite (trace_spectrumR (spectrum_powR k Hr)) map_cat big_cat /= [X in _ + X]big1_seq ?addr0 ?big_map //.
by move=> x /= /mapP [y /Hz -> ->]; rewrite expr0n eqn0Ngt Hk.
Qed.
End Failures.

(** A case: [[2,1],[1,2]] has the eigenvalues 1 and 3. *)
Definition two_one : 'M[R]_2 := 1%:M + const_mx 1.

Lemma two_one_spectrum : spectrum two_one [:: 1; 3%:R].
Proof.
rewrite /spectrum /char_poly (expand_det_row _ ord0) !big_ord_recl big_ord0.
rewrite /cofactor !det_mx11 !mxE /= !big_cons big_nil /=.
rewrite !expr0 ?expr1 !mul1r addr0 mulr1 ?mulr1n ?mulr0n ?add0r ?sub0r ?mulN1r ?opprK.
rewrite -[1 + 1]/(2%:R). set y : {poly R} := 'X - _.
have -> : 'X - (1 : R)%:P = y + 1.
  by rewrite /y (_ : 2%:R = 1 + 1 :> R) // polyCD opprD addrA subrK.
have -> : 'X - (3%:R : R)%:P = y - 1.
  by rewrite /y (_ : 3%:R = 2%:R + 1 :> R) ?polyCD ?opprD ?addrA // -(natrD _ 2 1).
by rewrite mulrC -subr_sqr expr1n expr2 polyC1.
Qed.

Example C40_case E : eig_routines_ok E ->
  sums_over (eigenvalues_sym E two_one None None) [:: 1; 3%:R].
Proof.
move=> EO. apply: C40_symmetric two_one_spectrum => //.
by split=> //; rewrite /two_one linearD /= trmx1 trmx_const.
Qed.

(** The trace of the square root of the Gramian of the column (1, 1) is sqrt 2. *)
Example C40_gram_case E : eig_routines_ok E ->
  trace_eigenvalue (eigenvalues_gram E (const_mx 1 : 'M[R]_(2, 1)) None None) (Rdiv 1 2) =
  Some (R_sqrt.sqrt 2).
Proof.
move=> EO. have Hs : spectrum ((const_mx 1 : 'M[R]_(2, 1))^T *m const_mx 1) [:: 2%:R].
  have -> : (const_mx 1 : 'M[R]_(2, 1))^T *m const_mx 1 = 2%:R%:M.
    apply/matrixP => i j; rewrite !mxE (ord1 i) (ord1 j) !big_ord_recl big_ord0 !mxE.
    by rewrite mulr1 addr0.
  by rewrite /spectrum char_poly_trig ?scalar_mx_is_trig // big_ord1 big_seq1 mxE.
have H : whole_gram (const_mx 1 : 'M[R]_(2, 1)) None None by [].
have [|-> _] := @C40_gram_partial E EO _ _ _ _ _ _ H Hs (Rdiv 1 2) (fun x => R_sqrt.sqrt x).
  move=> x; rewrite inE => /eqP ->. rewrite R2E /is_power.
  left; split; first lra. rewrite -Rpower_sqrt; last lra.
  congr Rpower. lra.
by rewrite big_seq1 R2E.
Qed.

(** One call for all of them: each call walks through the whole library. *)
Definition C40_sums_assumptions :=
  (@C40_symmetric,
   @C40_gram_partial,
   @C40_trace_matrix,
   @C40_agrees_with_exact,
   @C40_traceinv_matrix,
   @C40_agrees_with_cholesky,
   @C40_gram_matrix,
   @C40_gram_matrixinv,
   @C40_wide_trace,
   @C40_trexp_series,
   @C40_wide_trexp_refuted,
   @C40_wide_eigencount_refuted,
   @C40_wide_zero_refuted,
   @C40_density_integer_refuted,
   @C40_sparse_refuted,
   @C40_sparse_trace,
   @eig_ref_ok).
Print Assumptions C40_sums_assumptions.
