(** The closed forms for the Toeplitz matrices: C42. *)
Require Import Reals.
From mathcomp Require Import all_ssreflect all_algebra.
From mathcomp Require Import zify.
From mathcomp.real_closed Require Import complex.
From Verif Require Import MatSpec RealField ArgsModel TraceModel ToeplitzModel.
From Verif Require Import EigenMath EigenModel PropEigen PropEigenGen SchattenSpec SchattenModel PropSchatten.
From Verif Require PropTrace CholMath CholModel.
Set Implicit Arguments.
Unset Strict Implicit.
Unset Printing Implicit Defensive.
Import GRing.Theory Num.Theory Order.TTheory.
Local Open Scope ring_scope.

Arguments mxpow : simpl never.
Local Notation toC := (real_complex R).

(** The matrix in the documentation: a on the diagonal, b above it *)
Definition bidiagonal (F : ringType) n (a b : F) : 'M[F]_n :=
  \matrix_(i, j) (if j == i :> nat then a else if j == i.+1 :> nat then b else 0).

Section Field.
Variable F : numFieldType.
Variables a b : F.

Theorem C42_matrix n : mx (toeplitz a b n false) = bidiagonal n a b.
Proof.
apply/matrixP => i j. rewrite !mxE big_cat /= big_map.
have D : \sum_(k <- enum 'I_n | (k, k) == (i, j)) a = (if j == i :> nat then a else 0).
  rewrite big_enum_cond /=. case: eqP => [Eij|Nij].
    rewrite (big_pred1 i) // => k. rewrite /= xpair_eqE -(val_inj Eij) andbb. by [].
  rewrite big_pred0 // => k. rewrite xpair_eqE. apply/negbTE/andP => [[/eqP -> /eqP E]].
  by apply: Nij; rewrite E.
rewrite D {D}.
have U : \sum_(t <- pmap (fun k : 'I_n => omap (fun l : 'I_n => (k, l, b)) (insub k.+1)) (enum 'I_n) | t.1 == (i, j)) t.2
   = (if j == i.+1 :> nat then b else 0).
  rewrite big_mkcond /= big_pmap big_enum /= (bigD1 i) //= big1 ?addr0; last first.
    move=> k Hk. case: insubP => //= l _ Hl. by rewrite xpair_eqE (negbTE Hk).
  case: insubP => [l Hl Vl|Hl] /=.
    by rewrite xpair_eqE eqxx /= -(inj_eq val_inj) /= Vl [j == i.+1 :> nat]eq_sym.
  by case: eqP => // E; move: Hl; rewrite -E ltn_ord.
rewrite U. by case: eqP => [->|_]; rewrite ?add0r //; case: eqP => [|_]; rewrite ?addr0 //; lia.
Qed.

Theorem C42_gram_matrix n : mx (toeplitz a b n true) = (bidiagonal n a b)^T *m bidiagonal n a b.
Proof. by rewrite /toeplitz /gramian PropTrace.mx_like C42_matrix. Qed.

Lemma row_sum n (i : 'I_n) (f : 'I_n -> F) (h : F -> F) : h 0 = 0 ->
  \sum_j h (bidiagonal n a b i j) * f j = h a * f i + oapp (fun l => h b * f l) 0 (insub i.+1).
Proof.
move=> h0. rewrite (bigD1 i) //= mxE eqxx. congr (_ + _).
case: insubP => [l Hl Vl|Hl] /=.
  rewrite (bigD1 l) /=; last by rewrite -(inj_eq val_inj) /= Vl; lia.
  rewrite big1 ?addr0; first by rewrite mxE Vl eqxx; case: eqP => //; lia.
  move=> k /andP [K1 K2]. rewrite mxE. move: K1 K2; rewrite -!(inj_eq val_inj) /= Vl.
  by move=> /negbTE -> /negbTE ->; rewrite h0 mul0r.
apply: big1 => k K. rewrite mxE. move: K; rewrite -!(inj_eq val_inj) /= => /negbTE ->.
by case: eqP => [E|_]; rewrite ?h0 ?mul0r //; have := ltn_ord k; lia.
Qed.

Lemma gram_trace m n (M : 'M[F]_(m, n)) : \tr (M^T *m M) = \sum_i \sum_j M i j ^+ 2.
Proof.
rewrite exchange_big /=. apply: eq_bigr => j _. rewrite mxE. by apply: eq_bigr => i _; rewrite mxE expr2.
Qed.

Lemma bidiagonal_trace n : \tr (bidiagonal n a b) = n%:R * a.
Proof.
rewrite /mxtrace (eq_bigr (fun=> a)); last by move=> i _; rewrite mxE eqxx.
by rewrite big_const_ord -Monoid.iteropE /= mulr_natl; elim: n => //= n ->; rewrite mulrS.
Qed.

Lemma bidiagonal_gram_trace n : \tr ((bidiagonal n.+1 a b)^T *m bidiagonal n.+1 a b) =
  a ^+ 2 + n%:R * (a ^+ 2 + b ^+ 2).
Proof.
rewrite gram_trace (eq_bigr (fun i : 'I_n.+1 => a ^+ 2 + (if (i < n)%N then b ^+ 2 else 0))); last first.
  move=> i _. rewrite -[LHS](eq_bigr _ (fun j _ => mulr1 _)) (row_sum i (fun=> 1) (h := fun x => x ^+ 2)) ?expr0n //.
  rewrite mulr1. by case: insubP => [l|]; rewrite /= ltnS => Hl; [rewrite Hl mulr1|rewrite (negbTE Hl)].
rewrite big_ord_recr /= ltnn addr0 addrC; congr (_ + _).
rewrite (eq_bigr (fun=> a ^+ 2 + b ^+ 2)); last by move=> i _; rewrite ltn_ord.
by rewrite sumr_const card_ord mulr_natl.
Qed.

(** The trace formula, plain and Gramian, for every size *)
Theorem C42_trace n gram : (0 < n)%N -> toeplitz_trace a b n gram = \tr (mx (toeplitz a b n gram)).
Proof.
case: n => // n _. case: gram; last by rewrite C42_matrix bidiagonal_trace.
by rewrite C42_gram_matrix bidiagonal_gram_trace /toeplitz_trace -[n.+1]addn1 natrD addrK.
Qed.

(** It is also what the exact trace method returns *)
Theorem C42_trace_method n gram : (0 < n)%N ->
  exact_trace (PyInt 1) (toeplitz a b n gram) = Ok (toeplitz_trace a b n gram).
Proof. by move=> Hn; rewrite (PropTrace.C34_trace_of_power _ 1) PropTrace.mxpow1 C42_trace. Qed.

(** The inverse *)
Definition bidiagonal_inv n : 'M[F]_n :=
  \matrix_(i, j) (if (i <= j)%N then (- (b / a)) ^+ (j - i) / a else 0).

Lemma bidiagonal_mul n : a != 0 -> bidiagonal n a b *m bidiagonal_inv n = 1%:M.
Proof.
move=> Ha. apply/matrixP => i j. rewrite !mxE (row_sum i (fun k => bidiagonal_inv n k j) (h := id)) //.
rewrite mxE -(inj_eq val_inj) /=.
have N : oapp (fun l => b * bidiagonal_inv n l j) 0 (insub i.+1) =
         (if (i < j)%N then b * ((- (b / a)) ^+ (j - i.+1) / a) else 0).
  case: insubP => [l Hl Vl|Hl] /=; first by rewrite mxE Vl; case: ltnP => // _; rewrite mulr0.
  by case: ltnP => // H; have := ltn_ord j; lia.
rewrite N {N}. case: (ltngtP i j) => [H|H|->].
- rewrite -(@subnSK i j H) exprS. rewrite !mulrA mulrN [a * _]mulrC divfK // !mulNr. by rewrite addNr.
- by rewrite mulr0 addr0.
- by rewrite subnn expr0 addr0 mul1r divff.
Qed.

Lemma bidiagonal_unit n : a != 0 -> bidiagonal n a b \in unitmx.
Proof. by move=> Ha; case: (mulmx1_unit (bidiagonal_mul n Ha)). Qed.

Lemma invmx_bidiagonal n : a != 0 -> invmx (bidiagonal n a b) = bidiagonal_inv n.
Proof. by move=> Ha; apply: CholMath.mulmx1_invmx; apply: bidiagonal_mul. Qed.

Lemma bidiagonal_inv_trace n : \tr (bidiagonal_inv n) = n%:R / a.
Proof.
rewrite /mxtrace (eq_bigr (fun=> 1 / a)); last by move=> i _; rewrite mxE leqnn subnn expr0.
by rewrite sumr_const card_ord mul1r mulr_natl.
Qed.

(** The trace of the inverse of the Gramian, as a sum *)
Lemma invmx_gram_trace n : a != 0 ->
  \tr (invmx ((bidiagonal n a b)^T *m bidiagonal n a b)) =
  (\sum_(i < n) \sum_(k < n - i) ((b / a) ^+ 2) ^+ k) / a ^+ 2.
Proof.
move=> Ha. have HU := bidiagonal_unit n Ha.
rewrite CholMath.invmx_mul ?unitmx_tr // -trmx_inv invmx_bidiagonal //.
rewrite -[X in X *m _]trmxK gram_trace exchange_big mulr_suml /=.
apply: eq_bigr => i _. rewrite mulr_suml.
rewrite (eq_bigr (fun j : 'I_n => if (i <= j)%N then ((b / a) ^+ 2) ^+ (j - i) / a ^+ 2 else 0)); last first.
  move=> j _. rewrite mxE mxE. case: leqP => _; last by rewrite expr0n.
  rewrite [LHS]exprMn exprVn [_ ^+ _ ^+ 2]exprAC. by rewrite sqrrN.
rewrite -(big_mkord xpredT (fun j => if (i <= j)%N then ((b / a) ^+ 2) ^+ (j - i) / a ^+ 2 else 0)).
rewrite (@big_cat_nat _ _ _ i) ?leq0n ?(ltnW (ltn_ord i)) //= big_nat_cond big1 ?add0r; last first.
  by move=> j; rewrite andbT => /andP [_]; case: leqP.
rewrite -{1}[nat_of_ord i]add0n big_addn big_mkord. apply: eq_bigr => k _. by rewrite leq_addl addnK.
Qed.

Lemma geometric (Q : F) n : \sum_(i < n) \sum_(k < n - i) Q ^+ k * (1 - Q) = n%:R - Q * \sum_(k < n) Q ^+ k.
Proof.
elim: n => [|n IH]; first by rewrite !big_ord0 mulr0 subr0.
rewrite big_ord_recl subn0 (eq_bigr (fun i : 'I_n => \sum_(k < n - i) Q ^+ k * (1 - Q))); last first.
  by move=> i _; rewrite /= /bump leq0n add1n subSS.
rewrite IH -mulr_suml -[1 - Q]opprB mulrN mulrC -subrX1 opprB big_ord_recr /= mulrDr -exprS.
by rewrite -[n.+1%:R]/(1 *+ n.+1) mulrS addrACA opprD [X in _ + X]addrC.
Qed.

Lemma linear n : (\sum_(i < n) \sum_(k < n - i) (1 : F)) * 2%:R = n%:R * (n%:R + 1).
Proof.
elim: n => [|n IH]; first by rewrite big_ord0 !mul0r.
rewrite big_ord_recl subn0 (eq_bigr (fun i : 'I_n => \sum_(k < n - i) (1 : F))); last first.
  by move=> i _; rewrite /= /bump leq0n add1n subSS.
rewrite mulrDl IH sumr_const card_ord.
have N1 k : k%:R + 1 = k.+1%:R :> F by rewrite -addn1 natrD.
by rewrite !N1 -!natrM -natrD; congr _%:R; lia.
Qed.

(** The trace of the inverse, plain *)
Theorem C42_traceinv n : a != 0 ->
  mx (toeplitz a b n false) \in unitmx /\
  toeplitz_traceinv a b n false = Some (\tr (invmx (mx (toeplitz a b n false)))).
Proof.
move=> Ha. rewrite C42_matrix bidiagonal_unit //. split=> //.
by rewrite invmx_bidiagonal // bidiagonal_inv_trace /toeplitz_traceinv /quotient (negbTE Ha).
Qed.

Lemma one_sub_ratio : a != 0 -> (1 - (b / a) ^+ 2) * a ^+ 2 = a ^+ 2 - b ^+ 2.
Proof. by move=> Ha; rewrite mulrBl mul1r -exprMn divfK. Qed.

(** The trace of the inverse of the Gramian in closed form *)
Lemma gram_closed n : a != 0 -> a ^+ 2 != b ^+ 2 ->
  \tr (invmx ((bidiagonal n a b)^T *m bidiagonal n a b)) =
  (n%:R - (b / a) ^+ 2 * \sum_(k < n) ((b / a) ^+ 2) ^+ k) / (a ^+ 2 - b ^+ 2).
Proof.
move=> Ha Hab. have H := one_sub_ratio Ha. rewrite invmx_gram_trace // -geometric.
have H1 : 1 - (b / a) ^+ 2 != 0.
  by apply: contra_neq Hab => E0; apply/eqP; rewrite -subr_eq0 -H E0 mul0r.
set Q := (b / a) ^+ 2.
have -> : \sum_(i < n) \sum_(k < n - i) Q ^+ k * (1 - Q) = (\sum_(i < n) \sum_(k < n - i) Q ^+ k) * (1 - Q).
  by rewrite mulr_suml; apply: eq_bigr => i _; rewrite mulr_suml.
rewrite -/Q in H1 H. by rewrite -H [((1 - Q) * _)^-1]invfM mulrA mulfK.
Qed.

(** The trace of the inverse of the Gramian, for sizes under 200 and a <> -b *)
Theorem C42_traceinv_gram_partial n : a != 0 -> a != - b -> (n < 200)%N ->
  mx (toeplitz a b n true) \in unitmx /\
  toeplitz_traceinv a b n true = Some (\tr (invmx (mx (toeplitz a b n true)))).
Proof.
move=> Ha Hab Hn. have HU := bidiagonal_unit n Ha.
rewrite C42_gram_matrix unitmx_mul unitmx_tr HU. split=> //.
rewrite /toeplitz_traceinv. case: eqP => [Eab|/eqP Nab].
  rewrite invmx_gram_trace // -Eab divff // expr1n.
  rewrite (eq_bigr (fun i : 'I_n => \sum_(k < n - i) (1 : F))); last first.
    by move=> i _; apply: eq_bigr => k _; rewrite expr1n.
  have D : 2%:R * a ^+ 2 != 0 by rewrite mulf_neq0 ?expf_neq0 ?pnatr_eq0.
  rewrite /quotient (negbTE D) -linear invfM mulrA mulfK ?pnatr_eq0 //.
have S : a ^+ 2 - b ^+ 2 != 0 by rewrite subr_sqr mulf_neq0 // ?subr_eq0 // addr_eq0.
have S' : a ^+ 2 != b ^+ 2 by rewrite -subr_eq0.
have H1 : (b / a) ^+ 2 - 1 != 0.
  by rewrite -oppr_eq0 opprB; apply: contra_neq S => E0; rewrite -one_sub_ratio // E0 mul0r.
rewrite gram_closed // /quotient (negbTE Ha) /= (negbTE S) /= Hn (negbTE H1) /=.
congr Some. rewrite mul1r mulrC. congr ((_ - _ * _) / _).
by rewrite exprM subrX1 mulrC mulKf.
Qed.

(** From size 200 on, the difference to the trace of the inverse *)
Theorem C42_large n : a != 0 -> a ^+ 2 != b ^+ 2 -> (200 <= n)%N ->
  toeplitz_traceinv a b n true =
  Some (\tr (invmx (mx (toeplitz a b n true))) - ((b / a) ^+ n.+1 / (a * (1 - (b / a) ^+ 2))) ^+ 2).
Proof.
move=> Ha S Hn. rewrite C42_gram_matrix gram_closed // /toeplitz_traceinv.
have Nab : a == b = false by apply: contra_neqF S => /eqP ->.
have S' : a ^+ 2 - b ^+ 2 != 0 by rewrite subr_eq0.
have H1 : 1 - (b / a) ^+ 2 != 0 by apply: contra_neq S' => E0; rewrite -one_sub_ratio // E0 mul0r.
rewrite Nab /quotient (negbTE Ha) /= (negbTE S') /= ltnNge Hn /= (negbTE H1) /=.
congr Some. rewrite mul1r mulrC. set Q := (b / a) ^+ 2. rewrite -/Q in H1.
have -> : ((b / a) ^+ n.+1 / (a * (1 - Q))) ^+ 2 = Q ^+ n.+1 / (1 - Q) / (a ^+ 2 - b ^+ 2).
  rewrite -one_sub_ratio // -/Q [LHS]exprMn exprVn exprAC -/Q -[RHS]mulrA; congr (_ * _).
  by rewrite -invfM; congr (_^-1); rewrite [LHS]exprMn [LHS]mulrC [(1 - Q) ^+ 2]expr2 -mulrA.
have -> : \sum_(k < n) Q ^+ k = (1 - Q ^+ n) / (1 - Q).
  by apply: (mulIf H1); rewrite divfK // -[1 - Q ^+ n]opprB subrX1 -mulNr opprB mulrC.
rewrite -mulrBl. congr (_ / _). rewrite -addrA -opprD; congr (_ - _).
by rewrite mulrA -mulrDl mulrBr mulr1 -exprS subrK.
Qed.
End Field.

Section Refuted.
Variable F : realFieldType.
Variables a b : F.

(** C42 fails from size 200 on for every b <> 0, when a^2 <> b^2 *)
Theorem C42_large_refuted n : a != 0 -> b != 0 -> a ^+ 2 != b ^+ 2 -> (200 <= n)%N ->
  exists2 r, toeplitz_traceinv a b n true = Some r & r < \tr (invmx (mx (toeplitz a b n true))).
Proof.
move=> Ha Hb Hab Hn. rewrite (C42_large Ha Hab Hn). eexists; first by [].
rewrite ltr_subl_addl ltr_addr exprn_even_gt0 //=.
have H1 : 1 - (b / a) ^+ 2 != 0.
  by apply: contra_neq Hab => E0; apply/eqP; rewrite -subr_eq0 -one_sub_ratio // E0 mul0r.
by rewrite !mulf_neq0 ?invr_eq0 ?mulf_neq0 ?expf_neq0 // mulf_neq0 ?invr_eq0.
Qed.

(** The result can even have the wrong sign: when b^2 exceeds a^2, or is close
    to it *)
Theorem C42_large_sign_refuted n : a != 0 -> a ^+ 2 != b ^+ 2 -> (200 <= n)%N ->
  n%:R * (a ^+ 2 - b ^+ 2) < b ^+ 2 ->
  exists2 r, toeplitz_traceinv a b n true = Some r &
    r < 0 /\ 0 < \tr (invmx (mx (toeplitz a b n true))).
Proof.
move=> Ha Hab Hn Hlt.
have S' : a ^+ 2 - b ^+ 2 != 0 by rewrite subr_eq0.
have A2 : 0 < a ^+ 2 by rewrite exprn_even_gt0.
have H1 : 1 - (b / a) ^+ 2 != 0 by apply: contra_neq S' => E0; rewrite -one_sub_ratio // E0 mul0r.
have Nab : a == b = false by apply: contra_neqF Hab => /eqP ->.
rewrite C42_gram_matrix invmx_gram_trace //.
rewrite /toeplitz_traceinv Nab /quotient (negbTE Ha) /= (negbTE S') /= ltnNge Hn /= (negbTE H1) /=.
eexists; first by []. split.
  have -> : (b / a) ^+ 2 / (1 - (b / a) ^+ 2) = b ^+ 2 / (a ^+ 2 - b ^+ 2).
    apply/eqP. rewrite eqr_div // -one_sub_ratio // mulrCA -exprMn divfK //. by rewrite mulrC.
  have -> : 1 / (a ^+ 2 - b ^+ 2) * (n%:R - b ^+ 2 / (a ^+ 2 - b ^+ 2)) =
            (n%:R * (a ^+ 2 - b ^+ 2) - b ^+ 2) / (a ^+ 2 - b ^+ 2) ^+ 2.
    set D := a ^+ 2 - b ^+ 2. have HD : D != 0 by [].
    by rewrite [D ^+ 2]expr2 invfM mulrA [(_ - _) / D]mulrBl mulfK // mul1r mulrC.
  by rewrite pmulr_llt0 ?invr_gt0 ?exprn_even_gt0 // subr_lt0.
rewrite divr_gt0 //. case: n Hn {Hlt} => // n _.
have P m : 0 <= \sum_(k < m) ((b / a) ^+ 2) ^+ k.
  by apply: sumr_ge0 => k _; apply: exprn_ge0; apply: sqr_ge0.
rewrite big_ord_recl /= subn0 ltr_paddr //; first by apply: sumr_ge0 => k _; apply: P.
rewrite big_ord_recl expr0 ltr_paddr ?ltr01 //.
by apply: sumr_ge0 => k _; apply: exprn_ge0; apply: sqr_ge0.
Qed.

(** For b = -a the function divides by zero, although the matrix is invertible *)
Theorem C42_opposite_refuted n : a != 0 ->
  mx (toeplitz a (- a) n true) \in unitmx /\
  \tr (invmx (mx (toeplitz a (- a) n true))) = n%:R * (n%:R + 1) / (2%:R * a ^+ 2) /\
  toeplitz_traceinv a (- a) n true = None.
Proof.
move=> Ha. have HU := bidiagonal_unit (- a) n Ha. rewrite C42_gram_matrix unitmx_mul unitmx_tr HU.
have Na : a == - a = false.
  by rewrite -subr_eq0 opprK -mulr2n mulrn_eq0 (negbTE Ha).
split=> //. split; last by rewrite /toeplitz_traceinv Na /quotient (negbTE Ha) /= sqrrN subrr eqxx.
rewrite invmx_gram_trace // mulNr divff // sqrrN expr1n.
rewrite (eq_bigr (fun i : 'I_n => \sum_(k < n - i) (1 : F))); last first.
  by move=> i _; apply: eq_bigr => k _; rewrite expr1n.
by rewrite -linear [(2%:R * _)^-1]invfM mulrA mulfK ?pnatr_eq0.
Qed.
End Refuted.

(** Log-determinant and Schatten norm, over the real numbers *)
Lemma bidiagonal_det (F : numFieldType) n (a b : F) : \det (bidiagonal n a b) = a ^+ n.
Proof.
rewrite -det_tr det_trig; last first.
  by apply/is_trig_mxP => i j Hij; rewrite !mxE; case: eqP => [|_]; [lia|case: eqP => [|//]; lia].
rewrite (eq_bigr (fun=> a)); last by move=> i _; rewrite !mxE eqxx.
by rewrite prodr_const card_ord.
Qed.

Lemma bidiagonal_spectrum (F : numFieldType) n (a b : F) : spectrum (bidiagonal n a b) (nseq n a).
Proof.
rewrite /spectrum /char_poly -det_tr.
have -> : (char_poly_mx (bidiagonal n a b))^T = char_poly_mx (bidiagonal n a b)^T.
  by apply/matrixP => i j; rewrite !mxE eq_sym.
rewrite -/(char_poly _) char_poly_trig; last first.
  by apply/is_trig_mxP => i j Hij; rewrite !mxE; case: eqP => [|_]; [lia|case: eqP => [|//]; lia].
rewrite (eq_bigr (fun=> 'X - a%:P)); last by move=> i _; rewrite !mxE eqxx.
by rewrite prodr_const card_ord big_nseq; elim: n => //= n; rewrite exprS => ->.
Qed.

Lemma ln_expn (a : R) n : 0 < a -> ln (a ^+ n)%R = n%:R * ln a.
Proof.
move=> Ha. elim: n => [|n IH]; first by rewrite expr0 mul0r ln_1.
have /RltP H1 := Ha. have /RltP H2 := exprn_gt0 n Ha.
by rewrite exprS [in LHS]RmultE ln_mult // IH -[n.+1%:R]/(1 *+ n.+1) mulrS mulrDl mul1r.
Qed.

Theorem C42_logdet_partial (a b : R) n gram : 0 < a ->
  0 < \det (mx (toeplitz a b n gram)) /\
  toeplitz_logdet a b n gram = Some (ln (\det (mx (toeplitz a b n gram)))).
Proof.
move=> Ha. rewrite /toeplitz_logdet Ha. case: gram.
  rewrite C42_gram_matrix det_mulmx det_tr bidiagonal_det -exprD. split; first by rewrite exprn_gt0.
  by rewrite ln_expn // addnn -mul2n natrM mulrA.
by rewrite C42_matrix bidiagonal_det ln_expn // exprn_gt0.
Qed.

(** For negative a the result is not a number, although the Gramian has a
    positive determinant *)
Theorem C42_logdet_negative_refuted (a b : R) n : a < 0 ->
  0 < \det (mx (toeplitz a b n true)) /\ toeplitz_logdet a b n true = None.
Proof.
move=> Ha. rewrite C42_gram_matrix det_mulmx det_tr bidiagonal_det -expr2.
split; first by rewrite exprn_even_gt0 //= expf_neq0 // lt_eqF.
by rewrite /toeplitz_logdet ltNge (ltW Ha).
Qed.

Section Schatten.
Variable E : eig_routines.
Hypothesis EO : eig_routines_ok E.
Variable F : CholModel.routines R_rcfType.
Variables (b' : CholModel.backend) (inv : bool).

(** The Schatten norm: for a > 0 the value a is what schatten returns with the
    eigenvalue method for every p, and with the exact method for p = 1, 2, ... *)
Theorem C42_schatten (a b : R) n m p v : 0 < a -> (0 < n)%N -> value p = Some v ->
  m = Eigenvalue \/ m = Exact /\ (exists k : nat, p = PyInt k.+1) ->
  schatten E F false b' inv m (mx (toeplitz a b n false)) p = Some (toC (toeplitz_schatten a n v)).
Proof.
move=> Ha Hn Hv Hm. rewrite C42_matrix.
have Hs := bidiagonal_spectrum n a b.
have Hpos x : x \in nseq n a -> 0 < x by move/nseqP => [-> _].
rewrite -[toeplitz_schatten _ _ _](power_mean_const v Ha Hn).
have HU : bidiagonal n a b \in unitmx by apply: bidiagonal_unit; rewrite gt_eqF.
have HD : 0 < \det (bidiagonal n a b) by rewrite bidiagonal_det exprn_gt0.
apply: schatten_ofP => //; first by rewrite size_nseq.
- move=> E0. rewrite -(det_spectrum Hs) /logdet. case: Hm => [->|[_ [k Ek]]].
    by rewrite C40_logdet // ltNge (ltW HD) /= mul1r gtr0_norm.
  by move: Hv; rewrite Ek /= E0 => [[]] /eqP; rewrite intr_eq0.
- case: Hm => [->|[-> [k Ek]]] Hv0.
    rewrite /trace Hv /=. apply: (genr_sum EO) Hs _ => x /Hpos Hx. exact: cpowr_pos.
  rewrite /trace Ek PropTrace.C34_trace_of_power /= (trace_spectrumR (spectrum_powR k.+1 Hs)) big_map.
  congr Some. apply: eq_big_seq => x /Hpos Hx. move: Hv; rewrite Ek /= => [[<-]].
  by rewrite Rpower_exprz.
- case: Hm => [->|[_ [k Ek]]] Hv0.
    rewrite /traceinv (value_pyabs Hv) /=.
    apply: (genr_sum EO) Hs _ => x /Hpos Hx. rewrite cpowr_pos // /= cdiv_real ?gt_eqF ?Rpower_gt0 //.
    by rewrite Rpower_abs_neg.
  by move: Hv Hv0; rewrite Ek /= => [[<-]]; rewrite ltrz0.
Qed.
End Schatten.

(** A case: toeplitz_traceinv(2, 4, size=2, gram=True); the inverse is
    [[1/2, -1], [0, 1/2]] *)
Example C42_case : toeplitz_traceinv (2%:R : rat) 4%:R 2 true = Some (3%:R / 2%:R).
Proof. apply/eqP. by vm_compute. Qed.

(** The documented toeplitz_trace(2, 3, size=6, gram=True) *)
Example C42_trace_case : toeplitz_trace (2%:R : rat) 3%:R 6 true = 69%:R.
Proof. apply/eqP. by vm_compute. Qed.

(** With size 200 the result for the documented a = 2, b = 3 is negative *)
Example C42_large_case : exists2 r, toeplitz_traceinv (2%:R : rat) 3%:R 200 true = Some r &
  r < 0 /\ 0 < \tr (invmx (mx (toeplitz (2%:R : rat) 3%:R 200 true))).
Proof.
by apply: C42_large_sign_refuted.
Qed.

Definition C42_assumptions := (@C42_matrix, @C42_gram_matrix, @C42_trace, @C42_trace_method, @C42_traceinv,
  @C42_traceinv_gram_partial, @C42_large, @C42_large_refuted, @C42_large_sign_refuted, @C42_opposite_refuted,
  @C42_logdet_partial, @C42_logdet_negative_refuted, @C42_schatten).
Print Assumptions C42_assumptions.
