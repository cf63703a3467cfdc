(** Facts about the eigenvalues of a matrix: the trace of a power of a matrix
    is the sum of the powers of its eigenvalues.  Nothing here models code. *)
From mathcomp Require Import all_ssreflect all_algebra.
From mathcomp.real_closed Require Import complex.
From mathcomp Require Import zify.
From Verif Require Import MatSpec CholMath LanczosSpec LanczosMath SlqSpec Spectral.
Set Implicit Arguments.
Unset Strict Implicit.
Unset Printing Implicit Defensive.
Import GRing.Theory Num.Theory Order.TTheory.
Local Open Scope ring_scope.

Section Spectra.
Variable F : fieldType.

Lemma prod_XsubC_perm (s t : seq F) :
  \prod_(x <- s) ('X - x%:P) = \prod_(x <- t) ('X - x%:P) -> perm_eq s t.
Proof.
elim: s t => [|x s IH] t H.
  have := congr1 (fun p : {poly F} => size p) H.
  by rewrite !size_prod_XsubC; case: t {H}.
have Hx : x \in t by rewrite -root_prod_XsubC -H big_cons rootM root_XsubC eqxx.
rewrite perm_sym (perm_trans (perm_to_rem Hx)) // perm_cons perm_sym. apply: IH.
move: H. rewrite big_cons (perm_big _ (perm_to_rem Hx)) big_cons.
by apply: mulfI; rewrite polyXsubC_eq0.
Qed.

Lemma spectrum_perm n (A : 'M[F]_n) s t : spectrum A s -> spectrum A t -> perm_eq s t.
Proof. rewrite /spectrum => -> H. exact: prod_XsubC_perm. Qed.

Lemma perm_spectrum n (A : 'M[F]_n) s t : perm_eq s t -> spectrum A s -> spectrum A t.
Proof. by rewrite /spectrum => H ->; apply: perm_big. Qed.

Lemma spectrum_size n (A : 'M[F]_n) s : spectrum A s -> size s = n.
Proof.
move/(congr1 (fun p : {poly F} => size p)). by rewrite size_char_poly size_prod_XsubC => -[].
Qed.

Lemma char_poly_similar n (A B P : 'M[F]_n) :
  P \in unitmx -> P *m A = B *m P -> char_poly A = char_poly B.
Proof.
move=> HP H. have E : map_mx polyC P *m char_poly_mx A = char_poly_mx B *m map_mx polyC P.
  by rewrite /char_poly_mx mulmxBr mulmxBl -!map_mxM H scalar_mxC.
move: (congr1 determinant E). rewrite !det_mulmx mulrC. apply: mulIf.
rewrite det_map_mx polyC_eq0. by move: HP; rewrite unitmxE unitfE.
Qed.

Definition diagonal n (T : 'M[F]_n) : seq F := [seq T i i | i <- enum 'I_n].

Lemma spectrum_trig n (T : 'M[F]_n) : is_trig_mx T -> spectrum T (diagonal T).
Proof. by move=> HT; rewrite /spectrum char_poly_trig // big_map big_enum. Qed.

Lemma trig_mul n (S T : 'M[F]_n) : is_trig_mx S -> is_trig_mx T -> is_trig_mx (S *m T).
Proof.
move=> /is_trig_mxP HS /is_trig_mxP HT. apply/is_trig_mxP => i j Hij. rewrite mxE big1 // => k _.
case: (ltnP i k) => H; first by rewrite HS ?mul0r.
by rewrite HT ?mulr0 //; apply: leq_ltn_trans Hij.
Qed.

Lemma trig_mul_diag n (S T : 'M[F]_n) : is_trig_mx S -> is_trig_mx T ->
  forall i, (S *m T) i i = S i i * T i i.
Proof.
move=> /is_trig_mxP HS /is_trig_mxP HT i. rewrite mxE (bigD1 i) //= big1 ?addr0 // => k Hk.
case: (ltngtP i k) => H; first by rewrite HS ?mul0r.
  by rewrite HT ?mulr0.
by case/eqP: Hk; apply: val_inj.
Qed.

Lemma trig_pow n (T : 'M[F]_n) k : is_trig_mx T ->
  is_trig_mx (mxpow T k) /\ forall i, (mxpow T k) i i = T i i ^+ k.
Proof.
move=> HT. elim: k => [|k [IH1 IH2]].
  by split=> [|i]; rewrite ?scalar_mx_is_trig // mxE eqxx.
rewrite mxpowS; split=> [|i]; first exact: trig_mul.
by rewrite trig_mul_diag // IH2 exprS.
Qed.

Lemma trig_inv n (T : 'M[F]_n) : is_trig_mx T -> T \in unitmx ->
  is_trig_mx (invmx T) /\ forall i, (invmx T) i i = (T i i)^-1.
Proof.
move=> HT HU. pose P n (T : 'M[F]_n) := T \in unitmx ->
  exists2 S, T *m S = 1%:M & is_trig_mx S.
have : P n T.
  elim/trigsqmx_ind : HT => {n T HU} [|n x c T HT IH].
    by move=> _; exists 1%:M => //; rewrite ?mulmx1 ?scalar_mx_is_trig //; apply/matrixP => -[].
  rewrite /P unitmxE det_lblock unitrM -!unitmxE => /andP [Hx /IH [S HS HSt]].
  exists (block_mx (invmx x) 0 (- (S *m c *m invmx x)) S).
    rewrite (mulmx_block x 0 c T) !mulmx0 !mul0mx mulmxV // !addr0 add0r HS mulmxN !mulmxA HS.
    by rewrite mul1mx subrr -scalar_mx_block.
  by rewrite is_trig_block_mx // eqxx mx11_is_trig.
case=> // S HS HSt. rewrite (mulmx1_invmx HS); split=> // i.
have Ti : T i i * S i i = 1 by rewrite -trig_mul_diag // HS mxE eqxx.
have Hn : T i i != 0 by apply/eqP => E; move: Ti; rewrite E mul0r => /eqP; rewrite eq_sym oner_eq0.
by rewrite -[RHS]mulr1 -Ti mulKf.
Qed.

Lemma det_spectrum n (A : 'M[F]_n) s : spectrum A s -> \det A = \prod_(x <- s) x.
Proof.
move=> H. have Es := spectrum_size H. move: (char_poly_det A).
rewrite H -horner_coef0 horner_prod.
rewrite (eq_bigr (fun x => (-1) * x)); last by move=> x _; rewrite !hornerE mulN1r.
rewrite big_split /= big_const_seq count_predT Es iter_mulr_1 => /mulrI ->//.
by rewrite unitrX ?unitrN1.
Qed.

Lemma spectrum_unit n (A : 'M[F]_n) s : spectrum A s -> A \in unitmx = (0 \notin s).
Proof.
move=> H. rewrite unitmxE (det_spectrum H) unitfE prodf_seq_neq0. apply/allP/negP => [Ha H0|H0 x Hx].
  by have := Ha _ H0; rewrite /= eqxx.
by rewrite /=; apply/eqP => E; apply: H0; rewrite -E.
Qed.

End Spectra.

Section Closed.
Variable F : closedFieldType.

(** Every matrix over an algebraically closed field is similar to a triangular one. *)
Lemma triangular_form n (A : 'M[F]_n) :
  exists P T, [/\ P \in unitmx, is_trig_mx T & P *m A = T *m P].
Proof.
elim: n A => [|n IH] A.
  exists 1%:M, A; split; rewrite ?unitmx1 ?mul1mx ?mulmx1 //. by apply/is_trig_mxP => -[].
have [z Hz] : exists z, root (char_poly A) z.
  by apply/closed_rootP; rewrite size_char_poly.
rewrite -eigenvalue_root_char in Hz. case/eigenvalueP: Hz => v Hv Hnz.
pose Q := row_ebase v. have HQ : Q \in unitmx by apply: row_ebase_unit.
pose e := delta_mx (0 : 'I_1) (0 : 'I_n.+1) : 'rV[F]_n.+1.
have [c Hc Ev] : exists2 c : F, c != 0 & v = c *: (e *m Q).
  have := mulmx_ebase v. have := col_ebase_unit v. rewrite [col_ebase v]mx11_scalar.
  set c := _ 0 0 => Hu Ev. exists c.
    by move: Hu; rewrite unitmxE det_scalar1 unitfE.
  rewrite -{1}Ev mul_scalar_mx -scalemxAl rank_rV Hnz. congr (_ *: (_ *m _)).
  by apply/rowP => j; rewrite !mxE !eqxx /= -val_eqE /= eq_sym andbC; case: (val j).
have He : e *m (Q *m A *m invmx Q) = z *: e.
  have H1 : e *m Q *m A = z *: (e *m Q).
    have := Hv; rewrite {1 2}Ev -scalemxAl scalerA mulrC -scalerA. exact: scalerI.
  by rewrite !mulmxA H1 -scalemxAl mulmxK.
pose B : 'M[F]_(1 + n) := Q *m A *m invmx Q.
have HB : B = block_mx (ulsubmx B) 0 (dlsubmx B) (drsubmx B).
  rewrite -[LHS]submxK. congr block_mx. apply/matrixP => i j. rewrite !ord1 !mxE.
  have := congr1 (fun M : 'rV[F]_n.+1 => M 0 (rshift 1 j)) He. rewrite -rowE !mxE.
  rewrite /= mulr0 => E. rewrite -[RHS]E. apply: eq_bigr => k _. by rewrite (_ : lshift n 0 = 0) //; apply: val_inj.
have [P [T [HP HT E]]] := IH (drsubmx B).
pose P1 := block_mx 1%:M 0 0 P : 'M[F]_(1 + n).
pose T1 := block_mx (ulsubmx B) 0 (P *m dlsubmx B) T : 'M[F]_(1 + n).
have HP1 : P1 \in unitmx by rewrite unitmxE det_lblock det1 mul1r -unitmxE.
have HT1 : is_trig_mx T1 by rewrite is_trig_block_mx // eqxx mx11_is_trig.
have E1 : P1 *m B = T1 *m P1.
  rewrite HB (mulmx_block 1%:M 0 0 P) (mulmx_block _ 0 _ T 1%:M 0 0 P).
  by rewrite !mulmx0 !mul0mx !mul1mx !mulmx1 !addr0 !add0r E.
exists (P1 *m Q), T1; split=> //; first by rewrite unitmx_mul HQ andbT.
rewrite mulmxA -E1 /B !mulmxA. apply: esym. exact: mulmxKV.
Qed.

Lemma spectrum_exists n (A : 'M[F]_n) : exists s, spectrum A s.
Proof.
have [P [T [HP HT E]]] := triangular_form A. exists (diagonal T).
by rewrite /spectrum (char_poly_similar HP E) (spectrum_trig HT).
Qed.

Lemma sim_pow n (A T P : 'M[F]_n) k : P *m A = T *m P -> P *m mxpow A k = mxpow T k *m P.
Proof.
move=> E. elim: k => [|k IH]; first by rewrite mulmx1 mul1mx.
by rewrite !mxpowS mulmxA E -mulmxA IH mulmxA.
Qed.

(** The eigenvalues of A^k are the k-th powers of those of A. *)
Lemma spectrum_pow n (A : 'M[F]_n) s k : spectrum A s -> spectrum (mxpow A k) [seq x ^+ k | x <- s].
Proof.
move=> H. have [P [T [HP HT E]]] := triangular_form A.
have Hd : spectrum A (diagonal T) by rewrite /spectrum (char_poly_similar HP E) (spectrum_trig HT).
apply: (perm_spectrum (perm_map _ (spectrum_perm Hd H))).
rewrite /spectrum (char_poly_similar HP (sim_pow k E)) (spectrum_trig (trig_pow k HT).1).
by rewrite /diagonal -map_comp !big_map; apply: eq_bigr => i _ /=; rewrite (trig_pow k HT).2.
Qed.

Lemma spectrum_inv n (A : 'M[F]_n) s : A \in unitmx -> spectrum A s ->
  spectrum (invmx A) [seq x^-1 | x <- s].
Proof.
move=> HA H. have [P [T [HP HT E]]] := triangular_form A.
have Hd : spectrum A (diagonal T) by rewrite /spectrum (char_poly_similar HP E) (spectrum_trig HT).
have HTu : T \in unitmx.
  have := congr1 (fun M => M *m invmx P) E. rewrite mulmxK // => <-.
  by rewrite !unitmx_mul HP HA unitmx_inv.
apply: (perm_spectrum (perm_map _ (spectrum_perm Hd H))).
have Ei : P *m invmx A = invmx T *m P.
  by rewrite -[LHS](mulKmx HTu) [T *m _]mulmxA -E mulmxK.
rewrite /spectrum (char_poly_similar HP Ei) (spectrum_trig (trig_inv HT HTu).1).
by rewrite /diagonal -map_comp !big_map; apply: eq_bigr => i _ /=; rewrite (trig_inv HT HTu).2.
Qed.

Lemma trace_spectrum n (A : 'M[F]_n) s : spectrum A s -> \tr A = \sum_(x <- s) x.
Proof.
move=> H. have [P [T [HP HT E]]] := triangular_form A.
have Hd : spectrum A (diagonal T) by rewrite /spectrum (char_poly_similar HP E) (spectrum_trig HT).
rewrite (perm_big _ (spectrum_perm H Hd)) big_map big_enum /=.
by rewrite -[A](mulKmx HP) E mulmxA mxtrace_mulC mulmxA mulmxV // mul1mx.
Qed.

End Closed.

Section Real.
Variable R : rcfType.
Local Notation toC := (real_complex R).

Lemma spectrum_toC n (A : 'M[R]_n) s : spectrum A s <-> spectrum (map_mx toC A) (map toC s).
Proof.
rewrite /spectrum -map_char_poly big_map.
have -> : \prod_(x <- s) ('X - (toC x)%:P) = map_poly toC (\prod_(x <- s) ('X - x%:P)).
  rewrite rmorph_prod /=. apply: eq_bigr => x _. by rewrite rmorphB /= map_polyX map_polyC.
by split=> [->|/map_poly_inj].
Qed.

Lemma map_mxpow n (A : 'M[R]_n) k : map_mx toC (mxpow A k) = mxpow (map_mx toC A) k.
Proof. by elim: k => [|k IH]; rewrite ?map_mx1 // !mxpowS map_mxM IH. Qed.

Lemma spectrum_powR n (A : 'M[R]_n) s k : spectrum A s -> spectrum (mxpow A k) [seq x ^+ k | x <- s].
Proof.
move=> /spectrum_toC /(spectrum_pow k). rewrite -map_mxpow => H. apply/spectrum_toC.
by rewrite -map_comp; move: H; rewrite -map_comp; congr spectrum; apply: eq_map => x /=; rewrite rmorphX.
Qed.

Lemma spectrum_invR n (A : 'M[R]_n) s : A \in unitmx -> spectrum A s ->
  spectrum (invmx A) [seq x^-1 | x <- s].
Proof.
move=> HA /spectrum_toC H. apply/spectrum_toC.
have HA' : map_mx toC A \in unitmx by rewrite map_unitmx.
have := spectrum_inv HA' H. rewrite -map_invmx -!map_comp.
by congr spectrum; apply: eq_map => x /=; rewrite fmorphV.
Qed.

Lemma map_mxtrace n (A : 'M[R]_n) : toC (\tr A) = \tr (map_mx toC A).
Proof. by rewrite /mxtrace rmorph_sum; apply: eq_bigr => i _; rewrite mxE. Qed.

Lemma trace_spectrumR n (A : 'M[R]_n) s : spectrum A s -> \tr A = \sum_(x <- s) x.
Proof.
move=> /spectrum_toC /trace_spectrum. rewrite -map_mxtrace big_map -rmorph_sum.
exact: (fmorph_inj [rmorphism of toC]).
Qed.

(** A symmetric matrix has real eigenvalues only. *)
Lemma spectrum_sym n (A : 'M[R]_n) : A^T = A -> exists s, spectrum A s.
Proof.
case/spectral_theorem => P [d [HP HA]]. exists [seq d 0 i | i <- enum 'I_n].
have HP' : P^T \in unitmx by case: (mulmx1_unit HP).
have E : P^T *m A = diag_mx d *m P^T by rewrite HA !mulmxA HP mul1mx.
rewrite /spectrum (char_poly_similar HP' E) char_poly_trig ?diag_mx_is_trig // big_map big_enum /=.
by apply: eq_bigr => i _; rewrite mxE eqxx.
Qed.

Lemma spectrum_root (F : fieldType) n (A : 'M[F]_n) s x : spectrum A s -> x \in s -> eigenvalue A x.
Proof. by move=> H; rewrite eigenvalue_root_char H root_prod_XsubC. Qed.

Lemma sq_norm_gt0 n (v : 'rV[R]_n) : v != 0 -> 0 < (v *m v^T) 0 0.
Proof.
move=> H. rewrite mxE lt_def sumr_ge0 ?andbT; last by move=> i _; rewrite mxE -expr2 sqr_ge0.
apply: contra H => /eqP H0. apply/eqP/rowP => i. rewrite mxE.
have Hge (j : 'I_n) : true -> 0 <= v 0 j * v^T j 0 by rewrite mxE -expr2 sqr_ge0.
have : v 0 i * v^T i 0 = 0 by apply: (psumr_eq0P Hge H0). by rewrite mxE => /eqP; rewrite mulf_eq0 orbb => /eqP.
Qed.

Lemma spectrum_posdef n (A : 'M[R]_n) s : posdef A -> spectrum A s -> forall x, x \in s -> 0 < x.
Proof.
move=> [_ HA] H x /(spectrum_root H) /eigenvalueP [v Hv Hn].
have := HA v^T. rewrite trmx_eq0 => /(_ Hn). rewrite /qform trmxK Hv -scalemxAl mxE.
by rewrite pmulr_lgt0 // sq_norm_gt0.
Qed.

Lemma spectrum_gram n m (A : 'M[R]_(n, m)) s : spectrum (A^T *m A) s -> forall x, x \in s -> 0 <= x.
Proof.
move=> H x /(spectrum_root H) /eigenvalueP [v Hv Hn].
have : 0 <= (v *m (A^T *m A) *m v^T) 0 0.
  rewrite mulmxA -mulmxA -[A *m v^T]trmxK trmx_mul trmxK mxE sumr_ge0 // => i _.
  by rewrite [_^T i _]mxE -expr2 sqr_ge0.
by rewrite Hv -scalemxAl mxE pmulr_lge0 // sq_norm_gt0.
Qed.

End Real.

(** B C and C B have the same non-zero eigenvalues. *)
Lemma char_poly_mulC (F : comRingType) m n (B : 'M[F]_(m, n)) (C : 'M[F]_(n, m)) :
  char_poly (B *m C) * 'X^n = char_poly (C *m B) * 'X^m.
Proof.
pose b := map_mx polyC B; pose c := map_mx polyC C.
pose M := block_mx ('X%:M : 'M_m) b c (1%:M : 'M_n).
have E1 : \det M = char_poly (B *m C).
  have := det_lblock (1%:M : 'M[{poly F}]_m) (- c) (1%:M : 'M_n).
  rewrite !det1 mulr1 => H1. rewrite -[LHS]mulr1 -H1 -det_mulmx mulmx_block.
  rewrite !mulmx1 !mulmx0 !mul1mx !add0r subrr mulmxN det_ublock det1 mulr1 /char_poly /char_poly_mx.
  by rewrite map_mxM.
have E2 : 'X^n * \det M = 'X^m * char_poly (C *m B).
  have := det_lblock (1%:M : 'M[{poly F}]_m) (- c) ('X%:M : 'M_n).
  rewrite det1 mul1r det_scalar => H1. rewrite -{1}H1 -det_mulmx mulmx_block.
  rewrite !mul1mx !mul0mx !mulmx1 !addr0 mulNmx -scalar_mxC addrC subrr det_ublock det_scalar.
  by rewrite /char_poly /char_poly_mx map_mxM mulNmx addrC.
by rewrite -E1 mulrC E2 mulrC.
Qed.

(** The squares of the singular values and m - n zeros are the eigenvalues of
    the Gramian matrix. *)
Lemma singular_values (R : rcfType) n m (A : 'M[R]_(n, m)) :
  exists s : seq R, [/\ size s = minn n m, forall x, x \in s -> 0 <= x &
    spectrum (A^T *m A) ([seq x ^+ 2 | x <- s] ++ nseq (m - minn n m) 0)].
Proof.
have roots k l (D : 'M[R]_(k, l)) : exists s : seq R, [/\ size s = l, forall x, x \in s -> 0 <= x &
    spectrum (D^T *m D) [seq x ^+ 2 | x <- s]].
  have [t Ht] : exists t, spectrum (D^T *m D) t by apply: spectrum_sym; rewrite trmx_mul trmxK.
  exists [seq Num.sqrt x | x <- t]; split.
  - by rewrite size_map (spectrum_size Ht).
  - by move=> x /mapP [y _ ->]; rewrite sqrtr_ge0.
  rewrite -map_comp /spectrum big_map (eq_big_seq (fun x => 'X - x%:P)) // => x /(spectrum_gram Ht) Hx.
  by rewrite /= sqr_sqrtr.
case: (leqP m n) => Hmn.
  have [s [H1 H2 H3]] := roots n m A. exists s; split=> //.
  by rewrite subnn cats0.
have [s [H1 H2 H3]] := roots m n A^T. exists s; split=> //. rewrite trmxK in H3.
apply: (@mulIf _ 'X^n); first by rewrite monic_neq0 // monicXn.
rewrite char_poly_mulC H3 big_cat /= -mulrA; congr (_ * _).
rewrite (eq_big_seq (fun _ => 'X)); last by move=> x /nseqP [-> _]; rewrite subr0.
by rewrite big_const_seq count_predT size_nseq iter_mulr_1 -exprD subnK // ltnW.
Qed.
