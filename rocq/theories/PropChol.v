(** The Cholesky methods: C36 (log-determinant), C37 (trace of inverse). *)
Require Import Reals Lra.
From mathcomp Require Import all_ssreflect all_algebra fingroup perm.
From mathcomp Require Import zify.
From Verif Require Import MatSpec CholMath RealField CholModel.
Set Implicit Arguments.
Unset Strict Implicit.
Unset Printing Implicit Defensive.
Import GRing.Theory Num.Theory Order.TTheory.
Local Open Scope ring_scope.

Arguments mxpow : simpl never.

(** The assumptions about the library routines can be met. *)
Definition routines_ref (R : rcfType) : routines R :=
  Routines (@chol_ref R) (@splu_ref R)
    (fun n A => omap (fun L => (1%g, L)) (chol_ref A)) (@chol_ref R).

Lemma routines_ref_ok (R : rcfType) : routines_ok (routines_ref R).
Proof.
split=> [n A|n A|n A L' U' s L U|n A HA|n A HA] /=.
- exact: chol_refP.
- exact: splu_refP.
- exact: splu_ref_no_exchange.
- have := chol_refP A. rewrite symlow_id //. case: chol_ref => //= L [H ->].
  by rewrite row_perm1 col_perm1.
- have := chol_refP A. by rewrite symlow_id.
Qed.

Section Traceinv.
Variable R : rcfType.
Variable E : routines R.
Hypothesis EO : routines_ok E.

Lemma splu_posdef n (A : 'M[R]_n) : posdef A ->
  exists L U, [/\ splu E A = Some (1%g, L, U), unit_lower L, upper U, (forall i, 0 < U i i)
    & A = L *m U].
Proof.
move=> HA. have := splu_ok EO A. case Es : (splu E A) => [[[s L] U]|]; last first.
  by rewrite posdef_unit.
move=> [HL HU HE]. have [L' [U' [HL' HU' HN HA']]] := posdef_LU HA.
have Hs := splu_no_exchange EO HL' HU' HN HA' Es. rewrite Hs row_perm1 in HE Es.
exists L, U. split=> //; first by rewrite Hs.
by apply: (LU_posdef HL HU); rewrite HE.
Qed.

(** The permutation matrix of select_rows. *)
Definition perm_mat n (P : option 'S_n) : 'M[R]_n := if P is Some s then perm_mx s else 1%:M.

Lemma select_rowsE n m (P : option 'S_n) (M : 'M[R]_(n, m)) : select_rows P M = perm_mat P *m M.
Proof.
case: P => [s|] /=; last by rewrite mul1mx.
rewrite -row_permE. by apply/matrixP => i j; rewrite !mxE.
Qed.

Lemma perm_mat_orth n (P : option 'S_n) : (perm_mat P)^T *m perm_mat P = 1%:M.
Proof.
case: P => [s|] /=; last by rewrite trmx1 mulmx1.
by rewrite tr_perm_mx -perm_mxM mulVg perm_mx1.
Qed.

Lemma sparse_cholesky_posdef n (A : 'M[R]_n) : posdef A ->
  exists L, [/\ sparse_cholesky E A = Some L, L \in unitmx & L *m L^T = A].
Proof.
move=> HA. have [L [U [Es HL HU HP HE]]] := splu_posdef HA.
exists (L *m diag_mx (\row_i Num.sqrt (U i i))). rewrite /sparse_cholesky Es eqxx /=.
have -> : [forall i, 0 < U i i] by apply/forallP.
have E1 : L *m diag_mx (\row_i Num.sqrt (U i i)) *m (L *m diag_mx (\row_i Num.sqrt (U i i)))^T = A.
{ rewrite trmx_mul tr_diag_mx mulmxA -(mulmxA L) HE.
  have HA' : (L *m U)^T = L *m U by rewrite -HE (proj1 HA).
  rewrite [in RHS](LU_sym HL HU HA') !mulmxA. congr (_ *m _). rewrite -mulmxA. congr (_ *m _).
  rewrite mulmx_diag. congr diag_mx. apply/rowP => i. by rewrite !mxE -expr2 sqr_sqrtr ?ltW. }
split=> //. have := posdef_unit HA. rewrite -E1 unitmx_mul. by case/andP.
Qed.

Lemma factor_A_posdef b n (Ap : 'M[R]_n) : posdef Ap ->
  exists L P, [/\ factor_A E b Ap = Some (L, P), L \in unitmx &
    L *m L^T = perm_mat P *m Ap *m (perm_mat P)^T].
Proof.
move=> HA. case: b => /=.
- have := dense_chol_ok EO Ap. rewrite symlow_id ?(proj1 HA) //.
  case: dense_chol => // L [HL HE]. exists L, None. split=> //; first exact: lower_pos_unit.
  by rewrite /= mul1mx trmx1 mulmx1.
- have [L [-> HL HE]] := sparse_cholesky_posdef HA. exists L, None. split=> //.
  by rewrite /= mul1mx trmx1 mulmx1.
- have := cholmod_ok EO (proj1 HA). case: cholmod => // -[s L] [HL HE]. exists L, (Some s).
  split=> //; first exact: lower_pos_unit.
  by rewrite /= HE row_permE col_permE tr_perm_mx mulmxA.
Qed.

(** B, or the identity matrix if it is not given *)
Definition given n (B : option 'M[R]_n) : 'M[R]_n := if B is Some B then B else 1%:M.

Lemma factor_B_posdef b n (B : option 'M[R]_n) : posdef (given B) ->
  exists L, factor_B E b B = Some L /\
    if L is Some L then given B = L *m L^T else given B = 1%:M.
Proof.
case: B => [B|] /= HB; last by exists None.
case: b.
- have := dense_chol_ok EO B. rewrite symlow_id ?(proj1 HB) //.
  by case: dense_chol => // L [HL HE]; exists (Some L).
- have [L [-> HL HE]] := sparse_cholesky_posdef HB. by exists (Some L).
- have := cholmod_natural_ok EO (proj1 HB). by case: cholmod_natural => // L [HL HE]; exists (Some L).
Qed.

Lemma frobenius2E n m (C : 'M[R]_(n, m)) : frobenius2 C = \tr (C *m C^T).
Proof.
rewrite /frobenius2 /mxtrace. apply: eq_bigr => i _. rewrite mxE. apply: eq_bigr => j _.
by rewrite mxE expr2.
Qed.

Lemma indirectE n (L : 'M[R]_n) P LB : invert_indirectly L P LB = invert_directly L P LB.
Proof.
rewrite /invert_indirectly /invert_directly.
set C := (X in frobenius2 X).
have -> : frobenius2 C = \sum_j \sum_i (C i j) ^+ 2 by rewrite /frobenius2 exchange_big.
have H (s : seq 'I_n) a : foldl (fun norm2 i =>
    norm2 + \sum_k (invmx L *m (if LB is Some L_B then col i (select_rows P L_B)
             else \col_k (k == i)%:R)) k 0 ^+ 2) a s = a + \sum_(j <- s) \sum_i (C i j) ^+ 2.
{ elim: s a => [|j s IH] a /=; first by rewrite big_nil addr0.
  rewrite IH big_cons addrA. congr (_ + _ + _). apply: eq_bigr => i _. congr (_ ^+ 2).
  rewrite /C. case: (LB) => [LB'|]; first by rewrite colE mulmxA -colE mxE.
  have -> : (\col_k (k == j)%:R : 'cV[R]_n) = delta_mx j 0.
  { apply/colP => k. by rewrite !mxE andbT. }
  by rewrite -colE mxE. }
by apply: (etrans (H _ _)); rewrite add0r big_enum.
Qed.

Lemma traceinv_factor b inv n (Ap : 'M[R]_n) (B : option 'M[R]_n) :
  posdef Ap -> posdef (given B) ->
  (if factor_A E b Ap is Some (L_A, P) then
        if factor_B E b B is Some L_B then
          Some (if inv then invert_directly L_A P L_B else invert_indirectly L_A P L_B)
        else None
      else None) = Some (\tr (invmx Ap *m given B)).
Proof.
move=> HA HB. have [L [P [-> HL EL]]] := factor_A_posdef b HA.
have [LB [-> ELB]] := factor_B_posdef b HB. congr Some.
rewrite indirectE. have -> : forall x : R, (if inv then x else x) = x by case: inv.
have HO := perm_mat_orth P. set Q := perm_mat P in EL HO *.
have HO' : Q *m Q^T = 1%:M by apply: mulmx1C.
have EI : (invmx L)^T *m invmx L = Q *m invmx Ap *m Q^T.
{ rewrite trmx_inv -invmx_mul ?unitmx_tr // EL. apply: mulmx1_invmx.
  rewrite !mulmxA -(mulmxA _ Q^T Q) HO mulmx1 -(mulmxA Q) mulmxV ?posdef_unit // mulmx1. exact: HO'. }
rewrite /invert_directly frobenius2E.
case: LB ELB => [LB|] ->; last first.
  rewrite mulmx1 mxtrace_mulC EI mxtrace_mulC mulmxA HO mul1mx. by [].
rewrite select_rowsE -/Q trmx_mul mxtrace_mulC !mulmxA trmx_mul.
rewrite -(mulmxA _ (invmx L)^T) EI mxtrace_mulC.
rewrite !mulmxA -(mulmxA _ Q^T Q) HO mulmx1 -(mulmxA _ Q^T Q) HO mulmx1 mxtrace_mulC mulmxA. by [].
Qed.

Lemma power_matrixE n (A1 : 'M[R]_n) p : p != 0 -> power_matrix A1 p = mxpow A1 (absz p).
Proof.
move=> Hp. rewrite /power_matrix. case: ifP => [H|_].
  have -> : absz p = 1%N by case/orP: H => /eqP ->.
  by rewrite mxpow1.
have : (0 < absz p)%N by rewrite absz_gt0.
case: (absz p) => [//|k] _. rewrite subn1 /=.
by elim: k => [|k IH]; rewrite ?mxpow1 //= IH -mxpowSr.
Qed.

Lemma traceinv_ofE b inv rows n (A1 : 'M[R]_n) B p : posdef A1 -> posdef (given B) ->
  (p = 0 -> B = None -> rows = n) ->
  traceinv_of E b inv rows A1 B p = Some (\tr (mxpowz A1 (- p) *m given B)).
Proof.
move=> HA HB Hr. rewrite /traceinv_of. case: eqP => [p0|/eqP p0].
  rewrite p0 /= mul1mx. case: B HB Hr => [B|] //= _ Hr. by rewrite mxtrace1 Hr.
rewrite power_matrixE //. case: ltP => Hp.
  case: p p0 Hp {Hr} => // k _ _. rewrite NegzE opprK /= .
  by case: B HB => [B|] /= _; rewrite ?mulmx1.
case: p p0 Hp {Hr} => // -[//|k] _ _. rewrite -NegzE /mxpowz -invmx_mxpow ?posdef_unit //.
apply: traceinv_factor => //. exact: posdef_mxpow.
Qed.

(** C37: for a symmetric positive-definite A, a symmetric positive-definite or
    omitted B and an integer p, trace(A^-p B), by either route, with dense or
    sparse storage, and with whatever permutation cholmod chooses. *)
Theorem C37_traceinv b inv n (A : 'M[R]_n) B p : posdef A -> posdef (given B) ->
  traceinv_cholesky E b inv A B p = Some (\tr (mxpowz A (- p) *m given B)).
Proof. move=> HA HB. exact: traceinv_ofE. Qed.

(** The same for A^T A, where A has independent columns.  Missing: p = 0 with B
    omitted for a matrix that is not square, see C37_gram_zero_refuted. *)
Theorem C37_gram_partial b inv n m (A : 'M[R]_(n, m)) B p :
  (forall x : 'cV[R]_m, x != 0 -> A *m x != 0) -> posdef (given B) ->
  [|| n == m, p != 0 | B != None] ->
  traceinv_cholesky_gram E b inv A B p = Some (\tr (mxpowz (A^T *m A) (- p) *m given B)).
Proof.
move=> HA HB Hp. apply: traceinv_ofE => //; first exact: gram_rank.
move=> Ep EB. move: Hp. by rewrite Ep EB => /or3P [/eqP||].
Qed.

(** For p <= 0 no factorisation takes place, and A and B may be any matrices. *)
Theorem C37_no_inverse b inv n (A : 'M[R]_n) B (k : nat) :
  traceinv_cholesky E b inv A B (- k%:Z) = Some (\tr (mxpow A k *m given B)).
Proof.
rewrite /traceinv_cholesky /traceinv_of. case: eqP => [/eqP p0|/eqP p0].
  move: p0. rewrite oppr_eq0 => /eqP [->]. rewrite mul1mx.
  by case: B => [B|] //=; rewrite mxtrace1.
rewrite power_matrixE // abszN absz_nat.
have -> : - (k : int) < 0 by move: p0; rewrite oppr_eq0 oppr_lt0; case: (k).
by case: B => [B|]; rewrite /= ?mulmx1.
Qed.

(** Both routes give the same for every factor, permutation and B. *)
Theorem C37_routes_agree b n (A : 'M[R]_n) B p :
  traceinv_cholesky E b true A B p = traceinv_cholesky E b false A B p.
Proof.
rewrite /traceinv_cholesky /traceinv_of. case: eqP => // _. case: ifP => // _.
case: factor_A => // -[L P]. case: factor_B => // LB. by rewrite indirectE.
Qed.

End Traceinv.

(** With gram=True, B omitted and p=0 the number of rows of A is returned, but
    (A^T A)^0 has as many rows as A has columns. *)
Theorem C37_gram_zero_refuted (R : rcfType) (E : routines R) b inv n m (A : 'M[R]_(n, m)) :
  n != m ->
  exists r, traceinv_cholesky_gram E b inv A None 0 = Some r /\
    r <> \tr (mxpowz (A^T *m A) 0 *m given None).
Proof.
move=> H. exists n%:R. split=> //. rewrite /= mulmx1 mxtrace1 => /eqP. by rewrite eqr_nat (negbTE H).
Qed.

Section Logdet.

Lemma ln_prod n (f : 'I_n -> R) : (forall i, 0 < f i) ->
  ln (\prod_i f i) = \sum_i ln (f i).
Proof.
move=> H. suff : 0 < \prod_i f i /\ ln (\prod_i f i) = \sum_i ln (f i) by case.
apply: (big_ind2 (fun x y : R => 0 < x /\ ln x = y)).
- split; [exact: ltr01 | exact: ln_1].
- move=> x1 y1 x2 y2 [H1 <-] [H2 <-]. split; first exact: mulr_gt0.
  by apply: ln_mult; apply/RltP.
- by move=> i _; split.
Qed.

Lemma ln_sqr (x : R) : 0 < x -> ln (x ^+ 2) = 2%:R * ln x.
Proof.
move=> /RltP H. rewrite expr2. have -> : ln (x * x) = (ln x + ln x)%R by apply: ln_mult.
by rewrite mulr_natl mulr2n.
Qed.

Variable E : routines R_rcfType.
Hypothesis EO : routines_ok E.

Lemma logdet_of_diagonalE n (d : 'rV[R]_n) : (forall i, 0 < d 0 i) ->
  logdet_of_diagonal d = Some (ln ((\prod_i d 0 i) ^+ 2)).
Proof.
move=> H. rewrite /logdet_of_diagonal. case: existsP => [[i /eqP Hi]|_].
  by have := H i; rewrite Hi ltxx.
by rewrite ln_sqr ?prodr_gt0 // ln_prod.
Qed.

Lemma factor_diagonal_posdef b n (A : 'M[R]_n) : posdef A ->
  exists d, [/\ factor_diagonal E b A = Some d, (forall i, 0 < d 0 i) &
    (\prod_i d 0 i) ^+ 2 = \det A].
Proof.
move=> HA. case: b => /=.
- have := dense_chol_ok EO A. rewrite symlow_id ?(proj1 HA) //.
  case: dense_chol => // L [HL <-]. exists (\row_i L i i). split=> // [i|].
  + rewrite mxE. exact: (proj2 HL).
  + rewrite det_mulmx det_tr det_lower_pos // expr2. by congr (_ * _); apply: eq_bigr => i _; rewrite mxE.
- have [L [U [Es HL HU HP HE]]] := splu_posdef EO HA. rewrite /sparse_cholesky_diagonal Es.
  have -> : [forall i, 0 <= U i i] by apply/forallP => i; rewrite ltW.
  exists (\row_i Num.sqrt (U i i)). split=> // [i|]; first by rewrite mxE sqrtr_gt0.
  rewrite HE det_mulmx (det_unit_lower HL) mul1r (det_upper HU) -prodrXl.
  apply: eq_bigr => i _. by rewrite mxE sqr_sqrtr ?ltW.
- have := cholmod_ok EO (proj1 HA). case: cholmod => // -[s L] [HL HE] /=. exists (\row_i L i i). split=> // [i|].
  + rewrite mxE. exact: (proj2 HL).
  + have : \det (L *m L^T) = \det A.
    { rewrite HE row_permE col_permE !det_mulmx !det_perm odd_permV mulrCA -signr_addb addbb mulr1. by []. }
    rewrite det_mulmx det_tr det_lower_pos // -expr2 => <-. congr (_ ^+ 2). by apply: eq_bigr => i _; rewrite mxE.
Qed.

Lemma logdet_powerE b n (A : 'M[R]_n) p : posdef A ->
  logdet_power E b A p = Some (p * ln (\det A)).
Proof.
move=> HA. rewrite /logdet_power. case: eqP => [->|_]; first by rewrite mul0r.
have [d [-> Hd <-]] := factor_diagonal_posdef b HA. by rewrite /= logdet_of_diagonalE //= mulrC.
Qed.

(** C36: p log det A for symmetric positive-definite A and every real p, with
    dense or sparse storage. *)
Theorem C36_logdet b n (A : 'M[R]_n) p : posdef A ->
  logdet_square E b false A p = Some (p * ln (\det A)).
Proof. exact: logdet_powerE. Qed.

(** p log det (A^T A) for A that is not square and has independent columns *)
Theorem C36_gram_tall b n m (A : 'M[R]_(n, m)) p :
  (forall x : 'cV[R]_m, x != 0 -> A *m x != 0) ->
  logdet_rectangular E b A p = Some (p * ln (\det (A^T *m A))).
Proof. move=> H. apply: logdet_powerE. exact: gram_rank. Qed.

(** p log det (A^T A) for square A.  Missing: A that is not symmetric positive
    definite, see C36_gram_square_refuted. *)
Theorem C36_gram_square_partial b n (A : 'M[R]_n) p : posdef A ->
  logdet_square E b true A p = Some (p * ln (\det (A^T *m A))).
Proof.
move=> HA. rewrite /logdet_square logdet_powerE //=. congr Some.
rewrite det_mulmx det_tr -expr2 ln_sqr; last exact: det_posdef.
by rewrite mulrCA.
Qed.

(** Sparse matrices without cholmod: whenever a number is returned for a square
    invertible A, it is p log |det A|, and p log det (A^T A) with gram=True,
    also if A is not symmetric. *)
Theorem C36_sparse_scipy (gram : bool) n (A : 'M[R]_n) p r : A \in unitmx ->
  logdet_square E SparseScipy gram A p = Some r ->
  r = if gram then p * ln (\det (A^T *m A)) else p * ln `|\det A|.
Proof.
move=> HA. have Hd : \det A != 0 by rewrite -unitfE -unitmxE.
have Hsq : ln (\det (A^T *m A)) = 2%:R * ln `|\det A|.
{ rewrite det_mulmx det_tr -expr2 -ln_sqr ?normr_gt0 // -normrX ger0_norm // sqr_ge0. by []. }
suff H t : logdet_power E SparseScipy A p = Some t -> t = p * ln `|\det A|.
{ rewrite /logdet_square. case: gram => [|/H //]. case: logdet_power H => //= t /(_ t erefl) -> [<-].
  by rewrite Hsq mulrCA. }
rewrite /logdet_power. case: eqP => [-> [<-]|_]; first by rewrite mul0r.
rewrite /= /sparse_cholesky_diagonal. have := splu_ok EO A. case: splu => // -[[s L] U] [HL HU HE].
case: forallP => // HP. rewrite [obind _ _]/= /logdet_of_diagonal.
case: existsP => // Hz [<-]. rewrite [LHS]mulrC. congr (_ * _).
have HU0 i : 0 < U i i.
{ rewrite lt_neqAle HP andbT eq_sym. apply/eqP => Hi. case: Hz. exists i. by rewrite mxE Hi sqrtr0. }
rewrite -ln_prod; last by move=> i; rewrite mxE sqrtr_gt0.
rewrite -ln_sqr; last by apply: prodr_gt0 => i _; rewrite mxE sqrtr_gt0.
congr ln. rewrite -prodrXl.
have -> : \prod_i (\row_i Num.sqrt (U i i)) 0 i ^+ 2 = \det U.
{ rewrite det_upper //. apply: eq_bigr => i _. by rewrite mxE sqr_sqrtr. }
have : \det (L *m U) = \det (perm_mx s *m A) by rewrite HE row_permE.
rewrite !det_mulmx (det_unit_lower HL) mul1r det_perm => ED.
have : `|\det U| = `|\det A| by rewrite ED normrM normrX normrN1 expr1n mul1r.
move=> <-. rewrite ger0_norm // det_upper // prodr_ge0 // => i _; exact: HP.
Qed.

End Logdet.

(** With gram=True a dense square A goes through the Cholesky factor of its
    lower triangle, although A need not be symmetric.  For A = [[2,3],[1,2]],
    det(A^T A) = 1, but the number returned is p 2 log 3. *)
Definition two (a b c d : R) : 'M[R]_2 :=
  \matrix_(i, j) if i == 0 then (if j == 0 then a else b) else (if j == 0 then c else d).
Arguments two (_ _ _ _)%R.

Lemma ord2_cases (i : 'I_2) : i = 0 \/ i = 1.
Proof. case: i => [[|[|k]] H] //; [left|right]; exact: val_inj. Qed.

Lemma posdef_two (a b d : R) : 0 < a -> 0 < a * d - b ^+ 2 -> posdef (two a b b d).
Proof.
move=> Ha Hd. split.
  apply/matrixP => i j. rewrite !mxE. by case: (i == 0); case: (j == 0).
move=> x Hx. have E : qform (two a b b d) x =
  a * x 0 0 ^+ 2 + 2%:R * b * x 0 0 * x 1 0 + d * x 1 0 ^+ 2.
{ rewrite /qform !mxE !big_ord_recl !big_ord0 !mxE !big_ord_recl !big_ord0 !mxE /=.
  have -> : lift ord0 ord0 = 1 :> 'I_2 by apply: val_inj.
  have -> : ord0 = 0 :> 'I_2 by apply: val_inj.
  Rring. }
rewrite E -(pmulr_rgt0 _ Ha).
have -> : a * (a * x 0 0 ^+ 2 + 2%:R * b * x 0 0 * x 1 0 + d * x 1 0 ^+ 2) =
  (a * x 0 0 + b * x 1 0) ^+ 2 + (a * d - b ^+ 2) * x 1 0 ^+ 2.
{ Rring. }
have [H1|H1] := eqVneq (x 1 0) 0.
  rewrite H1 mulr0 addr0 expr0n /= mulr0 addr0 exprn_even_gt0 //=.
  apply: mulf_neq0; first by rewrite gt_eqF.
  apply: contraNneq Hx => H0. apply/eqP/colP => i. rewrite mxE.
  by case: (ord2_cases i) => ->.
by rewrite ltr_paddl ?sqr_ge0 // mulr_gt0 // exprn_even_gt0.
Qed.

Lemma det_two a b c d : \det (two a b c d) = a * d - b * c.
Proof.
rewrite (expand_det_row _ 0) !big_ord_recl big_ord0 !mxE /= /cofactor !det_mx11 !mxE /=.
rewrite /= ?addn0 ?expr0 ?expr1 ?expr2. Rring.
Qed.

Lemma posdef_2112 : posdef (two 2%:R 1%:R 1%:R 2%:R).
Proof. apply: posdef_two; apply/RltP; toR; simpl; lra. Qed.

Theorem C36_gram_square_refuted (E : routines R_rcfType) : routines_ok E ->
  let A := two 2%:R 3%:R 1%:R 2%:R in
  [/\ A \in unitmx, 1 * ln (\det (A^T *m A)) = 0 &
    exists r, logdet_square E Dense true A 1 = Some r /\ r <> 0].
Proof.
move=> EO A. have EA : \det A = 1 by rewrite det_two; Rring.
have Es : symlow A = two 2%:R 1%:R 1%:R 2%:R.
{ apply/matrixP => i j. rewrite !mxE. by case: (ord2_cases i) => ->; case: (ord2_cases j) => ->. }
split.
- by rewrite unitmxE EA unitr1.
- rewrite mul1r det_mulmx det_tr EA mulr1. exact: ln_1.
- have HP : posdef (symlow A) by rewrite Es; apply: posdef_2112.
  exists (2%:R * ln 3%:R). split; last first.
    move=> H. have := ln_lt_2. have H3 : Rlt (ln (IZR 2)) (ln (INR 3)) by apply: ln_increasing; simpl; lra.
    move: H. rewrite RmultE !RnatE R0E. move: H3. set u := ln (INR 3). simpl INR. lra.
  rewrite /logdet_square /logdet_power.
  have -> : (1 : R) == 0 = false by apply/negbTE; rewrite oner_eq0.
  have := dense_chol_ok EO A. rewrite /=. case: dense_chol => [L [HL HE]|/(_ HP) //].
  rewrite /= logdet_of_diagonalE; last by move=> i; rewrite mxE; apply: (proj2 HL).
  rewrite /= mulr1. congr (Some (_ * ln _)).
  have : \det (L *m L^T) = 3%:R by rewrite HE Es det_two; Rring.
  rewrite det_mulmx det_tr det_lower_pos // -expr2 => <-. congr (_ ^+ 2).
  by apply: eq_bigr => i _; rewrite mxE.
Qed.

(** Cases: A = [[2,1],[1,2]] with log det A = log 3, and the tall matrix with
    rows (2,1), (1,2), (0,1) with independent columns. *)
Example C36_case (E : routines R_rcfType) : routines_ok E ->
  forall b, logdet_square E b false (two 2%:R 1%:R 1%:R 2%:R) (- 2%:R) = Some (- 2%:R * ln 3%:R).
Proof.
move=> EO b. rewrite (C36_logdet EO b _ posdef_2112). congr (Some (_ * ln _)).
rewrite det_two. Rring.
Qed.

Example C37_case (E : routines R_rcfType) : routines_ok E ->
  forall b inv, traceinv_cholesky E b inv (two 2%:R 1%:R 1%:R 2%:R) None 1 = Some (4%:R / 3%:R).
Proof.
move=> EO b inv. rewrite (C37_traceinv EO b inv (B := None) _ posdef_2112); last exact: one_posdef.
congr Some. rewrite /= mxpow1 mulmx1.
have -> : invmx (two 2%:R 1%:R 1%:R 2%:R) = two (2%:R / 3%:R) (-1 / 3%:R) (-1 / 3%:R) (2%:R / 3%:R).
{ apply: mulmx1_invmx. apply/matrixP => i j. rewrite !mxE !big_ord_recl big_ord0 !mxE /=.
  have H3 : (3%:R : R) != 0 by rewrite pnatr_eq0.
  case: (ord2_cases i) => ->; case: (ord2_cases j) => -> /=; rewrite !RdivE //; toR; simpl INR;
  match goal with |- @eq _ ?a ?b => change (@eq R a b) end; field; lra. }
rewrite /mxtrace !big_ord_recl big_ord0 !mxE /= addr0 -mulrDl. congr (_ / _). Rring.
Qed.

Example C36_C37_tall : let A : 'M[R]_(3, 2) := \matrix_(i, j)
    nth 0 (nth [::] [:: [:: 2%:R; 1]; [:: 1; 2%:R]; [:: 0; 1]] i) j in
  forall x : 'cV[R]_2, x != 0 -> A *m x != 0.
Proof.
move=> A x. apply: contraNneq => /matrixP H. apply/eqP/colP => i. rewrite mxE.
have := H (inord 2) 0. have := H 1 0. rewrite !mxE !big_ord_recl !big_ord0 !mxE /= !inordK //=.
have -> : lift ord0 ord0 = 1 :> 'I_2 by apply: val_inj. have -> : ord0 = 0 :> 'I_2 by apply: val_inj.
rewrite !mul1r !mul0r add0r !addr0 => H1 H2. rewrite H2 mulr0 addr0 in H1.
by case: (ord2_cases i) => ->.
Qed.

Print Assumptions C36_logdet.
Print Assumptions C36_gram_tall.
Print Assumptions C36_gram_square_partial.
Print Assumptions C36_sparse_scipy.
Print Assumptions C36_gram_square_refuted.
Print Assumptions C37_traceinv.
Print Assumptions C37_gram_partial.
Print Assumptions C37_no_inverse.
Print Assumptions C37_routes_agree.
Print Assumptions C37_gram_zero_refuted.
