(** Facts about positive definite matrices and their triangular factors.  They
    show that the contracts assumed of the factorisation routines can be met. *)
From mathcomp Require Import all_ssreflect all_algebra fingroup perm.
From mathcomp Require Import zify.
From Verif Require Import MatSpec.
Set Implicit Arguments.
Unset Strict Implicit.
Unset Printing Implicit Defensive.
Import GRing.Theory Num.Theory Order.TTheory.
Local Open Scope ring_scope.

Section Powers.
Variable R : comUnitRingType.

Lemma mxpowS n (M : 'M[R]_n) k : mxpow M k.+1 = M *m mxpow M k.
Proof. by []. Qed.

Lemma mxpowD n (M : 'M[R]_n) a b : mxpow M (a + b) = mxpow M a *m mxpow M b.
Proof. by elim: a => [|a IH]; rewrite ?mul1mx // addSn !mxpowS IH mulmxA. Qed.

Lemma mxpow1 n (M : 'M[R]_n) : mxpow M 1 = M.
Proof. by rewrite /mxpow /= mulmx1. Qed.

Lemma mxpowSr n (M : 'M[R]_n) k : mxpow M k.+1 = mxpow M k *m M.
Proof. by rewrite -addn1 mxpowD mxpow1. Qed.

Lemma trmx_mxpow n (M : 'M[R]_n) k : (mxpow M k)^T = mxpow M^T k.
Proof.
elim: k => [|k IH]; first exact: trmx1.
by rewrite mxpowS trmx_mul IH -mxpowSr.
Qed.

Lemma unitmx_mxpow n (M : 'M[R]_n) k : M \in unitmx -> mxpow M k \in unitmx.
Proof.
move=> HM. elim: k => [|k IH]; first exact: unitmx1.
by rewrite mxpowS unitmx_mul HM IH.
Qed.

Lemma mulmx1_invmx n (M N : 'M[R]_n) : M *m N = 1%:M -> invmx M = N.
Proof.
move=> H. have [HM _] := mulmx1_unit H. by rewrite -[LHS]mulmx1 -H mulmxA mulVmx // mul1mx.
Qed.

Lemma invmx_mul n (M N : 'M[R]_n) : M \in unitmx -> N \in unitmx ->
  invmx (M *m N) = invmx N *m invmx M.
Proof.
move=> HM HN. apply: mulmx1_invmx. rewrite mulmxA -[M *m N *m _]mulmxA mulmxV // mulmx1.
by rewrite mulmxV.
Qed.

Lemma invmx_mxpow n (M : 'M[R]_n) k : M \in unitmx -> invmx (mxpow M k) = mxpow (invmx M) k.
Proof.
move=> HM. elim: k => [|k IH]; first exact: invmx1.
by rewrite mxpowS invmx_mul ?unitmx_mxpow // IH -mxpowSr.
Qed.

End Powers.

Section Math.
Variable R : rcfType.

Lemma qformE n (M : 'M[R]_n) x : (x^T *m M *m x) = (qform M x)%:M.
Proof. by rewrite [LHS]mx11_scalar. Qed.

Lemma posdef_unit n (M : 'M[R]_n) : posdef M -> M \in unitmx.
Proof.
case=> Hs Hp. rewrite -row_free_unit -kermx_eq0. apply/negPn/negP => /rowV0Pn [v /sub_kermxP Hv Hvn].
have := Hp v^T. rewrite /qform trmxK Hv mul0mx mxE ltxx => H1.
suff : false by []. apply: H1. by rewrite -(inj_eq trmx_inj) trmxK trmx0.
Qed.

Lemma qform_gram n m (L : 'M[R]_(n, m)) x : qform (L *m L^T) x = \sum_i ((L^T *m x) i 0) ^+ 2.
Proof.
have E : x^T *m (L *m L^T) *m x = (L^T *m x)^T *m (L^T *m x) by rewrite trmx_mul trmxK !mulmxA.
rewrite /qform E mxE. apply: eq_bigr => i _. by rewrite [_^T _ _]mxE expr2.
Qed.

Lemma sumsq_gt0 n (x : 'cV[R]_n) : x != 0 -> 0 < \sum_i (x i 0) ^+ 2.
Proof.
move=> Hx. rewrite lt_neqAle sumr_ge0 ?andbT; last by move=> i _; rewrite sqr_ge0.
apply/eqP => E. case/negP: Hx. apply/eqP/matrixP => i j. rewrite ord1 mxE.
have : \sum_i (x i 0) ^+ 2 == 0 by rewrite -E.
rewrite psumr_eq0; last by move=> k _; rewrite sqr_ge0.
by move=> /allP /(_ i (mem_index_enum _)) /=; rewrite sqrf_eq0 => /eqP.
Qed.

Lemma gram_posdef n (L : 'M[R]_n) : L \in unitmx -> posdef (L *m L^T).
Proof.
move=> HL. split; first by rewrite trmx_mul trmxK.
move=> x Hx. rewrite qform_gram sumsq_gt0 //.
apply: contraNneq Hx => E. by rewrite -(mulKmx (_ : L^T \in unitmx) x) ?unitmx_tr // E mulmx0.
Qed.

Lemma congr_posdef n (M P : 'M[R]_n) : P \in unitmx -> posdef M -> posdef (P *m M *m P^T).
Proof.
move=> HP [Hs Hp]. split; first by rewrite !trmx_mul trmxK Hs mulmxA.
move=> x Hx. have -> : qform (P *m M *m P^T) x = qform M (P^T *m x).
{ by rewrite /qform !trmx_mul trmxK !mulmxA. }
apply: Hp. apply: contraNneq Hx => E.
by rewrite -(mulKmx (_ : P^T \in unitmx) x) ?unitmx_tr // E mulmx0.
Qed.

Lemma inv_posdef n (M : 'M[R]_n) : posdef M -> posdef (invmx M).
Proof.
move=> H. have HU := posdef_unit H. have [Hs _] := H.
have -> : invmx M = invmx M *m M *m (invmx M)^T.
{ by rewrite mulVmx // mul1mx trmx_inv Hs. }
by apply: congr_posdef; rewrite ?unitmx_inv.
Qed.

Lemma one_posdef n : posdef (1%:M : 'M[R]_n).
Proof. rewrite -[1%:M]mulmx1 -[X in _ *m X]trmx1. apply: gram_posdef. exact: unitmx1. Qed.

Lemma posdef_mxpow n (M : 'M[R]_n) k : posdef M -> posdef (mxpow M k).
Proof.
move=> H. have HU := posdef_unit H. have [Hs _] := H.
elim/ltn_ind: k => -[|[|k]] IH; [exact: one_posdef | by rewrite mxpow1 | ].
have -> : mxpow M k.+2 = M *m mxpow M k *m M^T by rewrite mxpowS mxpowSr mulmxA Hs.
by apply: congr_posdef => //; apply: IH.
Qed.

Lemma lower_pos_unit n (L : 'M[R]_n) : lower_pos L -> L \in unitmx.
Proof.
case=> HL HD. rewrite unitmxE det_trig; last by apply/is_trig_mxP.
by rewrite unitfE prodf_seq_neq0; apply/allP => i _ /=; rewrite gt_eqF ?HD.
Qed.

Lemma unit_lower_unit n (L : 'M[R]_n) : unit_lower L -> L \in unitmx.
Proof.
case=> HL HD. rewrite unitmxE det_trig; last by apply/is_trig_mxP.
by rewrite big1 ?unitr1.
Qed.

Lemma symlow_id n (M : 'M[R]_n) : M^T = M -> symlow M = M.
Proof.
move=> H. apply/matrixP => i j. rewrite mxE. case: leqP => // _. by rewrite -{1}H mxE.
Qed.

Lemma symlow_block n (a : 'M[R]_1) b c (M : 'M[R]_n) :
  symlow (block_mx a b c M : 'M_(1 + n)) = block_mx a c^T c (symlow M).
Proof.
apply/matrixP => i j; rewrite mxE.
case: (split_ordP i) => i' ->; case: (split_ordP j) => j' ->;
  rewrite ?block_mxEul ?block_mxEur ?block_mxEdl ?block_mxEdr ?mxE //=.
all: by rewrite !ord1.
Qed.

Lemma symlow_sub_gram n (M : 'M[R]_n) (w : 'cV[R]_n) :
  symlow (M - w *m w^T) = symlow M - w *m w^T.
Proof.
apply/matrixP => i j. rewrite [symlow (_ - _) i j]mxE [in RHS]mxE [symlow M i j]mxE.
case: leqP => _; rewrite mxE //. congr (_ + _). rewrite [LHS]mxE [RHS]mxE; congr (- _).
rewrite !mxE. apply: eq_bigr => k _. by rewrite !mxE mulrC.
Qed.

Lemma qform_block n (a : R) (c : 'cV[R]_n) (S : 'M[R]_n) (t : R) (y : 'cV[R]_n) :
  qform (block_mx a%:M c^T c S : 'M_(1 + n)) (col_mx t%:M y) =
  a * t ^+ 2 + t * (c^T *m y) 0 0 *+ 2 + qform S y.
Proof.
rewrite /qform tr_col_mx mul_row_block mul_row_col tr_scalar_mx !mul_scalar_mx mul_mx_scalar.
rewrite mulmxDl -scalemxAl.
have E : y^T *m c = (c^T *m y)^T by rewrite trmx_mul trmxK.
rewrite E. set w := c^T *m y. set v := y^T *m S *m y.
have -> : (w^T : 'M_1) = w by apply/matrixP => i j; rewrite !ord1 mxE.
rewrite !mxE eqxx mulr1n. rewrite addrA mulr2n. congr (_ + _).
by rewrite mulrDr [t * (t * a)]mulrA -expr2 [_ * a]mulrC addrA.
Qed.

Lemma qform_sub n (S : 'M[R]_n) (c y : 'cV[R]_n) k :
  qform (S - k *: (c *m c^T)) y = qform S y - k * ((c^T *m y) 0 0) ^+ 2.
Proof.
rewrite /qform mulmxBr mulmxBl -scalemxAr -scalemxAl mxE. congr (_ + _).
have -> : y^T *m (c *m c^T) *m y = (c^T *m y)^T *m (c^T *m y) by rewrite trmx_mul trmxK !mulmxA.
set w := c^T *m y. rewrite mxE mxE. congr (- (_ * _)). by rewrite mxE big_ord1 [w^T _ _]mxE expr2.
Qed.

Lemma schur_posdef n (a : R) (c : 'cV[R]_n) (S : 'M[R]_n) :
  posdef (block_mx a%:M c^T c S : 'M_(1 + n)) -> 0 < a /\ posdef (S - a^-1 *: (c *m c^T)).
Proof.
move=> [Hs Hp].
have Ha : 0 < a.
{ have := Hp (col_mx 1%:M 0). rewrite qform_block mulmx0 /qform mulmx0 !mxE expr1n mulr1 mulr0 mul0rn !addr0.
  apply. rewrite -col_mx0. apply/eqP => /eq_col_mx [/eqP]. by rewrite oner_eq0. }
split=> //. have HS : S^T = S.
{ move: Hs. rewrite tr_block_mx => /eq_block_mx [_ _ _ //]. }
split; first by rewrite linearB /= linearZ /= trmx_mul trmxK HS.
move=> y Hy. pose t := - (a^-1 * (c^T *m y) 0 0).
have := Hp (col_mx t%:M y). rewrite qform_block => H.
have {H} : 0 < a * t ^+ 2 + t * (c^T *m y) 0 0 *+ 2 + qform S y.
{ apply: H. rewrite -col_mx0. apply: contraNneq Hy => /eq_col_mx [_ ->]. by []. }
congr (0 < _). rewrite qform_sub. set u := (c^T *m y) 0 0.
rewrite addrC. congr (_ + _). rewrite /t -/u sqrrN exprMn expr2 !mulrA divff ?gt_eqF // mul1r.
rewrite mulNr -mulrA -expr2 mulr2n. set z := _ * _. by rewrite addrA subrr sub0r.
Qed.

(** A Cholesky factorisation; only the lower triangle of its argument is read. *)
Fixpoint chol_ref n : 'M[R]_n -> option 'M[R]_n :=
  match n return 'M[R]_n -> option 'M[R]_n with
  | 0 => fun A => Some A
  | n'.+1 => fun A : 'M_(1 + n') =>
      let a := ulsubmx A 0 0 in
      if a <= 0 then None else
      let l := Num.sqrt a in
      let w := l^-1 *: dlsubmx A in
      if chol_ref (drsubmx A - w *m w^T) is Some L then Some (block_mx l%:M 0 w L)
      else None
  end.

Lemma lower_pos_block n (l : R) w (L : 'M[R]_n) :
  0 < l -> lower_pos L -> lower_pos (block_mx l%:M 0 w L : 'M_(1 + n)).
Proof.
move=> Hl [H1 H2]. split.
- apply/is_trig_mxP. rewrite is_trig_block_mx // eqxx mx11_is_trig. by apply/is_trig_mxP.
- move=> i. case: (split_ordP i) => i' ->; rewrite ?block_mxEul ?block_mxEdr //.
  by rewrite mxE eqxx.
Qed.

Lemma block_gram n (l : R) w (L : 'M[R]_n) :
  (block_mx l%:M 0 w L : 'M_(1 + n)) *m (block_mx l%:M 0 w L : 'M_(1 + n))^T =
  block_mx (l ^+ 2)%:M (l *: w^T) (l *: w) (w *m w^T + L *m L^T).
Proof.
rewrite tr_block_mx tr_scalar_mx trmx0 mulmx_block !mulmx0 !mul0mx !addr0 -scalar_mxM -expr2.
by rewrite mul_scalar_mx mul_mx_scalar.
Qed.

Lemma chol_refP n (A : 'M[R]_n) :
  if chol_ref A is Some L then lower_pos L /\ L *m L^T = symlow A else ~ posdef (symlow A).
Proof.
elim: n A => [|n IH] A.
  split; first by split=> -[].
  by apply/matrixP => -[].
have [a [b [c [S EA]]]] : exists a b c S, A = block_mx a%:M b c S :> 'M_(1 + n).
{ exists (ulsubmx (A : 'M_(1 + n)) 0 0), (ursubmx (A : 'M_(1 + n))), (dlsubmx (A : 'M_(1 + n))), (drsubmx (A : 'M_(1 + n))).
  by rewrite -mx11_scalar submxK. }
rewrite EA symlow_block /= block_mxKul block_mxKdl block_mxKdr !mxE eqxx mulr1n.
have Es : posdef (block_mx a%:M c^T c (symlow S)) -> 0 < a /\ posdef (symlow (S - (Num.sqrt a)^-1 *: c *m ((Num.sqrt a)^-1 *: c)^T)).
{ move=> /schur_posdef [Ha]. split=> //. rewrite symlow_sub_gram linearZ /= -scalemxAr -scalemxAl scalerA.
  by rewrite -expr2 exprVn sqr_sqrtr ?ltW. }
case: ifPn => [Ha /Es [Ha'] |]; first by rewrite ltNge Ha in Ha'.
rewrite -ltNge => Ha. have := IH (S - (Num.sqrt a)^-1 *: c *m ((Num.sqrt a)^-1 *: c)^T).
case: chol_ref => [L [HL EL]|HN]; last by move=> /Es [].
split; first by apply: lower_pos_block; rewrite ?sqrtr_gt0.
apply: (etrans (block_gram _ _ _)).
rewrite sqr_sqrtr ?ltW //.
rewrite linearZ /= scalerA divff ?gt_eqF ?sqrtr_gt0 // scale1r.
rewrite scalerA divff ?gt_eqF ?sqrtr_gt0 // scale1r.
congr block_mx. rewrite EL symlow_sub_gram [in X in _ - X]linearZ /=. by rewrite addrC subrK.
Qed.

Lemma chol_ref_posdef n (A : 'M[R]_n) : posdef A -> exists L, lower_pos L /\ A = L *m L^T.
Proof.
move=> H. have := chol_refP A. rewrite symlow_id ?(proj1 H) //. by case: chol_ref => [L [HL E]|//]; exists L.
Qed.

Lemma lower_posdef n (L : 'M[R]_n) : lower_pos L -> posdef (L *m L^T).
Proof. move=> H. exact: gram_posdef (lower_pos_unit H). Qed.

(** Factorisations into a unit lower and an upper triangular matrix. *)
Lemma unit_lower_block n (L : 'M[R]_(1 + n)) : unit_lower L ->
  exists l (L' : 'M[R]_n), L = block_mx 1%:M 0 l L' :> 'M_(1 + n) /\ unit_lower L'.
Proof.
move=> [H1 H2]. exists (dlsubmx (L : 'M_(1 + n))), (drsubmx (L : 'M_(1 + n))). split.
- rewrite -[LHS](@submxK _ 1 n 1 n). congr (block_mx (_ : 'M_1) _ _ _).
  + apply/matrixP => i j. rewrite !ord1 !mxE /=. rewrite -[RHS](H2 0). congr (L _ _); exact: val_inj.
  + apply/matrixP => i j. rewrite !mxE H1 //=. by rewrite ord1.
- split=> [i j Hij|i]; rewrite !mxE ?H2 // H1 //=.
Qed.

Lemma upper_block n (U : 'M[R]_(1 + n)) : upper U ->
  exists u r (U' : 'M[R]_n), [/\ U = block_mx u%:M r 0 U' :> 'M_(1 + n), upper U',
    U ord0 ord0 = u & forall i, U (lift ord0 i) (lift ord0 i) = U' i i].
Proof.
move=> H. exists (ulsubmx (U : 'M_(1 + n)) 0 0), (ursubmx (U : 'M_(1 + n))), (drsubmx (U : 'M_(1 + n))).
split.
- rewrite -[LHS](@submxK _ 1 n 1 n). congr (block_mx (_ : 'M_1) _ _ _).
  + by rewrite [LHS]mx11_scalar.
  + apply/matrixP => i j. rewrite !mxE H //=. by rewrite ord1.
- move=> i j Hij. by rewrite !mxE H.
- rewrite !mxE. congr (U _ _); exact: val_inj.
- move=> i. rewrite !mxE. congr (U _ _); exact: val_inj.
Qed.

Definition diag_of n (U : 'M[R]_n) : 'M[R]_n := diag_mx (\row_i U i i).

Lemma diag_of_block n u r (U : 'M[R]_n) :
  diag_of (block_mx u%:M r 0 U : 'M_(1 + n)) = block_mx u%:M 0 0 (diag_of U).
Proof.
apply/matrixP => i j. rewrite /diag_of mxE [(\row__ _) _ _]mxE.
case: (split_ordP i) => i' ->; case: (split_ordP j) => j' ->;
  rewrite ?block_mxEul ?block_mxEur ?block_mxEdl ?block_mxEdr.
- by rewrite !ord1 !mxE !eqxx.
- by rewrite eq_lrshift mulr0n mxE.
- by rewrite eq_rlshift mulr0n mxE.
- by rewrite eq_rshift !mxE.
Qed.

Lemma LU_sym n (L U : 'M[R]_n) : unit_lower L -> upper U -> (L *m U)^T = L *m U ->
  U = diag_of U *m L^T.
Proof.
elim: n L U => [|n IH]; first by move=> L U _ _ _; apply/matrixP => -[].
rewrite -[n.+1]/(1 + n)%N => L U HL HU.
have [l [L' [-> HL']]] := unit_lower_block HL. have [u [r [U' [-> HU' _ _]]]] := upper_block HU.
rewrite diag_of_block tr_block_mx trmx0 !mulmx_block tr_block_mx.
rewrite !mulmx0 !mul0mx ?addr0 ?add0r trmx1 !mul1mx ?mulmx1.
move=> /eq_block_mx [_ E1 E2 E3]. rewrite mul_scalar_mx.
have Er : r = u *: l^T by rewrite -E1 mul_mx_scalar linearZ.
rewrite -Er. congr block_mx. apply: IH => //.
move: E3. rewrite linearD /= {1}Er trmx_mul linearZ /= trmxK -scalemxAl Er -scalemxAr => /addrI. by [].
Qed.

Lemma LU_unique n (L1 U1 L2 U2 : 'M[R]_n) :
  unit_lower L1 -> upper U1 -> unit_lower L2 -> upper U2 -> (forall i, U1 i i != 0) ->
  L1 *m U1 = L2 *m U2 -> L1 = L2 /\ U1 = U2.
Proof.
elim: n L1 U1 L2 U2 => [|n IH].
  by move=> *; split; apply/matrixP => -[].
rewrite -[n.+1]/(1 + n)%N => L1 U1 L2 U2 HL1 HU1 HL2 HU2 HN.
have [l1 [L1' [-> HL1']]] := unit_lower_block HL1. have [u1 [r1 [U1' [E1 HU1' Eu Ed]]]] := upper_block HU1.
have [l2 [L2' [-> HL2']]] := unit_lower_block HL2. have [u2 [r2 [U2' [-> HU2' _ _]]]] := upper_block HU2.
have Hu : u1 != 0 by rewrite -Eu. have Hd i : U1' i i != 0 by rewrite -Ed.
rewrite E1 !mulmx_block !mulmx0 !mul0mx ?addr0 ?add0r !mul1mx.
move=> /eq_block_mx [/(congr1 (fun M : 'M_1 => M 0 0)) E Er El ES].
rewrite !mxE eqxx !mulr1n in E. rewrite -E -Er in El ES *.
have {}El : l1 = l2.
{ move: El. rewrite !mul_mx_scalar => /(congr1 (fun M => u1^-1 *: M)). by rewrite !scalerA mulVf // !scale1r. }
rewrite -El in ES *. move: ES => /addrI /(IH _ _ _ _ HL1' HU1' HL2' HU2' Hd) [-> ->]. by [].
Qed.

Lemma diag_ofE n (U : 'M[R]_n) i : diag_of U i i = U i i.
Proof. by rewrite /diag_of mxE eqxx mulr1n mxE. Qed.

Lemma qform_delta n (M : 'M[R]_n) i : qform M (delta_mx i 0) = M i i.
Proof. by rewrite /qform trmx_delta -rowE -colE !mxE. Qed.

Lemma posdef_diag n (M : 'M[R]_n) i : posdef M -> 0 < M i i.
Proof.
move=> [_ H]. rewrite -qform_delta. apply: H. apply/eqP => /matrixP /(_ i 0).
by rewrite !mxE !eqxx => /eqP; rewrite oner_eq0.
Qed.

Lemma LU_posdef n (L U : 'M[R]_n) : unit_lower L -> upper U -> posdef (L *m U) ->
  forall i, 0 < U i i.
Proof.
move=> HL HU HP i. have HLU := unit_lower_unit HL.
rewrite -diag_ofE. apply: posdef_diag. have E := LU_sym HL HU (proj1 HP).
have -> : diag_of U = invmx L *m (L *m U) *m (invmx L)^T.
{ rewrite {2}E mulKmx // -mulmxA trmx_inv mulmxV ?unitmx_tr // mulmx1. by []. }
by apply: congr_posdef; rewrite ?unitmx_inv.
Qed.

Lemma posdef_LU n (A : 'M[R]_n) : posdef A ->
  exists L U, [/\ unit_lower L, upper U, (forall i, U i i != 0) & A = L *m U].
Proof.
move=> H. have [C [[H1 H2] ->]] := chol_ref_posdef H.
pose D := diag_mx (\row_i (C i i)). pose D' := diag_mx (\row_i (C i i)^-1).
exists (C *m D'), (D *m C^T). split.
- split=> [i j Hij|i]; rewrite mul_mx_diag !mxE; first by rewrite (H1 _ _ Hij) mul0r.
  by rewrite divff ?gt_eqF.
- move=> i j Hij. by rewrite mul_diag_mx !mxE (H1 j i) ?mulr0.
- move=> i. by rewrite mul_diag_mx !mxE mulf_neq0 ?gt_eqF.
- rewrite mulmxA -(mulmxA C). have -> : D' *m D = 1%:M; last by rewrite mulmx1.
  apply/matrixP => i j. rewrite mul_diag_mx !mxE. case: eqP => [->|_]; last by rewrite mulr0n mulr0.
  by rewrite !mulr1n mulVf ?gt_eqF.
Qed.

Lemma det_upper n (U : 'M[R]_n) : upper U -> \det U = \prod_i U i i.
Proof.
move=> H. rewrite -det_tr det_trig; first by apply: eq_bigr => i _; rewrite mxE.
by apply/is_trig_mxP => i j Hij; rewrite mxE H.
Qed.

Lemma det_unit_lower n (L : 'M[R]_n) : unit_lower L -> \det L = 1.
Proof. move=> [H1 H2]. rewrite det_trig ?big1 //. by apply/is_trig_mxP. Qed.

Lemma det_lower_pos n (L : 'M[R]_n) : lower_pos L -> \det L = \prod_i L i i.
Proof. move=> [H1 H2]. rewrite det_trig //. by apply/is_trig_mxP. Qed.

Lemma det_posdef n (A : 'M[R]_n) : posdef A -> 0 < \det A.
Proof.
move=> H. have [C [HC ->]] := chol_ref_posdef H.
rewrite det_mulmx det_tr det_lower_pos // mulr_gt0 // prodr_gt0 // => i _; exact: (proj2 HC).
Qed.

(** M^T M is positive definite if and only if the columns of M are independent. *)
Lemma gram_rank n m (M : 'M[R]_(n, m)) :
  (forall x : 'cV[R]_m, x != 0 -> M *m x != 0) -> posdef (M^T *m M).
Proof.
move=> H. split; first by rewrite trmx_mul trmxK.
move=> x Hx. have E : M^T *m M = M^T *m (M^T)^T by rewrite trmxK.
by rewrite E qform_gram trmxK sumsq_gt0 // H.
Qed.

(** Gaussian elimination without exchanges; None if a pivot is zero. *)
Fixpoint lu_ref n : 'M[R]_n -> option ('M[R]_n * 'M[R]_n) :=
  match n return 'M[R]_n -> option ('M[R]_n * 'M[R]_n) with
  | 0 => fun A => Some (A, A)
  | n'.+1 => fun A : 'M_(1 + n') =>
      let u := ulsubmx A 0 0 in
      if u == 0 then None else
      let l := u^-1 *: dlsubmx A in
      let r := ursubmx A in
      if lu_ref (drsubmx A - l *m r) is Some (L, U) then
        Some (block_mx 1%:M 0 l L, block_mx u%:M r 0 U)
      else None
  end.

Lemma lu_ref_sound n (A L U : 'M[R]_n) : lu_ref A = Some (L, U) ->
  [/\ unit_lower L, upper U & A = L *m U].
Proof.
elim: n A L U => [|n IH].
  by move=> A L U [<- <-]; split; [split=> -[] | case | apply/matrixP => -[]].
rewrite -[n.+1]/(1 + n)%N => A L U.
rewrite -[A]submxK [ulsubmx A]mx11_scalar. move: (ulsubmx A 0 0) => u. move: (ursubmx A) => r.
move: (dlsubmx A) (drsubmx A) => c S {A}.
rewrite /= !(block_mxKul, block_mxKur, block_mxKdl, block_mxKdr) mxE eqxx mulr1n.
case: eqP => // /eqP Hu. case E : (lu_ref _) => [[L' U']|//] [<- <-].
have [[H1 H2] H3 H4] := IH _ _ _ E. split.
- split=> [i j|i].
  + case: (split_ordP i) => i' ->; case: (split_ordP j) => j' ->;
      rewrite ?block_mxEul ?block_mxEur ?block_mxEdl ?block_mxEdr ?mxE //=; try (by rewrite !ord1); try exact: H1.
  + case: (split_ordP i) => i' ->; rewrite ?block_mxEul ?block_mxEdr ?mxE //.
    by rewrite eqxx.
- move=> i j. case: (split_ordP i) => i' ->; case: (split_ordP j) => j' ->;
    rewrite ?block_mxEul ?block_mxEur ?block_mxEdl ?block_mxEdr ?mxE //=; try (by rewrite !ord1); try exact: H3.
- rewrite mulmx_block !mulmx0 !mul0mx !mul1mx !addr0 -H4 mul_mx_scalar scalerA divff // scale1r.
  by rewrite addrC subrK.
Qed.

Lemma lu_ref_complete n (L U : 'M[R]_n) : unit_lower L -> upper U -> (forall i, U i i != 0) ->
  lu_ref (L *m U) != None.
Proof.
elim: n L U => [//|n IH]. rewrite -[n.+1]/(1 + n)%N => L U HL HU HN.
have [l [L' [-> HL']]] := unit_lower_block HL. have [u [r [U' [EU HU' Eu Ed]]]] := upper_block HU.
have Hu : u != 0 by rewrite -Eu. have Hd i : U' i i != 0 by rewrite -Ed.
rewrite EU mulmx_block !mulmx0 !mul0mx !mul1mx !addr0.
rewrite /= !(block_mxKul, block_mxKur, block_mxKdl, block_mxKdr) mxE eqxx mulr1n (negbTE Hu).
rewrite mul_mx_scalar scalerA mulVf // scale1r [_ + L' *m U']addrC addrK.
by have := IH _ _ HL' HU' Hd; case: lu_ref => // -[].
Qed.

(** The permutation of a permutation matrix. *)
Definition perm_of_mx n (P : 'M[R]_n) : 'S_n := odflt 1%g [pick s | P == perm_mx s].

Lemma perm_of_mxP n (P : 'M[R]_n) : is_perm_mx P -> P = perm_mx (perm_of_mx P).
Proof.
rewrite /is_perm_mx /perm_of_mx => /existsP [s Hs]. case: pickP => [t /eqP //|/(_ s)].
by rewrite Hs.
Qed.

(** Gaussian elimination, with exchanges only if it fails without. *)
Definition splu_ref n : 'M[R]_n -> option ('S_n * 'M[R]_n * 'M[R]_n) :=
  match n return 'M[R]_n -> option ('S_n * 'M[R]_n * 'M[R]_n) with
  | 0 => fun A => Some (1%g, A, A)
  | n'.+1 => fun A =>
      if lu_ref A is Some (L, U) then Some (1%g, L, U)
      else let: (P, L, U) := cormen_lup A in Some (perm_of_mx P, L, U)
  end.

Lemma splu_refP n (A : 'M[R]_n) :
  if splu_ref A is Some (s, L, U) then
    [/\ unit_lower L, upper U & L *m U = row_perm s A]
  else A \notin unitmx.
Proof.
case: n A => [|n] A; first by split; [split=> -[] | case | apply/matrixP => -[]].
rewrite /splu_ref. case E : (lu_ref A) => [[L U]|].
  have [H1 H2 H3] := lu_ref_sound E. split=> //. by rewrite row_perm1.
have := cormen_lup_perm A. have := cormen_lup_correct A.
have := @cormen_lup_lower _ _ A. have := @cormen_lup_upper _ _ A.
case: (cormen_lup A) => [[P L] U] /= HU HL HC /perm_of_mxP HP. split.
- split=> [i j Hij|i]; rewrite HL ?leqnn ?eqxx // ?(ltnW Hij) //. case: eqP Hij => // ->. by rewrite ltnn.
- move=> i j Hij. exact: HU.
- by rewrite row_permE -HP.
Qed.

Lemma splu_ref_no_exchange n (A L' U' : 'M[R]_n) s L U :
  unit_lower L' -> upper U' -> (forall i, U' i i != 0) -> A = L' *m U' ->
  splu_ref A = Some (s, L, U) -> s = 1%g.
Proof.
case: n A L' U' s L U => [|n] A L' U' s L U H1 H2 H3 ->; first by case.
rewrite /splu_ref. have := lu_ref_complete H1 H2 H3. case: lu_ref => [[L0 U0] _ [] //|]. by [].
Qed.

End Math.
