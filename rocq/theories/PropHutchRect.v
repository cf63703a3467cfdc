(** * C64: the Hutchinson method on the Gramian of a rectangular matrix *)
From mathcomp Require Import all_ssreflect all_algebra.
From mathcomp Require Import zify.
From Verif Require Import Mem HutchRectModel.
From Verif Require HutchModel.

Set Implicit Arguments.
Unset Strict Implicit.
Unset Printing Implicit Defensive.

Import Order.TTheory GRing.Theory Num.Theory.
Local Open Scope ring_scope.

Section C64.
Variable R : numFieldType.

Lemma dotE n m k (X : 'M[R]_(n, m)) (Y : 'M_(m, k)) :
  dot (Array X) (Array Y) = Some (Array (X *m Y)).
Proof. by rewrite /dot /=; case: eqP => // e; rewrite (eq_axiomK e) castmx_id. Qed.

Lemma dot_neq n m m' k (X : 'M[R]_(n, m)) (Y : 'M_(m', k)) : m <> m' ->
  dot (Array X) (Array Y) = None.
Proof. by rewrite /dot /=; case: eqP. Qed.

Lemma solveE n (X : 'M[R]_n) (b : 'cV_n) :
  linear_solver (Array X) (Array b) =
  if X \in unitmx then Some (Array (invmx X *m b)) else None.
Proof.
  rewrite /linear_solver /=. case: eqP => // e.
  by rewrite (eq_axiomK e) !castmx_id.
Qed.

Lemma solve_neq n m k (X : 'M[R]_(n, m)) (b : 'cV_k) : (n <> m \/ m <> k) ->
  linear_solver (Array X) (Array b) = None.
Proof.
  rewrite /linear_solver /=. case: (@eqP _ n m) => // e. case: (@eqP _ m k) => // e'.
  by case.
Qed.

Lemma flatE n (v : 'cV[R]_n) : flat (Array v) = [seq v i 0 | i <- enum 'I_n].
Proof.
  rewrite /flat /=. apply: eq_map => i.
  case: insubP => //= j _ Hj. congr (v i _). exact: val_inj.
Qed.

Lemma rd_flat n (v : 'cV[R]_n) (i : 'I_n) : rd (flat (Array v)) i = Some (v i 0).
Proof.
  have Hi : (i < size (flat (Array v)))%N by rewrite flatE size_map size_enum_ord ltn_ord.
  by rewrite (rdE 0 Hi) flatE (nth_map i) ?size_enum_ord // nth_ord_enum.
Qed.

Lemma inner_from n (x y : 'cV[R]_n) k i acc : (i + k = n)%N ->
  inner_product (flat (Array x)) (flat (Array y)) k i acc =
  Some (acc + \sum_(j < n | (i <= j)%N) x j 0 * y j 0).
Proof.
  elim: k i acc => [|k IH] i acc H /=.
    by rewrite big1 ?addr0 // => j Hj; case: j Hj => j Hj /=; lia.
  have Hi : (i < n)%N by lia.
  rewrite -[i]/(val (Ordinal Hi)) !rd_flat /= IH; last by lia.
  congr Some. rewrite -addrA. congr (_ + _).
  rewrite [RHS](bigD1 (Ordinal Hi)) //=. congr (_ + _).
  apply: eq_bigl => j. by rewrite ltn_neqAle andbC eq_sym.
Qed.

Lemma innerE n (x y : 'cV[R]_n) :
  inner_product (flat (Array x)) (flat (Array y)) n 0 0 =
  Some (HutchModel.inner_product x y).
Proof.
  by rewrite inner_from // add0r.
Qed.

(** For square matrices this is the sample of HutchModel.v (C38). *)
Definition arr n (X : option 'M[R]_n) : option (array R) := omap (fun X => Array X) X.

Lemma repeatE n (f : array R -> option (array R)) (g : 'cV[R]_n -> option 'cV[R]_n) k v :
  (forall v, f (Array v) = omap (fun w => Array w) (g v)) ->
  repeat f k (Array v) = omap (fun w => Array w) (HutchModel.repeat g k v).
Proof.
  move=> H. rewrite /repeat /HutchModel.repeat. elim: k => //= k ->.
  by case: (iter k _ _) => //= w; rewrite H.
Qed.

Lemma operatorE n (A : 'M[R]_n) AtA p gram B (E : 'cV[R]_n) :
  operator_dot (Array A) (arr AtA) p gram (arr B) (Array E) =
  omap (fun w => Array w) (HutchModel.operator_dot A AtA p gram B E).
Proof.
  rewrite /operator_dot /HutchModel.operator_dot.
  have -> : (if arr B is Some B then dot B (Array E) else Some (Array E)) =
            Some (Array (if B is Some B then B *m E else E)).
    by case: B => //= B; rewrite dotE.
  rewrite [obind _ (Some _)]/=. set BE := (if B is Some B then _ else _).
  have S X v : linear_solver (Array X) (Array v) =
     omap (fun w : 'cV[R]_n => Array w) (HutchModel.solve (Some X) v).
    by rewrite solveE /=; case: ifP.
  case: ifP => // _. case: ifP => _.
    case: gram; last by rewrite S.
    case: B @BE => [B|] BE /=; last by rewrite S.
    by case: AtA => //= G; rewrite S.
  case: ifP => Hp.
    case: gram; last by apply: repeatE => v; rewrite S.
    case: AtA => [G|] /=; first by apply: repeatE => v; rewrite S.
    have -> : absz p = (absz p).-1.+1 by lia.
    rewrite /HutchModel.repeat iterS. by case: (iter _ _ _).
  by case: ifP => // _; rewrite dotE.
Qed.

Lemma is_none_arr n (B : option 'M[R]_n) : is_none (arr B) = (B == None).
Proof. by case: B. Qed.

Lemma repeat_none (f : array R -> option (array R)) k v : f v = None -> (0 < k)%N ->
  repeat f k v = None.
Proof.
  case: k => // k H _. rewrite /repeat iterSr /= H. by elim: k => //= k ->.
Qed.

Theorem C64_square n (A : 'M[R]_n) (B C : option 'M[R]_n) gram p (E : 'cV[R]_n) :
  hutchinson_sample (A := Array A) (arr B) (arr C) gram p E =
  HutchModel.hutchinson_sample A B C gram p E.
Proof.
  rewrite /hutchinson_sample /HutchModel.hutchinson_sample.
  have -> : gramian (Array A) gram p (arr B) (arr C) =
            Some (arr (HutchModel.gramian A gram p B C)).
    rewrite /gramian /HutchModel.gramian !is_none_arr. case: gram => //.
    by case: ifP => // _; rewrite /transpose dotE.
  rewrite [LHS]/= /estimator /HutchModel.estimator !is_none_arr.
  case: ifP => // _. rewrite operatorE.
  case: (HutchModel.operator_dot _ _ _ _ B E) => //= w.
  have -> : (if arr C is Some _ then operator_dot (Array A)
       (arr (HutchModel.gramian A gram p B C)) p gram (arr C) (Array w) else Some (Array w)) =
     omap (fun w => Array w) (if C is Some _ then
       HutchModel.operator_dot A (HutchModel.gramian A gram p B C) p gram C w else Some w).
    by case: C => // C; rewrite operatorE.
  case: (if C is Some _ then _ else _) => //= v.
  by case: ifP => _; rewrite innerE.
Qed.

(** The matrices [B] and [C] that fit the documented expression have the shape
    of [A^T A]. *)
Definition fits m (B : option (array R)) : Prop :=
  forall X, B = Some X -> rows X = m /\ cols X = m.

(** For every matrix that is not square no call with gram=True gives a value,
    whatever the exponent, the vector, and [B] and [C], except for p = 0
    without [B], where the value is the number of rows ... *)
Theorem C64_rectangular_refuted n m (A : 'M[R]_(n, m)) (B C : option (array R)) p
    (E : 'cV[R]_n) :
  n <> m -> fits m B -> (B = None -> C = None) ->
  hutchinson_sample (A := Array A) B C true p E =
  if (p == 0) && is_none B then Some (n%:R * \sum_i E i 0 * E i 0) else None.
Proof.
  move=> Hnm HB HC. rewrite /hutchinson_sample.
  case: B HB HC => [B|] HB HC.
    rewrite andbF. case: (gramian (Array A) true p (Some B) C) => //= AtA. rewrite /estimator.
    case: ifP => // _. rewrite /operator_dot /=.
    have [Er Ec] := HB B erefl. case: B Er Ec {HB HC} => r c B /= Er Ec.
    by rewrite dot_neq //; rewrite Ec => H; apply: Hnm.
  rewrite (HC erefl) andbT /=.
  case: (p =P 0) => [->|Hp0].
    by rewrite /transpose dotE /= /estimator /= innerE.
  have D (X : option (array R)) : (p == 1 \/ X = Some (Array (A^T *m A))) ->
     estimator (Array A) X None None (Array E) true p = None.
    move=> HX. rewrite /estimator. case: ifP => // _. rewrite /operator_dot /=.
    have -> : (p == 0) = false by apply/eqP.
    case: ifP => [_|Hp1].
      by rewrite /transpose /= solve_neq //; left=> H; apply: Hnm.
    case: HX => [H|->]; first by rewrite H in Hp1.
    case: ifP => [Hp2|Hp2]; last first.
      by case: ifP => // _; rewrite dot_neq // => H; apply: Hnm.
    rewrite [obind _ _]/= -/(repeat _ _ _) repeat_none //; last by lia.
    by apply: solve_neq; right=> H; apply: Hnm.
  case: (p =P 1) => [E1|E1] /=; first by rewrite D //; left; apply/eqP.
  by rewrite /transpose dotE /= D //; right.
Qed.

(** ... while the documented value is the trace of the identity of the size of
    the Gramian, the number of columns. *)
Theorem C64_wrong_refuted n m (A : 'M[R]_(n, m)) (E : 'cV[R]_n) : n <> m ->
  \sum_i E i 0 * E i 0 = 1 ->
  exists2 t, hutchinson_sample (A := Array A) None None true 0 E = Some t &
    t = n%:R /\ t <> \tr (1%:M : 'M[R]_m).
Proof.
  move=> Hnm HE. rewrite C64_rectangular_refuted //= HE mulr1.
  eexists; first by []. split=> //. rewrite mxtrace1 => /eqP.
  by rewrite eqr_nat => /eqP.
Qed.

End C64.

(** A column of two entries is such a matrix. *)
Example C64_rectangular_ex (R : numFieldType) (p : int) : p != 0 ->
  hutchinson_sample (A := Array (const_mx 1 : 'cV[R]_2)) None None true p
    (delta_mx 0 0) = None.
Proof. by move=> Hp; rewrite C64_rectangular_refuted // (negbTE Hp). Qed.

Example C64_wrong_ex (R : numFieldType) :
  hutchinson_sample (A := Array (const_mx 1 : 'cV[R]_2)) None None true 0
    (delta_mx 0 0) = Some 2%:R.
Proof.
  rewrite C64_rectangular_refuted //= big_ord_recl big_ord1 !mxE /=.
  by rewrite mulr0 addr0 !mulr1.
Qed.

(** For a square matrix the samples are those of C38: a 1 by 1 matrix. *)
Example C64_square_ex (R : numFieldType) :
  hutchinson_sample (A := Array (2%:R%:M : 'M[R]_1)) (arr (Some (1%:M : 'M[R]_1))) None true 0
    (const_mx 1) = HutchModel.hutchinson_sample (2%:R%:M : 'M[R]_1) (Some 1%:M) None true 0 (const_mx 1).
Proof. exact: (@C64_square R 1 _ (Some 1%:M) None). Qed.

Definition C64_assumptions := (@C64_square, @C64_rectangular_refuted, @C64_wrong_refuted).
Print Assumptions C64_assumptions.
