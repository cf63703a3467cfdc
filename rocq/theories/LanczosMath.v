(** The Lanczos recursion on vectors: orthonormality, the projected matrix and
    the Gauss quadrature property. *)
From mathcomp Require Import all_ssreflect all_algebra zify.
From Verif Require Import LanczosSpec.
Set Implicit Arguments.
Unset Strict Implicit.
Unset Printing Implicit Defensive.
Import GRing.Theory Num.Theory Order.TTheory.
Local Open Scope ring_scope.

Section Dot.
Variable R : rcfType.

Lemma ipE n (x y : 'cV[R]_n) : ip x y = (x^T *m y) 0 0.
Proof. rewrite mxE. by apply: eq_bigr => i _; rewrite mxE. Qed.

Lemma ipC n (x y : 'cV[R]_n) : ip x y = ip y x.
Proof. by apply: eq_bigr => i _; rewrite mulrC. Qed.

Lemma ipDr n (x y z : 'cV[R]_n) : ip x (y + z) = ip x y + ip x z.
Proof. rewrite -big_split. by apply: eq_bigr => i _; rewrite mxE mulrDr. Qed.

Lemma ipZr n (x y : 'cV[R]_n) a : ip x (a *: y) = a * ip x y.
Proof. rewrite mulr_sumr. by apply: eq_bigr => i _; rewrite mxE mulrCA. Qed.

Lemma ipNr n (x y : 'cV[R]_n) : ip x (- y) = - ip x y.
Proof. by rewrite -scaleN1r ipZr mulN1r. Qed.

Lemma ipBr n (x y z : 'cV[R]_n) : ip x (y - z) = ip x y - ip x z.
Proof. by rewrite ipDr ipNr. Qed.

Lemma ip0r n (x : 'cV[R]_n) : ip x 0 = 0.
Proof. by rewrite -(scale0r x) ipZr mul0r. Qed.

Lemma ip_ge0 n (x : 'cV[R]_n) : 0 <= ip x x.
Proof. apply: sumr_ge0 => i _. by rewrite -expr2 sqr_ge0. Qed.

Lemma ip_eq0 n (x : 'cV[R]_n) : (ip x x == 0) = (x == 0).
Proof.
  apply/eqP/eqP => [H|->]; last by rewrite ip0r.
  apply/matrixP => i j. rewrite ord1 mxE. apply/eqP. rewrite -sqrf_eq0 expr2.
  apply/eqP. apply: (psumr_eq0P _ H) => // k _. by rewrite -expr2 sqr_ge0.
Qed.

Lemma nrm_ge0 n (x : 'cV[R]_n) : 0 <= nrm x. Proof. exact: sqrtr_ge0. Qed.

Lemma nrm_sqr n (x : 'cV[R]_n) : nrm x ^+ 2 = ip x x.
Proof. by rewrite sqr_sqrtr // ip_ge0. Qed.

Lemma nrm_eq0 n (x : 'cV[R]_n) : (nrm x == 0) = (x == 0).
Proof. by rewrite -ip_eq0 -nrm_sqr sqrf_eq0. Qed.

Lemma ip_adj n (A : 'M[R]_n) (x y : 'cV[R]_n) : ip x (A *m y) = ip (A^T *m x) y.
Proof. by rewrite !ipE trmx_mul trmxK mulmxA. Qed.

Lemma ip_normalised n (x : 'cV[R]_n) : x != 0 -> ip ((nrm x)^-1 *: x) ((nrm x)^-1 *: x) = 1.
Proof.
  move=> Hx. have H : nrm x != 0 by rewrite nrm_eq0.
  by rewrite ipZr ipC ipZr -nrm_sqr expr2 mulKf // mulVf.
Qed.

End Dot.

Section Lanczos.
Variable R : rcfType.
Variable n : nat.
Variable A : 'M[R]_n.
Variable v : 'cV[R]_n.

(** (previous vector, current vector, previous off-diagonal coefficient) *)
Fixpoint lzst (j : nat) : 'cV[R]_n * 'cV[R]_n * R :=
  if j is j'.+1 then
    let: (p, q, b) := lzst j' in
    let r := A *m q - ip q (A *m q) *: q - b *: p in
    (q, (nrm r)^-1 *: r, nrm r)
  else (0, (nrm v)^-1 *: v, 0).

Definition lzp j := (lzst j).1.1.
Definition lzq j := (lzst j).1.2.
Definition lzbp j := (lzst j).2.
Definition lza j := ip (lzq j) (A *m lzq j).
Definition lzr j := A *m lzq j - lza j *: lzq j - lzbp j *: lzp j.
Definition lzb j := nrm (lzr j).

Lemma lzpS j : lzp j.+1 = lzq j.
Proof. rewrite /lzp /lzq /=. by case: (lzst j) => [[p q] b]. Qed.
Lemma lzqS j : lzq j.+1 = (lzb j)^-1 *: lzr j.
Proof. rewrite /lzb /lzr /lza /lzp /lzq /lzbp /=. by case: (lzst j) => [[p q] b]. Qed.
Lemma lzbpS j : lzbp j.+1 = lzb j.
Proof. rewrite /lzb /lzr /lza /lzp /lzq /lzbp /=. by case: (lzst j) => [[p q] b]. Qed.

Hypothesis A_sym : A^T = A.
Hypothesis v_nz : v != 0.

Definition alive k := forall j, (j < k)%N -> lzb j != 0.

Lemma alive_le k k' : (k <= k')%N -> alive k' -> alive k.
Proof. move=> H Ha j Hj. apply: Ha. exact: leq_trans H. Qed.

Lemma lz_three j : lzb j != 0 ->
  A *m lzq j = lzb j *: lzq j.+1 + lza j *: lzq j + lzbp j *: lzp j.
Proof.
  move=> Hb. rewrite lzqS scalerA mulfV // scale1r /lzr.
  by rewrite addrAC subrK subrK.
Qed.

(** The residual is orthogonal to all vectors so far. *)
Lemma lz_residual_step k : alive k ->
  (forall i j, (i <= k)%N -> (j <= k)%N -> ip (lzq i) (lzq j) = (i == j)%:R) ->
  forall i, (i <= k)%N -> ip (lzq i) (lzr k) = 0.
Proof.
  move=> Ha Hk i Hi. rewrite /lzr !ipBr !ipZr.
  have Hp : forall i k, (i <= k)%N -> alive k ->
     (forall i j, (i <= k)%N -> (j <= k)%N -> ip (lzq i) (lzq j) = (i == j)%:R) ->
     ip (lzq k) (lzp i) = 0.
  { move=> {i Hi} [|i] k' Hi Ha' Hk'; first by rewrite /lzp /= ip0r.
    rewrite lzpS Hk' ?gtn_eqF //; lia. }
  case: (ltngtP i k) Hi => // [Hi _|Ei _]; last first.
  { by rewrite Ei Hk // eqxx mulr1 /lza subrr sub0r Hp // mulr0 oppr0. }
  rewrite Hk ?(ltnW Hi) // (ltn_eqF Hi) mulr0 subr0 ip_adj A_sym lz_three; last exact: Ha.
  rewrite ipC !ipDr !ipZr (Hk k i) ?(ltnW Hi) // (gtn_eqF Hi) mulr0 addr0.
  rewrite Hp ?(ltnW Hi) // mulr0 addr0 Hk // eq_sym.
  case: k Ha Hk Hi => [|k] Ha Hk Hi //.
  rewrite lzpS lzbpS eqSS (Hk i k) ?(ltnW Hi) //.
  case: (eqVneq i k) => [->|_]; by rewrite ?mulr1 ?mulr0 subrr.
Qed.

(** The vectors are orthonormal as long as the recursion does not break. *)
Lemma lz_orthonormal k : alive k ->
  forall i j, (i <= k)%N -> (j <= k)%N -> ip (lzq i) (lzq j) = (i == j)%:R.
Proof.
  elim: k => [|k IH] Ha.
  - move=> i j. rewrite !leqn0 => /eqP -> /eqP ->. rewrite eqxx. exact: ip_normalised.
  - have Hk := IH (alive_le (leqnSn k) Ha).
    have Hnz : lzr k != 0 by rewrite -nrm_eq0; apply: Ha.
    have Hr := lz_residual_step (alive_le (leqnSn k) Ha) Hk.
    have H1 : ip (lzq k.+1) (lzq k.+1) = 1 by rewrite lzqS; exact: ip_normalised.
    move=> i j. rewrite leq_eqVlt ltnS => /orP [/eqP ->|Hi]; rewrite leq_eqVlt ltnS => /orP [/eqP ->|Hj].
    + by rewrite eqxx.
    + by rewrite lzqS ipC ipZr Hr // mulr0 gtn_eqF.
    + by rewrite lzqS ipZr Hr // mulr0 ltn_eqF.
    + exact: Hk.
Qed.

Lemma lz_residual_orth k i : alive k -> (i <= k)%N -> ip (lzq i) (lzr k) = 0.
Proof. move=> Ha. apply: lz_residual_step => //. exact: lz_orthonormal. Qed.

End Lanczos.

(** ** The projected matrix *)

Section Projected.
Variable R : rcfType.

Variable n' : nat.
Notation n := n'.+1.
Variable A : 'M[R]_n.
Variable v : 'cV[R]_n.
Hypothesis A_sym : A^T = A.
Hypothesis v_nz : v != 0.
Variable m' : nat.
Notation m := m'.+1.
Hypothesis Ha : alive A v m'.

Notation q := (lzq A v).
Notation a := (lza A v).
Notation b := (lzb A v).

Definition basis : 'M[R]_(n, m) := \matrix_(i, j) q j i 0.
Definition Tm : 'M[R]_m := tridiag m a b.
Definition last_row : 'rV[R]_m := delta_mx 0 ord_max.

Lemma basis_col j : col j basis = q j.
Proof. by apply/matrixP => i k; rewrite !mxE ord1. Qed.

Lemma basis_orthonormal : basis^T *m basis = 1%:M.
Proof.
  apply/matrixP => i j. rewrite !mxE -(lz_orthonormal A_sym v_nz Ha (i := i) (j := j)); last 2 first.
  - by rewrite -ltnS.
  - by rewrite -ltnS.
  by apply: eq_bigr => k _; rewrite !mxE.
Qed.

Lemma basis_residual : basis^T *m lzr A v m' = 0.
Proof.
  apply/matrixP => i j. rewrite !mxE ord1.
  rewrite -[RHS](@lz_residual_orth _ _ A v A_sym v_nz m' i Ha); last by rewrite -ltnS.
  by apply: eq_bigr => k _; rewrite !mxE.
Qed.

Lemma lz_three' j : (j < m')%N ->
  A *m q j = b j *: q j.+1 + a j *: q j + lzbp A v j *: lzp A v j.
Proof. move=> Hj. apply: lz_three. exact: Ha. Qed.

Lemma sum_tridiag (f : nat -> R) (j : 'I_m) :
  \sum_(k < m) f k * Tm k j =
  (if (j < m')%N then f j.+1 * b j else 0) + f j * a j +
  (if (0 < j)%N then f j.-1 * b j.-1 else 0).
Proof.
  rewrite /Tm.
  have E : forall k : 'I_m, f k * tridiag m a b k j =
     (if k == j.+1 :> nat then f j.+1 * b j else 0) + (if k == j then f j * a j else 0)
     + (if k.+1 == j :> nat then f j.-1 * b j.-1 else 0).
  { move=> k. rewrite mxE. rewrite -(inj_eq val_inj) /=.
    have [E|Hkj] := eqVneq (k : nat) j.
    - rewrite E. rewrite ltn_eqF ?leqnn // gtn_eqF // add0r addr0. done.
    - rewrite [j == k.+1 :> nat]eq_sym. have [E|H2] := eqVneq k.+1 (j : nat).
      + have -> : (k == j.+1 :> nat) = false by lia.
        by rewrite -E /= !add0r.
      + have [E|H3] := eqVneq (k : nat) j.+1; last by rewrite mulr0 !addr0.
        by rewrite E !addr0. }
  rewrite (eq_bigr _ (fun k _ => E k)) !big_split /= -!big_mkcond /=.
  congr (_ + _ + _).
  - case: ltnP => Hj.
    + by rewrite (big_pred1 (Ordinal (Hj : j.+1 < m)%N)).
    + rewrite big_pred0 // => k. apply/eqP. have := ltn_ord k. lia.
  - by rewrite big_pred1_eq.
  - case: posnP => Hj.
    + rewrite big_pred0 // => k. by rewrite Hj.
    + have Hj1 : (j.-1 < m)%N by have := ltn_ord j; lia.
      rewrite (big_pred1 (Ordinal Hj1)) // => k /=. have -> : (k == Ordinal Hj1) = (k == j.-1 :> nat) by [].
      lia.
Qed.

(** A V = V T + r e_m^T *)
Lemma lz_relation : A *m basis = basis *m Tm + lzr A v m' *m last_row.
Proof.
  apply/matrixP => i j. rewrite mxE [RHS]mxE.
  have -> : \sum_k A i k * basis k j = (A *m q j) i 0.
  { rewrite mxE. by apply: eq_bigr => k _; rewrite !mxE. }
  have -> : (basis *m Tm) i j = \sum_(k < m) (q k i 0) * Tm k j.
  { rewrite mxE. by apply: eq_bigr => k _; rewrite mxE. }
  have -> : (lzr A v m' *m last_row) i j = lzr A v m' i 0 * (j == ord_max)%:R.
  { by rewrite mxE big_ord1 !mxE eqxx. }
  rewrite (sum_tridiag (fun k => q k i 0)).
  have Hp : (if (0 < j)%N then q j.-1 i 0 * b j.-1 else 0) = (lzbp A v j *: lzp A v j) i 0.
  { case: (nat_of_ord j) => [|k] /=; first by rewrite mxE /lzbp /= mul0r.
    by rewrite lzpS lzbpS mxE mulrC. }
  rewrite Hp. case: ltnP => Hj.
  - rewrite lz_three' // (_ : (j == ord_max) = false); last first.
    { apply/eqP => E. by rewrite E ltnn in Hj. }
    by rewrite mulr0 addr0 !mxE [b j * _]mulrC [a j * _]mulrC.
  - have -> : j = ord_max by apply: val_inj => /=; have := ltn_ord j; lia.
    rewrite eqxx mulr1 add0r /=.
    have E : A *m q m' = a m' *: q m' + lzbp A v m' *: lzp A v m' + lzr A v m'.
    { by rewrite [RHS]addrC /lzr addrA (addrAC (A *m q m' - _)) subrK subrK. }
    by rewrite {1}E !mxE [a m' * _]mulrC.
Qed.

Lemma Tm_sym : Tm^T = Tm.
Proof.
  apply/matrixP => i j. rewrite !mxE eq_sym. case: eqP => [->//|_].
  case: eqP => [E|_]; case: eqP => [E'|_] //. exfalso. lia.
Qed.

Lemma gram_is_T : basis^T *m A *m basis = Tm.
Proof.
  rewrite -mulmxA lz_relation mulmxDr mulmxA basis_orthonormal mul1mx.
  by rewrite mulmxA basis_residual mul0mx addr0.
Qed.

(** T^k e_1 vanishes below row k. *)
Lemma T_band k (i : 'I_m) : (k < i)%N -> (Tm ^+ k) i 0 = 0.
Proof.
  elim: k i => [|k IH] i Hi.
  - rewrite expr0 mxE. case: eqP => // E. by rewrite E in Hi.
  - rewrite exprS -mulmxE mxE big1 // => l _.
    case: (ltnP k l) => Hl; first by rewrite IH ?mulr0.
    rewrite mxE (_ : (i == l :> nat) = false); last by lia.
    rewrite (_ : (l == i.+1 :> nat) = false); last by lia.
    rewrite (_ : (i == l.+1 :> nat) = false) ?mul0r //; last by lia.
Qed.

Lemma krylov_step k : A ^+ k *m q 0 = basis *m col 0 (Tm ^+ k) ->
  (k < m')%N \/ lzr A v m' = 0 ->
  A ^+ k.+1 *m q 0 = basis *m col 0 (Tm ^+ k.+1).
Proof.
  move=> IH Hk. rewrite exprS -mulmxE -mulmxA IH mulmxA lz_relation mulmxDl.
  have -> : lzr A v m' *m last_row *m col 0 (Tm ^+ k) = 0.
  { case: Hk => [Hk|->]; last by rewrite !mul0mx.
    rewrite -mulmxA -rowE (_ : row ord_max _ = 0) ?mulmx0 //.
    apply/matrixP => i j. rewrite !mxE. exact: T_band. }
  rewrite addr0 -mulmxA. congr (_ *m _). rewrite exprS -mulmxE.
  by rewrite colE mulmxA -colE.
Qed.

Lemma krylov k : (k <= m')%N \/ lzr A v m' = 0 ->
  A ^+ k *m q 0 = basis *m col 0 (Tm ^+ k).
Proof.
  elim: k => [|k IH] Hk.
  - rewrite !expr0 mul1mx colE mul1mx. apply/matrixP => i j.
    by rewrite -colE basis_col.
  - apply: krylov_step.
    + apply: IH. case: Hk => Hk; [left; exact: ltnW|by right].
    + case: Hk => Hk; by [left|right].
Qed.

Lemma sym_exp (N : nat) (M : 'M[R]_N.+1) k : M^T = M -> (M ^+ k)^T = M ^+ k.
Proof.
  move=> HM. elim: k => [|k IH]; first by rewrite expr0 trmx1.
  by rewrite exprS -mulmxE trmx_mul IH HM mulmxE -exprSr exprS.
Qed.

Lemma mul_col (K L N : nat) (M : 'M[R]_(K, L)) (P : 'M[R]_(L, N)) j :
  col j (M *m P) = M *m col j P.
Proof. by rewrite !colE mulmxA. Qed.

Lemma moment2 i j :
  A ^+ i *m q 0 = basis *m col 0 (Tm ^+ i) ->
  A ^+ j *m q 0 = basis *m col 0 (Tm ^+ j) ->
  ip (q 0) (A ^+ (i + j) *m q 0) = (Tm ^+ (i + j)) 0 0.
Proof.
  move=> Hi Hj. rewrite exprD -mulmxE -mulmxA ip_adj sym_exp // Hi Hj ipE trmx_mul.
  rewrite -mulmxA (mulmxA basis^T) basis_orthonormal mul1mx.
  have -> : (col 0 (Tm ^+ i))^T = row 0 (Tm ^+ i) by rewrite tr_col sym_exp // Tm_sym.
  by rewrite exprD -mulmxE -mul_col -row_mul !mxE.
Qed.

Lemma moment k : (k <= (m' + m').+1)%N \/ lzr A v m' = 0 ->
  ip (q 0) (A ^+ k *m q 0) = (Tm ^+ k) 0 0.
Proof.
  move=> Hk. case: (leqP k (m' + m')) => Hk2; last first.
  - case: Hk => [Hk|Hr]; last first.
    { rewrite -[k]addn0. apply: moment2; apply: krylov; by right. }
    have -> : k = (m' + m'.+1)%N by lia.
    have Hm : A ^+ m' *m q 0 = basis *m col 0 (Tm ^+ m') by apply: krylov; left.
    rewrite exprD exprS -!mulmxE -!mulmxA ip_adj sym_exp // Hm ipE trmx_mul.
    rewrite -!mulmxA (mulmxA basis^T) (mulmxA (basis^T *m A)) gram_is_T.
    have -> : (col 0 (Tm ^+ m'))^T = row 0 (Tm ^+ m') by rewrite tr_col sym_exp // Tm_sym.
    by rewrite exprD exprS -!mulmxE -!mul_col -row_mul !mxE.
  - have E : k = (minn k m' + (k - minn k m'))%N by lia.
    rewrite E. apply: moment2; apply: krylov; left; lia.
Qed.

(** Polynomials. *)
Lemma horner_mx_sum (N : nat) (M : 'M[R]_N.+1) (p : {poly R}) :
  horner_mx M p = \sum_(i < size p) p`_i *: M ^+ i.
Proof.
  rewrite -{1}[p]coefK poly_def linear_sum. apply: eq_bigr => i _.
  by rewrite linearZ /= rmorphX /= horner_mx_X.
Qed.

Lemma ip_sumr (N K : nat) (x : 'cV[R]_N) (f : 'I_K -> 'cV[R]_N) :
  ip x (\sum_i f i) = \sum_i ip x (f i).
Proof. by rewrite ipE mulmx_sumr summxE; apply: eq_bigr => i _; rewrite ipE. Qed.

Lemma gauss (p : {poly R}) : (size p <= m + m)%N \/ lzr A v m' = 0 ->
  ip (q 0) (horner_mx A p *m q 0) = (horner_mx Tm p) 0 0.
Proof.
  move=> Hp. rewrite !horner_mx_sum mulmx_suml ip_sumr summxE. apply: eq_bigr => i _.
  rewrite -scalemxAl ipZr mxE moment //. case: Hp => Hp; [left|by right].
  have := ltn_ord i. lia.
Qed.

End Projected.

(** ** Spectral decompositions *)
Section Spectral.
Variable R : rcfType.

Lemma diag_exp N (d : 'rV[R]_N.+1) k : diag_mx d ^+ k = diag_mx (\row_i d 0 i ^+ k).
Proof.
  elim: k => [|k IH].
  - rewrite expr0. apply/matrixP => i j. rewrite !mxE expr0. by case: eqP.
  - rewrite exprS IH -mulmxE mulmx_diag. congr diag_mx. apply/matrixP => i j.
    by rewrite !mxE exprS.
Qed.

Lemma spectral_exp N (M P : 'M[R]_N.+1) d k :
  P^T *m P = 1%:M -> M = P *m diag_mx d *m P^T ->
  M ^+ k = P *m diag_mx (\row_i d 0 i ^+ k) *m P^T.
Proof.
  move=> HP HM. rewrite -diag_exp. elim: k => [|k IH].
  - by rewrite !expr0 mulmx1 (mulmx1C HP).
  - rewrite exprS IH {1}HM -mulmxE !mulmxA -(mulmxA _ P^T P) HP mulmx1.
    by rewrite exprS -mulmxE !mulmxA.
Qed.

Lemma spectral_poly N (M P : 'M[R]_N.+1) d (p : {poly R}) :
  P^T *m P = 1%:M -> M = P *m diag_mx d *m P^T ->
  horner_mx M p = P *m diag_mx (\row_i p.[d 0 i]) *m P^T.
Proof.
  move=> HP HM. rewrite horner_mx_sum.
  rewrite (eq_bigr (fun i : 'I_(size p) =>
     P *m (p`_i *: diag_mx (\row_j d 0 j ^+ i)) *m P^T)); last first.
  { move=> i _. rewrite (spectral_exp i HP HM) -scalemxAr. exact: scalemxAl. }
  rewrite -mulmx_suml -mulmx_sumr. congr (_ *m _ *m _).
  apply/matrixP => i j. rewrite summxE !mxE horner_coef.
  rewrite -sumrMnl. apply: eq_bigr => k _. by rewrite !mxE mulrnAr.
Qed.

Lemma spectral_00 N (P : 'M[R]_N.+1) d :
  (P *m diag_mx d *m P^T) 0 0 = \sum_i P 0 i ^+ 2 * d 0 i.
Proof.
  rewrite mxE. apply: eq_bigr => i _. rewrite mul_mx_diag !mxE. 
  by rewrite mulrAC expr2.
Qed.

(** A polynomial with prescribed values. *)
Lemma interpolation (f : R -> R) (s : seq R) :
  exists p : {poly R}, forall x, x \in s -> p.[x] = f x.
Proof.
  elim: s => [|x s [p Hp]]; first by exists 0.
  case: (boolP (x \in s)) => Hx.
  { exists p => y. rewrite inE => /orP [/eqP ->|]; exact: Hp. }
  pose g := \prod_(z <- s) ('X - z%:P).
  have Hg : g.[x] != 0.
  { rewrite -/(root g x) root_prod_XsubC. exact: Hx. }
  have Hgs : forall y, y \in s -> g.[y] = 0.
  { move=> y Hy. apply/eqP. by rewrite -/(root g y) root_prod_XsubC. }
  exists (p + ((f x - p.[x]) / g.[x]) *: g) => y.
  rewrite inE => /orP [/eqP ->|Hy]; rewrite hornerD hornerZ.
  - by rewrite mulfVK // addrC subrK.
  - by rewrite (Hgs y Hy) mulr0 addr0 Hp.
Qed.

End Spectral.

(** ** Shifts *)
Section Shift.
Variable R : rcfType.
Variable n : nat.
Variable A : 'M[R]_n.
Variable v : 'cV[R]_n.
Variable t : R.
Hypothesis A_sym : A^T = A.
Hypothesis v_nz : v != 0.

Notation At := (A + t%:M).

Lemma ip_q1 k : alive A v k -> ip (lzq A v k) (lzq A v k) = 1.
Proof. move=> Ha. by rewrite (lz_orthonormal A_sym v_nz Ha (leqnn k) (leqnn k)) eqxx. Qed.

Lemma shift_st k : alive A v k -> lzst At v k = lzst A v k.
Proof.
  elim: k => [//|k IH] Ha /=.
  have Ha' := alive_le (leqnSn k) Ha. rewrite (IH Ha').
  have Hq := ip_q1 Ha'. rewrite /lzq in Hq.
  case: (lzst A v k) Hq => [[p q] b] /= Hq.
  suff -> : At *m q - ip q (At *m q) *: q - b *: p = A *m q - ip q (A *m q) *: q - b *: p by [].
  congr (_ - _). rewrite mulmxDl mul_scalar_mx ipDr ipZr Hq mulr1 scalerDl opprD addrA.
  by rewrite (addrAC (A *m q)) addrK.
Qed.

Lemma shift_q k : alive A v k -> lzq At v k = lzq A v k.
Proof. by move=> Ha; rewrite /lzq (shift_st Ha). Qed.

Lemma shift_a k : alive A v k -> lza At v k = lza A v k + t.
Proof.
  move=> Ha. by rewrite /lza (shift_q Ha) mulmxDl mul_scalar_mx ipDr ipZr (ip_q1 Ha) mulr1.
Qed.

Lemma shift_r k : alive A v k -> lzr At v k = lzr A v k.
Proof.
  move=> Ha. rewrite /lzr (shift_a Ha) (shift_q Ha) /lzbp /lzp (shift_st Ha).
  rewrite mulmxDl mul_scalar_mx scalerDl opprD addrA. congr (_ - _).
  by rewrite (addrAC (A *m lzq A v k)) addrK.
Qed.

Lemma shift_b k : alive A v k -> lzb At v k = lzb A v k.
Proof. by move=> Ha; rewrite /lzb (shift_r Ha). Qed.

Lemma shift_alive k : alive A v k -> alive At v k.
Proof. move=> Ha j Hj. rewrite shift_b; [exact: Ha|exact: alive_le (ltnW Hj) Ha]. Qed.

End Shift.

(** ** Golub-Kahn, as Lanczos on the matrix ((0, A), (A^T, 0)) *)
Section GolubKahn.
Variable R : rcfType.
Variable n : nat.
Variable A : 'M[R]_n.
Variable v : 'cV[R]_n.

(** (previous left vector, current right vector, previous beta) *)
Fixpoint gkst (j : nat) : 'cV[R]_n * 'cV[R]_n * R :=
  if j is j'.+1 then
    let: (u, w, b) := gkst j' in
    let x := A *m w - b *: u in
    let a := nrm x in
    let u' := a^-1 *: x in
    let y := A^T *m u' - a *: w in
    (u', (nrm y)^-1 *: y, nrm y)
  else (0, (nrm v)^-1 *: v, 0).

Definition gkup j := (gkst j).1.1.
Definition gkv j := (gkst j).1.2.
Definition gkbp j := (gkst j).2.
Definition gkx j := A *m gkv j - gkbp j *: gkup j.
Definition gka j := nrm (gkx j).
Definition gku j := (gka j)^-1 *: gkx j.
Definition gky j := A^T *m gku j - gka j *: gkv j.
Definition gkb j := nrm (gky j).

Lemma gkupS j : gkup j.+1 = gku j.
Proof. rewrite /gkup /gku /gka /gkx /gkv /gkbp /gkup /=. by case: (gkst j) => [[p q] b]. Qed.
Lemma gkvS j : gkv j.+1 = (gkb j)^-1 *: gky j.
Proof.
  rewrite /gkb /gky /gku /gka /gkx /gkv /gkbp /gkup /=. by case: (gkst j) => [[p q] b].
Qed.
Lemma gkbpS j : gkbp j.+1 = gkb j.
Proof.
  rewrite /gkb /gky /gku /gka /gkx /gkv /gkbp /gkup /=. by case: (gkst j) => [[p q] b].
Qed.

Definition aug : 'M[R]_(n + n) := block_mx 0 A A^T 0.
Definition left_ (x : 'cV[R]_n) : 'cV[R]_(n + n) := col_mx x 0.
Definition right_ (x : 'cV[R]_n) : 'cV[R]_(n + n) := col_mx 0 x.

Lemma aug_sym : aug^T = aug.
Proof. by rewrite /aug tr_block_mx !trmx0 trmxK. Qed.

Lemma ip_col_mx (x y z w : 'cV[R]_n) : ip (col_mx x y) (col_mx z w) = ip x z + ip y w.
Proof. by rewrite !ipE tr_col_mx mul_row_col mxE. Qed.

Lemma ip0l N (x : 'cV[R]_N) : ip 0 x = 0. Proof. by rewrite ipC ip0r. Qed.

Lemma nrm_left x : nrm (left_ x) = nrm x.
Proof. by rewrite /nrm ip_col_mx ip0r addr0. Qed.
Lemma nrm_right x : nrm (right_ x) = nrm x.
Proof. by rewrite /nrm ip_col_mx ip0r add0r. Qed.
Lemma aug_left x : aug *m left_ x = right_ (A^T *m x).
Proof. by rewrite /aug /left_ /right_ mul_block_col !mul0mx mulmx0 !addr0. Qed.
Lemma aug_right x : aug *m right_ x = left_ (A *m x).
Proof. by rewrite /aug /left_ /right_ mul_block_col !mul0mx !mulmx0 !add0r. Qed.
Lemma left_Z a x : left_ (a *: x) = a *: left_ x.
Proof. by rewrite /left_ scale_col_mx scaler0. Qed.
Lemma right_Z a x : right_ (a *: x) = a *: right_ x.
Proof. by rewrite /right_ scale_col_mx scaler0. Qed.
Lemma left_B x y : left_ (x - y) = left_ x - left_ y.
Proof. by rewrite /left_ opp_col_mx add_col_mx subr0. Qed.
Lemma right_B x y : right_ (x - y) = right_ x - right_ y.
Proof. by rewrite /right_ opp_col_mx add_col_mx subr0. Qed.
Lemma ip_lr x y : ip (left_ x) (right_ y) = 0.
Proof. by rewrite ip_col_mx ip0r ip0l addr0. Qed.

Notation q := (lzq aug (right_ v)).

Lemma gk_even j :
  lzst aug (right_ v) (j + j) = (left_ (gkup j), right_ (gkv j), gkbp j) /\
  lzst aug (right_ v) (j + j).+1 = (right_ (gkv j), left_ (gku j), gka j).
Proof.
  have step : forall j, lzst aug (right_ v) (j + j) = (left_ (gkup j), right_ (gkv j), gkbp j) ->
     lzst aug (right_ v) (j + j).+1 = (right_ (gkv j), left_ (gku j), gka j).
  { move=> i E. rewrite /= E /=.
    have -> : ip (right_ (gkv i)) (aug *m right_ (gkv i)) = 0 by rewrite aug_right ipC ip_lr.
    by rewrite scale0r subr0 aug_right -left_Z -left_B nrm_left -left_Z. }
  elim: j => [|j [IH1 IH2]]; last first.
  - suff E : lzst aug (right_ v) (j.+1 + j.+1) = (left_ (gkup j.+1), right_ (gkv j.+1), gkbp j.+1)
      by split => //; apply: step.
    rewrite addSn addnS. rewrite [lzst _ _ _.+2]/= -/(lzst _ _ (j + j).+1) IH2.
    have -> : ip (left_ (gku j)) (aug *m left_ (gku j)) = 0 by rewrite aug_left ip_lr.
    by rewrite scale0r subr0 aug_left -right_Z -right_B nrm_right -right_Z gkupS gkvS gkbpS.
  - suff E : lzst aug (right_ v) (0 + 0) = (left_ (gkup 0), right_ (gkv 0), gkbp 0)
      by split => //; apply: step.
    by rewrite /= nrm_right -right_Z /gkup /gkbp /gkv /= /left_ col_mx0.
Qed.

Lemma gk_q_even j : q (j + j) = right_ (gkv j).
Proof. by rewrite /lzq (gk_even j).1. Qed.
Lemma gk_q_odd j : q (j + j).+1 = left_ (gku j).
Proof. by rewrite /lzq (gk_even j).2. Qed.
Lemma gk_b_even j : lzb aug (right_ v) (j + j) = gka j.
Proof. by rewrite -lzbpS /lzbp (gk_even j).2. Qed.
Lemma gk_b_odd j : lzb aug (right_ v) (j + j).+1 = gkb j.
Proof. rewrite -lzbpS -addnS -addSn /lzbp (gk_even j.+1).1 /=. exact: gkbpS. Qed.

Hypothesis v_nz : v != 0.

Lemma right_nz : right_ v != 0.
Proof. by rewrite -nrm_eq0 nrm_right nrm_eq0. Qed.

Definition gkalive k := forall j, (j < k)%N -> gka j != 0 /\ gkb j != 0.

Lemma gkalive_le k k' : (k <= k')%N -> gkalive k' -> gkalive k.
Proof. move=> H Ha j Hj. apply: Ha. exact: leq_trans H. Qed.

Lemma gkalive_alive k : gkalive k -> alive aug (right_ v) (k + k).
Proof.
  move=> Ha j Hj. have [Ho|He] := boolP (odd j).
  - have -> : j = (j./2 + j./2).+1 by have := odd_double_half j; rewrite Ho -addnn; lia.
    rewrite gk_b_odd. apply: (Ha _ _).2. lia.
  - have -> : j = (j./2 + j./2)%N.
    { have := odd_double_half j. rewrite (negbTE He) -addnn. lia. }
    rewrite gk_b_even. apply: (Ha _ _).1. lia.
Qed.

Lemma gkalive_alive1 k : gkalive k -> gka k != 0 -> alive aug (right_ v) (k + k).+1.
Proof.
  move=> Ha Hk j. rewrite ltnS leq_eqVlt => /orP [/eqP ->|Hj]; first by rewrite gk_b_even.
  exact: gkalive_alive Ha _ Hj.
Qed.

Lemma gkv_orth k : gkalive k ->
  forall i j, (i <= k)%N -> (j <= k)%N -> ip (gkv i) (gkv j) = (i == j)%:R.
Proof.
  move=> Ha i j Hi Hj.
  have := lz_orthonormal aug_sym right_nz (gkalive_alive Ha) (i := (i + i)%N) (j := (j + j)%N).
  rewrite !gk_q_even ip_col_mx ip0l add0r => ->; [|lia|lia].
  congr (nat_of_bool _)%:R. lia.
Qed.

Lemma gku_orth k : gkalive k -> gka k != 0 ->
  forall i j, (i <= k)%N -> (j <= k)%N -> ip (gku i) (gku j) = (i == j)%:R.
Proof.
  move=> Ha Hk i j Hi Hj.
  have := lz_orthonormal aug_sym right_nz (gkalive_alive1 Ha Hk) (i := (i + i).+1) (j := (j + j).+1).
  rewrite !gk_q_odd ip_col_mx ip0l addr0 => ->; [|lia|lia].
  congr (nat_of_bool _)%:R. lia.
Qed.

(** A^T u_k - a_k v_k is orthogonal to all right vectors so far. *)
Lemma gky_orth k i : gkalive k -> gka k != 0 -> (i <= k)%N -> ip (gkv i) (gky k) = 0.
Proof.
  move=> Ha Hk Hi.
  have := lz_residual_orth aug_sym right_nz (i := (i + i)%N) (gkalive_alive1 Ha Hk).
  have -> : lzr aug (right_ v) (k + k).+1 = right_ (gky k).
  { rewrite /lzr /lza gk_q_odd /lzbp /lzp (gk_even k).2 /=.
    have -> : ip (left_ (gku k)) (aug *m left_ (gku k)) = 0 by rewrite aug_left ip_lr.
    by rewrite scale0r subr0 aug_left -right_Z -right_B. }
  rewrite gk_q_even ip_col_mx ip0l add0r. apply. lia.
Qed.

Lemma gkx_orth k i : gkalive k -> (i < k)%N -> ip (gku i) (gkx k) = 0.
Proof.
  move=> Ha Hi.
  have := lz_residual_orth aug_sym right_nz (i := (i + i).+1) (gkalive_alive Ha).
  have -> : lzr aug (right_ v) (k + k) = left_ (gkx k).
  { rewrite /lzr /lza gk_q_even /lzbp /lzp (gk_even k).1 /=.
    have -> : ip (right_ (gkv k)) (aug *m right_ (gkv k)) = 0 by rewrite aug_right ipC ip_lr.
    by rewrite scale0r subr0 aug_right -left_Z -left_B. }
  rewrite gk_q_odd ip_col_mx ip0l addr0. apply. lia.
Qed.

Lemma gkA k : gka k != 0 -> A *m gkv k = gka k *: gku k + gkbp k *: gkup k.
Proof. move=> Hk. by rewrite /gku scalerA mulfV // scale1r /gkx subrK. Qed.

Lemma gkAt k : A^T *m gku k = gky k + gka k *: gkv k.
Proof. by rewrite /gky subrK. Qed.

(** With an injective A no alpha vanishes. *)
Lemma gk_injective k : (forall x : 'cV[R]_n, A *m x = 0 -> x = 0) -> gkalive k -> gka k != 0.
Proof.
  move=> HA Ha. apply/negP => Hz.
  have Hx : gkx k = 0 by apply/eqP; rewrite -nrm_eq0.
  (* each u_i is A w with w in the span of v_0 .. v_i *)
  have Hw : forall i, (i < k)%N ->
     exists2 w, gku i = A *m w & forall l, (i < l <= k)%N -> ip (gkv l) w = 0.
  { elim=> [|i IH] Hi.
    - have [Ha0 _] := Ha 0%N Hi.
      exists ((gka 0)^-1 *: gkv 0).
      + by rewrite /gku /gkx /gkbp /= scale0r subr0 scalemxAr.
      + move=> l Hl. rewrite ipZr (gkv_orth Ha) //; last by lia. by rewrite gtn_eqF ?mulr0 //; lia.
    - have [w Ew Hl] := IH (ltnW Hi).
      exists ((gka i.+1)^-1 *: (gkv i.+1 - gkb i *: w)).
      + by rewrite /gku /gkx gkbpS gkupS Ew -scalemxAr mulmxBr -scalemxAr.
      + move=> l Hl'. rewrite ipZr ipBr ipZr Hl ?(gkv_orth Ha) //; try lia.
        by rewrite gtn_eqF ?mulr0 ?subr0 ?mulr0 //; lia. }
  have Hvk : ip (gkv k) (gkv k) = 1 by rewrite (gkv_orth Ha) // eqxx.
  case: k Ha Hz Hx Hw Hvk => [|k] Ha Hz Hx Hw Hvk.
  - have : gkv 0 = 0 by apply: HA; move: Hx; rewrite /gkx /gkbp /= scale0r subr0.
    move=> E. move: Hvk. rewrite E ip0r => /eqP. by rewrite eq_sym oner_eq0.
  - have [w Ew Hl] := Hw k (ltnSn k).
    have E : gkv k.+1 = gkb k *: w.
    { apply/eqP. rewrite -subr_eq0. apply/eqP. apply: HA.
      by rewrite mulmxBr -scalemxAr -Ew -gkupS -gkbpS. }
    have : ip (gkv k.+1) (gkv k.+1) = 0 by rewrite {2}E ipZr Hl ?mulr0 //; lia.
    rewrite Hvk => /eqP. by rewrite oner_eq0.
Qed.

Definition gkprev k := if k is k'.+1 then gkv k' else 0.
Definition gkcb k := if k is k'.+1 then gka k' * gkb k' else 0.

Lemma gk_ata k : gkalive k -> gka k != 0 ->
  A^T *m A *m gkv k =
  gka k *: gky k + (gka k ^+ 2 + gkbp k ^+ 2) *: gkv k + gkcb k *: gkprev k.
Proof.
  move=> Ha Hk. rewrite -mulmxA (gkA Hk) mulmxDr -(scalemxAr (gka k)) -(scalemxAr (gkbp k)) gkAt scalerDr scalerA.
  rewrite [(_ + _ ^+ 2) *: _]scalerDl -expr2 -!addrA. congr (_ + (_ + _)).
  case: k Ha Hk => [|k] Ha Hk; first by rewrite /gkbp /= scale0r expr0n /= !scale0r addr0.
  have [Hak Hbk] := Ha k (ltnSn k).
  rewrite gkbpS gkupS gkAt scalerDr scalerA [gkb k * _]mulrC.
  congr (_ + _). by rewrite gkvS scalerA expr2 mulfK.
Qed.

Lemma ip_prev k : gkalive k -> ip (gkv k) (gkprev k) = 0.
Proof.
  case: k => [|k] Ha; first by rewrite ip0r.
  by rewrite (gkv_orth Ha) // gtn_eqF.
Qed.

Lemma gk_lza k : gkalive k -> gka k != 0 ->
  ip (gkv k) (A^T *m A *m gkv k) = gka k ^+ 2 + gkbp k ^+ 2.
Proof.
  move=> Ha Hk. rewrite (gk_ata Ha Hk) !ipDr !ipZr (gky_orth Ha Hk (leqnn k)) (ip_prev Ha).
  by rewrite (gkv_orth Ha (leqnn k) (leqnn k)) eqxx !mulr0 mulr1 add0r addr0.
Qed.

Lemma nrmZ N a (x : 'cV[R]_N) : nrm (a *: x) = `|a| * nrm x.
Proof.
  rewrite /nrm ipZr ipC ipZr mulrA -expr2 sqrtrM ?sqr_ge0 //. by rewrite sqrtr_sqr.
Qed.

Lemma gk_residual k : gkalive k -> gka k != 0 ->
  A^T *m A *m gkv k - ip (gkv k) (A^T *m A *m gkv k) *: gkv k - gkcb k *: gkprev k
  = gka k *: gky k.
Proof.
  move=> Ha Hk. rewrite (gk_lza Ha Hk) (gk_ata Ha Hk).
  by rewrite (addrAC (gka k *: gky k + _)) !addrK.
Qed.

(** The right vectors are the Lanczos vectors of A^T A. *)
Lemma gk_lanczos k : gkalive k -> lzst (A^T *m A) v k = (gkprev k, gkv k, gkcb k).
Proof.
  elim: k => [//|k IH] Ha.
  have Ha' := gkalive_le (leqnSn k) Ha. have [Hak Hbk] := Ha k (ltnSn k).
  rewrite [LHS]/= (IH Ha') (gk_residual Ha' Hak) nrmZ ger0_norm ?nrm_ge0 //.
  rewrite [gkprev _]/= [gkcb _]/= gkvS scalerA.
  by rewrite invfM mulrAC mulVf // mul1r.
Qed.

Lemma gk_lzq k : gkalive k -> lzq (A^T *m A) v k = gkv k.
Proof. by move=> Ha; rewrite /lzq (gk_lanczos Ha). Qed.

Lemma gk_lza' k : gkalive k -> gka k != 0 -> lza (A^T *m A) v k = gka k ^+ 2 + gkbp k ^+ 2.
Proof. move=> Ha Hk. by rewrite /lza (gk_lzq Ha) (gk_lza Ha Hk). Qed.

Lemma gk_lzr k : gkalive k -> gka k != 0 -> lzr (A^T *m A) v k = gka k *: gky k.
Proof.
  move=> Ha Hk. rewrite -(gk_residual Ha Hk) /lzr /lza (gk_lzq Ha) /lzbp /lzp.
  by rewrite (gk_lanczos Ha).
Qed.

Lemma gk_lzb k : gkalive k -> gka k != 0 -> lzb (A^T *m A) v k = gka k * gkb k.
Proof. move=> Ha Hk. by rewrite /lzb (gk_lzr Ha Hk) nrmZ ger0_norm ?nrm_ge0. Qed.

Lemma gk_lz_alive k : gkalive k -> alive (A^T *m A) v k.
Proof.
  move=> Ha j Hj. have [H1 H2] := Ha j Hj.
  rewrite (gk_lzb (gkalive_le (ltnW Hj) Ha) H1). by rewrite mulf_eq0 negb_or H1 H2.
Qed.

Lemma ata_sym : (A^T *m A)^T = A^T *m A.
Proof. by rewrite trmx_mul trmxK. Qed.

Lemma sum_bidiag N (a b : nat -> R) (f : nat -> R) (j : 'I_N) :
  \sum_(k < N) f k * bidiag N a b k j =
  f j * a j + (if (0 < j)%N then f j.-1 * b j.-1 else 0).
Proof.
  have E : forall k : 'I_N, f k * bidiag N a b k j =
     (if k == j then f j * a j else 0)
     + (if k.+1 == j :> nat then f j.-1 * b j.-1 else 0).
  { move=> k. rewrite mxE. rewrite -(inj_eq val_inj) /=.
    have [E|Hkj] := eqVneq (k : nat) j.
    - by rewrite E gtn_eqF // addr0.
    - rewrite [j == k.+1 :> nat]eq_sym. have [E|H2] := eqVneq k.+1 (j : nat).
      + by rewrite -E /= !add0r.
      + by rewrite mulr0 addr0. }
  rewrite (eq_bigr _ (fun k _ => E k)) big_split /= -!big_mkcond /=.
  congr (_ + _).
  - by rewrite big_pred1_eq.
  - case: posnP => Hj.
    + rewrite big_pred0 // => k. by rewrite Hj.
    + have Hj1 : (j.-1 < N)%N by have := ltn_ord j; lia.
      rewrite (big_pred1 (Ordinal Hj1)) // => k /=. have -> : (k == Ordinal Hj1) = (k == j.-1 :> nat) by [].
      lia.
Qed.

Variable m' : nat.
Notation m := m'.+1.
Hypothesis Ha : gkalive m'.
Hypothesis Ham : gka m' != 0.

Definition gkV : 'M[R]_(n, m) := \matrix_(i, j) gkv j i 0.
Definition gkU : 'M[R]_(n, m) := \matrix_(i, j) gku j i 0.
Definition gkB : 'M[R]_m := bidiag m gka gkb.

Lemma gka_nz (j : 'I_m) : gka j != 0.
Proof.
  have : (j <= m')%N by rewrite -ltnS. rewrite leq_eqVlt => /orP [/eqP ->|/Ha []] //.
Qed.

Lemma gkV_orthonormal : gkV^T *m gkV = 1%:M.
Proof.
  apply/matrixP => i j. rewrite mxE [RHS]mxE.
  have Hi : (i <= m')%N := ltn_ord i. have Hj : (j <= m')%N := ltn_ord j.
  rewrite -(inj_eq val_inj) -(gkv_orth Ha Hi Hj).
  by apply: eq_bigr => k _; rewrite !mxE.
Qed.

Lemma gkU_orthonormal : gkU^T *m gkU = 1%:M.
Proof.
  apply/matrixP => i j. rewrite mxE [RHS]mxE.
  have Hi : (i <= m')%N := ltn_ord i. have Hj : (j <= m')%N := ltn_ord j.
  rewrite -(inj_eq val_inj) -(gku_orth Ha Ham Hi Hj).
  by apply: eq_bigr => k _; rewrite !mxE.
Qed.

Lemma lin2 (a b : R) (x y : 'cV[R]_n) i :
  (a *: x + b *: y) i 0 = x i 0 * a + y i 0 * b.
Proof. by rewrite !mxE [a * _]mulrC [b * _]mulrC. Qed.

Lemma gk_AV : A *m gkV = gkU *m gkB.
Proof.
  apply/matrixP => i j. rewrite mxE.
  have -> : \sum_k A i k * gkV k j = (A *m gkv j) i 0.
  { rewrite mxE. by apply: eq_bigr => k _; rewrite !mxE. }
  have -> : (gkU *m gkB) i j = \sum_(k < m) (gku k i 0) * gkB k j.
  { rewrite mxE. by apply: eq_bigr => k _; rewrite mxE. }
  rewrite (sum_bidiag _ _ (fun k => gku k i 0)) (gkA (gka_nz j)) lin2. congr (_ + _).
  case: (nat_of_ord j) => [|k]; first by rewrite /gkbp /= mulr0.
  by rewrite gkbpS gkupS.
Qed.

Lemma gk_BtB : gkB^T *m gkB = gkV^T *m (A^T *m A) *m gkV.
Proof.
  rewrite -mulmxA -mulmxA gk_AV mulmxA -trmx_mul gk_AV trmx_mul -mulmxA.
  by rewrite (mulmxA gkU^T) gkU_orthonormal mul1mx.
Qed.

End GolubKahn.

Lemma gkV_basis (R : rcfType) n' (A : 'M[R]_n'.+1) (v : 'cV[R]_n'.+1) m' :
  v != 0 -> gkalive A v m' -> gkV A v m' = basis (A^T *m A) v m'.
Proof.
  move=> Hv Ha. apply/matrixP => i j. rewrite mxE [RHS]mxE gk_lzq //.
  apply: gkalive_le Ha. exact: (ltn_ord j : (j <= m')%N).
Qed.

Lemma gk_T (R : rcfType) n' (A : 'M[R]_n'.+1) (v : 'cV[R]_n'.+1) m' :
  v != 0 -> gkalive A v m' -> gka A v m' != 0 ->
  (gkB A v m')^T *m gkB A v m' = Tm (A^T *m A) v m'.
Proof.
  move=> Hv Ha Ham. rewrite (gk_BtB Hv Ha Ham) (gkV_basis Hv Ha).
  apply: gram_is_T => //; [exact: ata_sym|exact: gk_lz_alive].
Qed.
