(** The spectral theorem for symmetric matrices over a real closed field, and
    the singular value decomposition of an invertible matrix.  They show that
    the assumptions made about the LAPACK routines can be met, and that f(A) is
    defined for every symmetric A. *)
From mathcomp Require Import all_ssreflect all_algebra.
From mathcomp.real_closed Require Import complex.
From mathcomp Require Import zify.
From Verif Require Import LanczosSpec LanczosMath SlqSpec.
Set Implicit Arguments.
Unset Strict Implicit.
Unset Printing Implicit Defensive.
Import GRing.Theory Num.Theory Order.TTheory.
Local Open Scope ring_scope.

Section SpectralTheorem.
Variable R : rcfType.

Lemma re_mul (u : R[i]) (a : R) : complex.Re (u * real_complex R a) = complex.Re u * a.
Proof. case: u => x y. by rewrite /= mulr0 subr0. Qed.
Lemma im_mul (u : R[i]) (a : R) : complex.Im (u * real_complex R a) = complex.Im u * a.
Proof. case: u => x y. by rewrite /= mulr0 add0r. Qed.
Lemma re_sum I (r : seq I) (F : I -> R[i]) :
  complex.Re (\sum_(i <- r) F i) = \sum_(i <- r) complex.Re (F i).
Proof. apply: (big_morph (@complex.Re R)) => // -[a b] [c d] //. Qed.
Lemma im_sum I (r : seq I) (F : I -> R[i]) :
  complex.Im (\sum_(i <- r) F i) = \sum_(i <- r) complex.Im (F i).
Proof. apply: (big_morph (@complex.Im R)) => // -[a b] [c d] //. Qed.

Lemma real_eigenvector n (A : 'M[R]_n.+1) : A^T = A ->
  exists lam (x : 'cV[R]_n.+1), x != 0 /\ A *m x = lam *: x.
Proof.
  move=> HA. pose AC := map_mx (real_complex R) A.
  have [z Hz] : exists z, root (char_poly AC) z.
  { apply/closed_rootP. by rewrite size_char_poly. }
  rewrite -eigenvalue_root_char in Hz. case/eigenvalueP: Hz => v Hv Hnz.
  case: z Hv => al be Hv.
  pose x := (map_mx (@complex.Re R) v)^T. pose y := (map_mx (@complex.Im R) v)^T.
  have Hx : A *m x = al *: x - be *: y.
  { apply: trmx_inj. rewrite trmx_mul HA trmxK. apply/rowP => j.
    have /(congr1 (fun M : 'rV_n.+1 => complex.Re (M 0 j))) := Hv.
    rewrite !mxE re_sum => E. transitivity (complex.Re ((al +i* be)%C * v 0 j)).
    - rewrite -E. apply: eq_bigr => i _. by rewrite !mxE re_mul.
    - by case: (v 0 j). }
  have Hy : A *m y = be *: x + al *: y.
  { apply: trmx_inj. rewrite trmx_mul HA trmxK. apply/rowP => j.
    have /(congr1 (fun M : 'rV_n.+1 => complex.Im (M 0 j))) := Hv.
    rewrite !mxE im_sum => E. transitivity (complex.Im ((al +i* be)%C * v 0 j)).
    - rewrite -E. apply: eq_bigr => i _. by rewrite !mxE im_mul.
    - case: (v 0 j) => a b /=. by rewrite addrC. }
  have Hxy : (x != 0) || (y != 0).
  { rewrite -negb_and. apply: contra Hnz => /andP [/eqP Ex /eqP Ey].
    apply/eqP/rowP => j. rewrite mxE.
    have := congr1 (fun M : 'cV_n.+1 => M j 0) Ex. have := congr1 (fun M : 'cV_n.+1 => M j 0) Ey.
    rewrite !mxE. by case: (v 0 j) => a b /= -> ->. }
  have Hbe : be = 0.
  { have E : ip y (A *m x) = ip x (A *m y) by rewrite ip_adj HA ipC.
    move: E. rewrite Hx Hy ipBr ipDr !ipZr (ipC y x) [_ + al * _]addrC => /addrI /eqP.
    rewrite eq_sym -subr_eq0 opprK -mulrDr mulf_eq0 => /orP [/eqP //|].
    rewrite paddr_eq0 ?ip_ge0 // !ip_eq0 => H. move: Hxy. by rewrite -negb_and H. }
  rewrite Hbe !scale0r ?subr0 ?add0r in Hx Hy.
  case/orP: Hxy => H; [exists al, x|exists al, y] => //.
Qed.

(** A reflection taking e to the unit vector x. *)
Lemma reflection n (x e : 'cV[R]_n) : ip x x = 1 -> ip e e = 1 ->
  exists H : 'M[R]_n, [/\ H^T = H, H *m H = 1%:M & H *m e = x].
Proof.
  move=> Hx He. case: (eqVneq x e) => [->|Hne].
  { exists 1%:M. by rewrite trmx1 mulmx1 mul1mx. }
  have [w Dw] : exists w, w = x - e by exists (x - e).
  have Hw : ip w w != 0 by rewrite ip_eq0 Dw subr_eq0.
  have Ew : ip w w = 2%:R * (1 - ip x e).
  { rewrite Dw ipBr ipC ipBr (ipC (x - e) e) ipBr Hx He (ipC e x).
    by rewrite opprB addrA mulrDr mulr1 mulrN mulr2n mulrDl mul1r opprD; rewrite addrACA addrA; rewrite addrAC. }
  pose c := 2%:R / ip w w.
  exists (1%:M - c *: (w *m w^T)). split.
  - by rewrite linearB /= trmx1 linearZ /= trmx_mul trmxK.
  - rewrite mulmxBr mulmx1 mulmxBl mul1mx -scalemxAl -scalemxAr scalerA.
    have -> : w *m w^T *m (w *m w^T) = ip w w *: (w *m w^T).
    { have E : w^T *m w = (ip w w)%:M by rewrite ipE -mx11_scalar.
      by rewrite mulmxA -(mulmxA w) E mul_mx_scalar -scalemxAl. }
    rewrite scalerA -[c * c * _]mulrA /c divfK // opprB [_ - _ + _]addrC.
    rewrite [_ * 2%:R]mulr_natr mulr2n scalerDl. by rewrite addrK addrC subrK.
  - rewrite mulmxBl mul1mx -scalemxAl -mulmxA.
    have -> : w^T *m e = (ip w e)%:M by rewrite ipE -mx11_scalar.
    rewrite mul_mx_scalar scalerA.
    have -> : ip w e = - (1 - ip x e) by rewrite ipC Dw ipBr He ipC opprB.
    have -> : c * - (1 - ip x e) = -1.
    { rewrite mulrN /c Ew. congr (- _).
      have H1 : 1 - ip x e != 0.
      { apply: contra Hw => /eqP. by rewrite Ew => ->; rewrite mulr0. }
      by rewrite invfM mulrA mulfV ?mul1r ?mulVf // pnatr_eq0. }
    by rewrite scaleN1r opprK Dw addrC subrK.
Qed.

Theorem spectral_theorem n (A : 'M[R]_n) : A^T = A -> exists P d, spectral A P d.
Proof.
  elim: n A => [|n IH] A HA.
  { exists 1%:M, 0. split; first by rewrite /orthonormal trmx1 mulmx1.
    by apply/matrixP => -[]. }
  have [lam [x0 [Hx0 Ex0]]] := real_eigenvector HA.
  pose x := (nrm x0)^-1 *: x0.
  have Hx : ip x x = 1 := ip_normalised Hx0.
  have Ex : A *m x = lam *: x by rewrite -scalemxAr Ex0 scalerA mulrC -scalerA.
  pose e : 'cV[R]_(1 + n) := col_mx 1%:M 0.
  have He : ip e e = 1.
  { rewrite ipE tr_col_mx mul_row_col trmx0 mul0mx addr0 trmx1 mulmx1. by rewrite mxE. }
  have [H [Hs HH Hex]] := reflection Hx He.
  pose A1 : 'M_(1 + n) := H *m A *m H.
  have HA1 : A1^T = A1 by rewrite /A1 !trmx_mul Hs HA mulmxA.
  have EA1 : A1 *m e = lam *: e.
  { by rewrite /A1 -!mulmxA Hex Ex -scalemxAr -Hex mulmxA HH mul1mx. }
  have Eul : ulsubmx A1 = lam%:M.
  { have := congr1 usubmx EA1. rewrite -{1}[A1]submxK mul_block_col !mulmx1 !mulmx0 !addr0 col_mxKu.
    by rewrite scale_col_mx col_mxKu scalemx1. }
  have Edl : dlsubmx A1 = 0.
  { have := congr1 dsubmx EA1. rewrite -{1}[A1]submxK mul_block_col !mulmx1 !mulmx0 !addr0 col_mxKd.
    by rewrite scale_col_mx col_mxKd scaler0. }
  have Eur : ursubmx A1 = 0.
  { by rewrite -HA1 -trmx_dlsub Edl trmx0. }
  have Hdr : (drsubmx A1)^T = drsubmx A1 by rewrite trmx_drsub HA1.
  have [P [d [HP HD]]] := IH _ Hdr.
  pose Q : 'M_(1 + n) := block_mx 1%:M 0 0 P.
  have HQ : Q^T *m Q = 1%:M.
  { rewrite /Q tr_block_mx !trmx0 trmx1 mulmx_block !mulmx0 !mul0mx !addr0 !add0r mulmx1 HP.
    by rewrite -scalar_mx_block. }
  exists (H *m Q), (row_mx lam%:M d : 'rV_(1 + n)). split.
  { rewrite /orthonormal trmx_mul Hs mulmxA -(mulmxA Q^T) HH mulmx1. exact: HQ. }
  have -> : A = H *m A1 *m H.
  { by rewrite /A1 !mulmxA HH mul1mx -mulmxA HH mulmx1. }
  clearbody A1. rewrite trmx_mul Hs !mulmxA. congr (_ *m _). rewrite -!mulmxA. congr (_ *m _).
  have -> : diag_mx (row_mx lam%:M d : 'rV_(1 + n)) = block_mx lam%:M 0 0 (diag_mx d).
  { rewrite diag_mx_row. congr (block_mx _ _ _ _). by rewrite [RHS]mx11_scalar; apply/matrixP => i j; rewrite !ord1 !mxE. }
  have EQ : Q^T = block_mx 1%:M 0 0 P^T by rewrite /Q tr_block_mx !trmx0 trmx1.
  rewrite EQ. rewrite -[LHS]submxK Eul Eur Edl HD.
  have E1 : block_mx lam%:M 0 0 (diag_mx d) *m block_mx 1%:M 0 0 P^T
    = block_mx lam%:M 0 0 (diag_mx d *m P^T) :> 'M[R]_(1 + n).
  { by rewrite mulmx_block !mulmx0 !mul0mx !addr0 !add0r mulmx1. }
  have E2 : Q *m block_mx lam%:M 0 0 (diag_mx d *m P^T)
    = block_mx lam%:M 0 0 (P *m (diag_mx d *m P^T)) :> 'M[R]_(1 + n).
  { by rewrite mulmx_block !mulmx0 !mul0mx !addr0 !add0r mul1mx. }
  by rewrite E1 E2 mulmxA.
Qed.

End SpectralTheorem.

Section Svd.
Variable R : rcfType.

Lemma svd_exists k (B : 'M[R]_k) : (forall x : 'cV_k, B *m x = 0 -> x = 0) ->
  exists (X Y : 'M[R]_k) (s : 'rV[R]_k),
    [/\ X^T *m X = 1%:M, Y^T *m Y = 1%:M & B = X *m diag_mx s *m Y^T].
Proof.
  move=> HB.
  have HS : (B^T *m B)^T = B^T *m B by rewrite trmx_mul trmxK.
  have [Y [d [HY HD]]] := spectral_theorem HS.
  have HY2 : Y *m Y^T = 1%:M := mulmx1C HY.
  have Ed : Y^T *m B^T *m B *m Y = diag_mx d.
  { rewrite -(mulmxA Y^T) HD !mulmxA HY mul1mx -mulmxA HY mulmx1. by []. }
  have Hd : forall i, 0 < d 0 i.
  { move=> i. have Ec : ip (B *m col i Y) (B *m col i Y) = d 0 i.
    { have E : (B *m col i Y)^T *m (B *m col i Y)
        = delta_mx (0 : 'I_1) i *m (Y^T *m B^T *m B *m Y) *m delta_mx i 0.
      { by rewrite colE !trmx_mul trmx_delta !mulmxA. }
      by rewrite ipE E Ed -rowE -colE !mxE eqxx mulr1n. }
    rewrite lt_def -Ec ip_ge0 andbT ip_eq0. apply/eqP => /HB E.
    have : Y^T *m (Y *m delta_mx i (0 : 'I_1)) = 0 by rewrite -colE E mulmx0.
    rewrite mulmxA HY mul1mx => /matrixP /(_ i 0). rewrite !mxE !eqxx => /eqP. by rewrite oner_eq0. }
  pose s : 'rV[R]_k := \row_i Num.sqrt (d 0 i). pose si : 'rV[R]_k := \row_i (Num.sqrt (d 0 i))^-1.
  have Hs : forall i, Num.sqrt (d 0 i) != 0 by move=> i; rewrite sqrtr_eq0 -ltNge.
  exists (B *m Y *m diag_mx si), Y, s. split => //.
  - rewrite !trmx_mul tr_diag_mx !mulmxA -3!(mulmxA (diag_mx si)) Ed !mulmx_diag.
    apply/matrixP => i j. rewrite !mxE. case: eqP => // _. congr (_ *+ _).
    by rewrite mulrAC -invfM -expr2 sqr_sqrtr ?ltW // mulVf // gt_eqF.
  - rewrite -(mulmxA _ (diag_mx si)) mulmx_diag.
    have -> : diag_mx (\row_i (si 0 i * s 0 i)) = 1%:M :> 'M[R]_k.
    { apply/matrixP => i j. by rewrite !mxE mulVf. }
    by rewrite mulmx1 -mulmxA HY2 mulmx1.
Qed.

Lemma bidiag_injective k (a b : nat -> R) (x : 'cV[R]_k) :
  (forall i, (i < k)%N -> a i != 0) -> bidiag k a b *m x = 0 -> x = 0.
Proof.
  move=> Ha E.
  have Hrow : forall i : 'I_k, (forall j : 'I_k, (i < j)%N -> x j 0 = 0) -> x i 0 = 0.
  { move=> i Hi. have := congr1 (fun M : 'cV_k => M i 0) E. rewrite !mxE (bigD1 i) //= !mxE eqxx.
    rewrite big1 ?addr0.
    - move/eqP. rewrite ?eqxx mulf_eq0 (negbTE (Ha i (ltn_ord i))). by move/eqP.
    - move=> j Hj. rewrite mxE. case: eqP => [Eij|_].
      { move: Hj. rewrite -(inj_eq val_inj) /= Eij => /negP []. exact/eqP. }
      case: eqP => [Eij|_]; last by rewrite mul0r. by rewrite Hi ?mulr0 // Eij. }
  have H : forall l (i : 'I_k), (k - i <= l)%N -> x i 0 = 0.
  { elim=> [|l IH] i Hl; first by have := ltn_ord i; lia.
    apply: Hrow => j Hj. apply: IH. have := ltn_ord j. lia. }
  apply/colP => i. rewrite mxE. exact: (H k i (leq_subr _ _)).
Qed.

End Svd.

(** The assumptions about the LAPACK routines can be met. *)
Section Exist.
Variable R : rcfType.

Lemma tridiag_sym k (a b : nat -> R) : (tridiag k a b)^T = tridiag k a b.
Proof.
  apply/matrixP => i j. rewrite !mxE.
  by do !case: eqP => ?; try lia; try done; congr (a _).
Qed.

Definition columns k (P : 'M[R]_k.+1) : seq R :=
  mkseq (fun l => P (inord (l %% k.+1)) (inord (l %/ k.+1))) (k.+1 * k.+1).

Lemma columnsE k (P : 'M[R]_k.+1) (i r : 'I_k.+1) : (columns P)`_(i * k.+1 + r) = P r i.
Proof.
  have Hi := ltn_ord i. have Hr := ltn_ord r.
  have Hl : (i * k.+1 + r < k.+1 * k.+1)%N.
  { apply: (@leq_trans (i.+1 * k.+1)); first by rewrite mulSn addnC ltn_add2r.
    by rewrite leq_mul2r Hi orbT. }
  rewrite nth_mkseq // modnMDl divnMDl // modn_small // divn_small // addn0.
  by rewrite !inord_val.
Qed.

Definition is_spectral k (M : 'M[R]_k) (x : 'M[R]_k * 'rV[R]_k) : bool :=
  (x.1^T *m x.1 == 1%:M) && (M == x.1 *m diag_mx x.2 *m x.1^T).

Lemma some_spectral k (a b : nat -> R) : exists x, is_spectral (tridiag k a b) x.
Proof.
  have [P [d [H1 H2]]] := spectral_theorem (tridiag_sym k a b). exists (P, d).
  rewrite /is_spectral /= -H2 eqxx andbT. by apply/eqP.
Qed.

Definition some_eigh (k : nat) (alpha beta : seq R) : option (seq R * seq R) :=
  if k is k'.+1 then
    let x := xchoose (some_spectral k'.+1 (nth 0 alpha) (nth 0 beta)) in
    Some (mkseq (fun i => x.2 0 (inord i)) k'.+1, columns x.1)
  else None.

Theorem eigh_contract_met : exists eigh, eigh_contract (R := R) eigh.
Proof.
  exists some_eigh => -[//|k] alpha beta _ _ _ /=.
  set x := xchoose _. have /andP [/eqP H1 /eqP H2] : is_spectral _ x := xchooseP _.
  eexists; eexists; split; first by [].
  - by rewrite size_mkseq.
  - by rewrite size_mkseq.
  - have -> : \matrix_(r < k.+1, i < k.+1) (columns x.1)`_(i * k.+1 + r) = x.1.
    { apply/matrixP => r i. by rewrite mxE columnsE. }
    have -> : \row_(i < k.+1) (mkseq (fun i => x.2 0 (inord i)) k.+1)`_i = x.2.
    { apply/rowP => i. by rewrite mxE nth_mkseq // inord_val. }
    by split.
Qed.

Definition is_svd k (M : 'M[R]_k) (x : 'M[R]_k * 'M[R]_k * 'rV[R]_k) : bool :=
  [&& x.1.1^T *m x.1.1 == 1%:M, x.1.2 *m x.1.2^T == 1%:M & M == x.1.1 *m diag_mx x.2 *m x.1.2].

Lemma some_is_svd k (a b : nat -> R) : [forall i : 'I_k, a i != 0] ->
  exists x, is_svd (bidiag k a b) x.
Proof.
  move=> /forallP Ha.
  have [x|X [Y [s [H1 H2 H3]]]] := @svd_exists R k (bidiag k a b).
  { apply: bidiag_injective => i Hi. exact: (Ha (Ordinal Hi)). }
  exists (X, Y^T, s). by rewrite /is_svd /= H1 trmxK H2 -H3 !eqxx.
Qed.

Definition some_svd (k : nat) (alpha beta : seq R) : option (seq R * seq R) :=
  if k is k'.+1 then
    if @idP [forall i : 'I_k'.+1, alpha`_i != 0] is ReflectT H then
      let x := xchoose (@some_is_svd k'.+1 (nth 0 alpha) (nth 0 beta) H) in
      Some (mkseq (fun i => x.2 0 (inord i)) k'.+1, columns x.1.2)
    else None
  else None.

Theorem svd_contract_met : exists svd, svd_contract (R := R) svd.
Proof.
  exists some_svd => -[//|k] alpha beta _ _ _ Ha /=.
  case: {-}_ / idP => [H|[]]; last by apply/forallP => i; exact: Ha.
  set x := xchoose _. have /and3P [/eqP H1 /eqP H2 /eqP H3] : is_svd _ x := xchooseP _.
  eexists; eexists; exists x.1.1; split; first by [].
  - by rewrite size_mkseq.
  - by rewrite size_mkseq.
  - have -> : \matrix_(i < k.+1, r < k.+1) (columns x.1.2)`_(r * k.+1 + i) = x.1.2.
    { apply/matrixP => r i. by rewrite mxE columnsE. }
    have -> : \row_(i < k.+1) (mkseq (fun i => x.2 0 (inord i)) k.+1)`_i = x.2.
    { apply/rowP => i. by rewrite mxE nth_mkseq // inord_val. }
    by split.
Qed.

End Exist.
