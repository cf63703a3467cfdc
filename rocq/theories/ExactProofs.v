(** From the recurrences to the statements of LanczosSpec and SlqSpec. *)
From mathcomp Require Import all_ssreflect all_algebra.
From mathcomp Require Import zify.
From Verif Require Import Mem KernelModel KernelSpec LanczosModel LanczosSpec LanczosMath
  LanczosProofs GolubKahnProofs SlqModel SlqSpec SlqProofs.
Set Implicit Arguments.
Unset Strict Implicit.
Unset Printing Implicit Defensive.
Import GRing.Theory Num.Theory Order.TTheory.
Local Open Scope ring_scope.

Section Exact.
Variable R : rcfType.
Variable n' : nat.
Notation n := n'.+1.
Variable A : 'M[R]_n.
Variable w : 'cV[R]_n.
Hypothesis w_nz : w != 0.
Variable k : nat.

Lemma ip_q0 (F : 'M[R]_n) :
  ip ((nrm w)^-1 *: w) (F *m ((nrm w)^-1 *: w)) = rayleigh F w.
Proof.
  rewrite -scalemxAr ipZr ipC ipZr mulrA -invfM -expr2 nrm_sqr /rayleigh mulrC.
  by rewrite ipC.
Qed.

Lemma col0_basis : col 0 (basis A w k) = (nrm w)^-1 *: w.
Proof. exact: basis_col. Qed.

Section Sym.
Hypothesis A_sym : A^T = A.
Hypothesis Ha : alive A w k.

Lemma lanczos_result_ok : lanczos_result A w (basis A w k) (Tm A w k) (lzr A w k).
Proof.
  split.
  - exact: basis_orthonormal.
  - exact: col0_basis.
  - split; first exact: gram_is_T. by exists (lza A w), (lzb A w).
  - exact: basis_residual.
  - exact: lz_relation.
Qed.

Lemma exact_poly Q d (g : R -> R) (p : {poly R}) :
  spectral (Tm A w k) Q d -> (size p <= 2 * k.+1)%N \/ lzr A w k = 0 ->
  (forall i, g (d 0 i) = p.[d 0 i]) ->
  matrix_function g Q d 0 0 = rayleigh (horner_mx A p) w.
Proof.
  move=> Hsp Hp Hg. rewrite (matrix_function_poly Hsp Hg) -gauss //; first exact: ip_q0.
  case: Hp => Hp; [left; by rewrite addnn -mul2n|by right].
Qed.

Lemma exact_any Q d (g : R -> R) P e :
  spectral (Tm A w k) Q d -> lzr A w k = 0 -> spectral A P e ->
  matrix_function g Q d 0 0 = rayleigh (matrix_function g P e) w.
Proof.
  move=> Hsp Hr HA.
  have [p Hp] := interpolation g ([seq d 0 i | i : 'I_k.+1] ++ [seq e 0 i | i : 'I_n]).
  rewrite (exact_poly (p := p) Hsp (or_intror Hr)).
  - rewrite (matrix_function_poly (p := p) HA) // => i. rewrite Hp // mem_cat.
    apply/orP; right. by apply/imageP; exists i.
  - move=> i. rewrite Hp // mem_cat. apply/orP; left. by apply/imageP; exists i.
Qed.

End Sym.

Section Gram.
Hypothesis Ha : gkalive A w k.
Hypothesis Hk : gka A w k != 0.

Lemma gk_AtU : A^T *m gkU A w k = gkV A w k *m (gkB A w k)^T + gky A w k *m delta_mx 0 ord_max.
Proof.
  apply/matrixP => i j.
  have -> : (A^T *m gkU A w k) i j = (A^T *m gku A w j) i 0.
  { rewrite mxE [RHS]mxE. apply: eq_bigr => l _. by rewrite [gkU _ _ _ _ _]mxE. }
  rewrite gkAt [in RHS]mxE [in LHS]mxE.
  have -> : (gkV A w k *m (gkB A w k)^T) i j
    = \sum_(l < k.+1) gkv A w l i 0 * gkB A w k j l.
  { rewrite mxE. apply: eq_bigr => l _. by rewrite [gkV _ _ _ _ _]mxE [(_^T) _ _]mxE. }
  have -> : (gky A w k *m delta_mx 0 ord_max : 'M_(n, k.+1)) i j
    = gky A w k i 0 * (j == ord_max)%:R.
  { by rewrite mxE big_ord_recl big_ord0 addr0 !mxE eqxx. }
  have E1 : gkB A w k j j = gka A w j by rewrite mxE eqxx.
  rewrite (bigD1 j) //= E1.
  case: (ltnP j k) => Hj.
  - have Hj1 : (j.+1 < k.+1)%N by [].
    have Hne : Ordinal Hj1 != j by rewrite -(inj_eq val_inj) /= gtn_eqF.
    rewrite (bigD1 (Ordinal Hj1)) //= big1 ?addr0; last first.
    { move=> l /andP [Hl1 Hl2]. rewrite mxE.
      rewrite -!(inj_eq val_inj) /= in Hl1 Hl2.
      by rewrite eq_sym (negbTE Hl1) (negbTE Hl2) mulr0. }
    have E2 : gkB A w k j (Ordinal Hj1) = gkb A w j by rewrite mxE /= ltn_eqF // eqxx.
    rewrite E2 gkvS.
    have -> : (j == ord_max) = false by rewrite -(inj_eq val_inj) /= ltn_eqF.
    have [_ Hb] := Ha Hj.
    rewrite mulr0 addr0 addrC. congr (_ + _); first by rewrite mxE mulrC.
    by rewrite [X in _ = X * _]mxE mulrC mulrA mulfV // mul1r.
  - have Ej : j = ord_max by apply: val_inj => /=; have := ltn_ord j; lia.
    rewrite big1 ?addr0; last first.
    { move=> l Hl. rewrite mxE. rewrite -(inj_eq val_inj) /= in Hl.
      rewrite eq_sym (negbTE Hl). case: eqP => E; last by rewrite mulr0.
      have := ltn_ord l. lia. }
    rewrite Ej eqxx mulr1 addrC. congr (_ + _); by rewrite mxE mulrC.
Qed.

Lemma golub_kahn_result_ok :
  golub_kahn_result A w (gkU A w k) (gkV A w k) (gkB A w k) (gky A w k).
Proof.
  split.
  - exact: gkU_orthonormal.
  - exact: gkV_orthonormal.
  - by apply/colP => i; rewrite mxE [LHS]mxE.
  - split; first exact: gk_AV. by exists (gka A w), (gkb A w).
  - split; first exact: gk_BtB.
    + apply/matrixP => i j. rewrite [RHS]mxE ord1.
      have Hi : (i <= k)%N := ltn_ord i.
      rewrite -[RHS](gky_orth w_nz Ha Hk Hi) mxE. by apply: eq_bigr => l _; rewrite !mxE.
    + exact: gk_AtU.
Qed.

Lemma gk_Tm : (gkB A w k)^T *m gkB A w k = Tm (A^T *m A) w k.
Proof. exact: gk_T. Qed.

Lemma gram_exact_poly Q d (g : R -> R) (p : {poly R}) :
  spectral ((gkB A w k)^T *m gkB A w k) Q d -> (size p <= 2 * k.+1)%N \/ gky A w k = 0 ->
  (forall i, g (d 0 i) = p.[d 0 i]) ->
  matrix_function g Q d 0 0 = rayleigh (horner_mx (A^T *m A) p) w.
Proof.
  rewrite gk_Tm => Hsp Hp Hg.
  have Hal := gk_lz_alive w_nz Ha. have Hs := ata_sym A.
  have Eq : lzq (A^T *m A) w 0 = (nrm w)^-1 *: w by [].
  rewrite (matrix_function_poly Hsp Hg) -gauss //; first exact: ip_q0.
  case: Hp => Hp; [left; by rewrite addnn -mul2n|right].
  by rewrite gk_lzr // Hp scaler0.
Qed.

Lemma gram_exact_any Q d (g : R -> R) P e :
  spectral ((gkB A w k)^T *m gkB A w k) Q d -> gky A w k = 0 -> spectral (A^T *m A) P e ->
  matrix_function g Q d 0 0 = rayleigh (matrix_function g P e) w.
Proof.
  move=> Hsp Hr HA.
  have [p Hp] := interpolation g ([seq d 0 i | i : 'I_k.+1] ++ [seq e 0 i | i : 'I_n]).
  rewrite (gram_exact_poly (p := p) Hsp (or_intror Hr)).
  - rewrite (matrix_function_poly (p := p) HA) // => i. rewrite Hp // mem_cat.
    apply/orP; right. by apply/imageP; exists i.
  - move=> i. rewrite Hp // mem_cat. apply/orP; left. by apply/imageP; exists i.
Qed.

End Gram.
End Exact.
