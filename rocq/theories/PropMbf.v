(** C48: with p = 2 the interpolator kind='mbf' is exact at every t. *)
Require Import Reals Lra.
From mathcomp Require Import all_ssreflect all_algebra zify.
From mathcomp.real_closed Require Import complex.
From Verif Require Import MatSpec RealField EigenModel SchattenModel PropSchatten.
From Verif Require TraceModel PropTrace CholModel.
From Verif Require Import InterpModel PropInterp.
Set Implicit Arguments.
Unset Strict Implicit.
Unset Printing Implicit Defensive.
Import Order.TTheory GRing.Theory Num.Theory.
Local Open Scope ring_scope.
Local Notation toC := (real_complex R).

(** The result of schatten as a real number (_interpolant_base.py 140-149) *)
Definition real_result (r : option R[i]) : res R :=
  if r is Some z then guard (complex.Im z != 0) NotFinite (complex.Re z) else Raise NotFinite.

Section C48.
(** The routines and options of the other methods, which are not used *)
Variables (E : eig_routines) (F : CholModel.routines R_rcfType).
Variables (sym : bool) (b : CholModel.backend) (inv : bool).

(** schatten(M, p=2, method='exact') *)
Definition schatten2 n (M : 'M[R]_n) : res R :=
  real_result (schatten E F sym b inv Exact M (PyInt 2)).

Lemma schatten2E n (M : 'M[R]_n) : (0 < n)%N -> 0 <= \tr (M *m M) ->
  schatten2 M = Ok (Num.sqrt (\tr (M *m M) / n%:R)).
Proof.
move=> Hn Hge. rewrite /schatten2 /schatten /schatten_of /value pnatr_eq0 ltr0n -[(2 == 0)%N]/false -[(0 < 2)%N]/true.
have EM : mxpow M 2 = M *m M by rewrite /mxpow /= mulmx1.
rewrite /trace PropTrace.C34_trace_of_power EM /= /ndiv pnatr_eq0 -[_ == 0%N]negbK -lt0n Hn /=.
have Hge' : 0 <= \tr (M *m M) / n%:R by rewrite divr_ge0 ?ler0n.
have -> : npow (\tr (M *m M) / n%:R) (1 / 2%:~R)%R = Some (Num.sqrt (\tr (M *m M) / n%:R)).
  move: Hge'; rewrite le_eqVlt => /orP [/eqP <-|Hgt].
    by rewrite /npow ltxx eqxx sqrtr0 ifT // divr_gt0 ?ltr01 // ltr0n.
  rewrite npow_pos //; congr Some. rewrite RsqrtE ?ltW //. rewrite -Rpower_sqrt; last exact/RltP.
  by congr Rpower; rewrite mul1r RinvE ?pnatr_eq0.
by rewrite /= /guard eqxx.
Qed.

Lemma tr_sym_ge0 n (M : 'M[R]_n) : M^T = M -> 0 <= \tr (M *m M).
Proof.
move=> HM. rewrite -{1}HM /mxtrace. apply: sumr_ge0 => i _. rewrite mxE.
by apply: sumr_ge0 => k _; rewrite mxE -expr2 sqr_ge0.
Qed.

Lemma tr_sym_gt0 n (M : 'M[R]_n) : M^T = M -> M != 0 -> 0 < \tr (M *m M).
Proof.
move=> HM NM. rewrite lt_def tr_sym_ge0 // andbT. apply: contra NM => /eqP.
rewrite -{1}HM /mxtrace => H. apply/eqP/matrixP => k i; rewrite mxE.
have /eqP := H; rewrite psumr_eq0; last first.
  by move=> j _; rewrite mxE; apply: sumr_ge0 => l _; rewrite mxE -expr2 sqr_ge0.
move=> /allP /(_ i (mem_index_enum _)) /implyP /(_ isT).
rewrite mxE psumr_eq0; last by move=> l _; rewrite mxE -expr2 sqr_ge0.
by move=> /allP /(_ k (mem_index_enum _)) /implyP /(_ isT); rewrite mxE -expr2 sqrf_eq0 => /eqP.
Qed.

Lemma tr_square n (A B : 'M[R]_n) (t : R) :
  \tr ((A + t *: B) *m (A + t *: B)) =
  \tr (A *m A) + 2%:R * t * \tr (A *m B) + t ^+ 2 * \tr (B *m B).
Proof.
rewrite mulmxDl !mulmxDr !linearD /= -!scalemxAl -!scalemxAr !linearZ /=.
rewrite (mxtrace_mulC B A). move: (\tr (A *m A)) (\tr (A *m B)) (\tr (B *m B)) => x y z. Rring.
Qed.

(** ** Theorem C48 *)
Theorem C48_exact_for_two n (A : 'M[R]_n) (B : option 'M[R]_n) ti : (0 < n)%N -> A^T = A ->
  (forall B', B = Some B' -> B'^T = B' /\ B' != 0) ->
  (ti = [::] /\ A != 0 \/ exists2 t1, ti = [:: t1] & t1 != 0) ->
  exists I, mbf (@schatten2 n) A B ti = Ok I /\
    forall t, exists v, eval (@schatten2 n) A B t = Ok v /\ I t = Ok v.
Proof.
move=> Hn HA HB Hti. set BM := matrix_B B.
have SB : BM^T = BM.
  by rewrite /BM /matrix_B; case: (B) HB => [B' /(_ _ erefl) []|_] //; rewrite trmx1.
have trB0 : 0 < \tr (BM *m BM).
  apply: tr_sym_gt0 => //. rewrite /BM /matrix_B; case: (B) HB => [B' /(_ _ erefl) []|_] //.
  by apply/eqP => /matrixP /(_ (Ordinal Hn) (Ordinal Hn)); rewrite !mxE eqxx => /eqP; rewrite oner_eq0.
have n0 : 0 < n%:R :> R by rewrite ltr0n.
pose sB := Num.sqrt (\tr (BM *m BM) / n%:R).
have sB0 : 0 < sB by rewrite sqrtr_gt0 divr_gt0.
have NB : norm_B (@schatten2 n) B = Ok sB.
  rewrite /norm_B /sB /BM /matrix_B; case: (B) HB => [B' /(_ _ erefl) [SB' _]|_].
    by rewrite schatten2E // tr_sym_ge0.
  by rewrite mulmx1 mxtrace1 divff ?gt_eqF // sqrtr1.
have sq2 t : 0 <= \tr ((A + t *: BM) *m (A + t *: BM)).
  by apply: tr_sym_ge0; rewrite linearD linearZ /= HA SB.
pose f t := Num.sqrt (\tr ((A + t *: BM) *m (A + t *: BM)) / n%:R).
have fE t : eval (@schatten2 n) A B t = Ok (f t) by rewrite /eval schatten2E.
have f0 : schatten2 A = Ok (f 0) by rewrite -fE /eval scale0r addr0.
have f2 t : (f t / sB) ^+ 2 = (f 0 / sB) ^+ 2 + 2%:R * t * (\tr (A *m BM) / \tr (BM *m BM)) + t ^+ 2.
  have sBE : sB ^+ 2 = \tr (BM *m BM) / n%:R by rewrite sqr_sqrtr // divr_ge0 ?ltW.
  have Ef s : (f s / sB) ^+ 2 = \tr ((A + s *: BM) *m (A + s *: BM)) / \tr (BM *m BM).
    rewrite expr_div_n sBE sqr_sqrtr; last by apply: divr_ge0; [apply: sq2|apply: ltW].
    by rewrite -mulf_div divff ?invr_eq0 ?gt_eqF // mulr1.
  rewrite !Ef !tr_square mulr0 mul0r expr0n /= mul0r !addr0 !mulrDl mulfK ?gt_eqF //.
  by rewrite mulrA.
have f_ge0 t : 0 <= f t / sB by rewrite divr_ge0 ?sqrtr_ge0 // ltW.
have [t1 Ht1 Nt1] : exists2 t1, match ti with
             | [::] => guard (f 0 / sB == 0) NotFinite (1 / (f 0 / sB))
             | [:: t] => Ok t
             | _ => Raise TypeError end = Ok t1 & t1 != 0.
  case: Hti => [[-> NA]|[t1 -> N]]; last by exists t1.
  have Nf : f 0 / sB != 0.
    rewrite gt_eqF // divr_gt0 // /f scale0r addr0 sqrtr_gt0 divr_gt0 // tr_sym_gt0 //.
  by exists (1 / (f 0 / sB)); [rewrite guardF|rewrite mul1r invr_eq0].
have [l Hl] : exists l, mapM (eval (@schatten2 n) A B) ti = Ok l.
  by apply: mapM_total => x _; exists (f x).
rewrite /mbf /base f0 NB /= guardF ?gt_eqF //= Hl /= Ht1 /= fE /=.
eexists; split; first by reflexivity.
move=> t; exists (f t); split=> //.
rewrite /mbf_interpolate guardF //=.
have -> : t ^+ 2 + ((f t1 / sB) ^+ 2 - (f 0 / sB) ^+ 2 - t1 ^+ 2) * (t / t1) + (f 0 / sB) ^+ 2 =
  (f t / sB) ^+ 2.
  rewrite (f2 t) (f2 t1). move: (\tr (A *m BM) / _) => c. set x := (f 0 / sB) ^+ 2.
  have -> : x + 2%:R * t1 * c + t1 ^+ 2 - x - t1 ^+ 2 = 2%:R * c * t1 by Rring.
  rewrite [t / t1]mulrC -!mulrA [t1 * _]mulrA divff // mul1r. Rring.
rewrite guardF /=; last by rewrite -leNgt sqr_ge0.
by rewrite sqrtr_sqr ger0_norm // divfK // gt_eqF.
Qed.
End C48.
