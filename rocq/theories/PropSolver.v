(** The accuracy of the samples of the Hutchinson method: C75. *)
From mathcomp Require Import all_ssreflect all_algebra.
From mathcomp Require Import zify.
From mathcomp.real_closed Require Import realalg.
From Verif Require Import KernelSpec LanczosSpec LanczosMath MatSpec CholMath PropSlq.
From Verif Require HutchModel.
From Verif Require Import PropHutch SolverModel SolverSpec.
Set Implicit Arguments.
Unset Strict Implicit.
Unset Printing Implicit Defensive.
Import GRing.Theory Num.Theory Order.TTheory.
Local Open Scope ring_scope.

Section Norm.
Variable R : rcfType.

Lemma ipDl n (x y z : 'cV[R]_n) : ip (x + y) z = ip x z + ip y z.
Proof. by rewrite ipC ipDr !(ipC z). Qed.

Lemma ip_le n (x y : 'cV[R]_n) : ip x y <= nrm x * nrm y.
Proof.
have [->|Hx] := eqVneq x 0; first by rewrite ipC ip0r mulr_ge0 ?nrm_ge0.
have [->|Hy] := eqVneq y 0; first by rewrite ip0r mulr_ge0 ?nrm_ge0.
pose u := (nrm x)^-1 *: x. pose v := (nrm y)^-1 *: y.
have Px : 0 < nrm x by rewrite lt_neqAle eq_sym nrm_eq0 Hx nrm_ge0.
have Py : 0 < nrm y by rewrite lt_neqAle eq_sym nrm_eq0 Hy nrm_ge0.
have H : ip u v <= 1.
{ have := ip_ge0 (u - v). rewrite ipBr !(ipC (u - v)) !ipBr (ipC v u) !ip_normalised //.
  rewrite -[ip u v - 1]opprB opprK -mulr2n pmulrn_lge0 //. by rewrite subr_ge0. }
have -> : ip x y = nrm x * (nrm y * ip u v).
{ have Ex : x = nrm x *: u by rewrite scalerA mulfV ?gt_eqF // scale1r.
  have Ey : y = nrm y *: v by rewrite scalerA mulfV ?gt_eqF // scale1r.
  transitivity (ip (nrm x *: u) (nrm y *: v)); first by rewrite -Ex -Ey.
  by rewrite ipZr ipC ipZr mulrCA (ipC v). }
by rewrite ler_pmul2l // ger_pmulr.
Qed.

Lemma nrmN n (x : 'cV[R]_n) : nrm (- x) = nrm x.
Proof. by rewrite -scaleN1r nrmZ normrN1 mul1r. Qed.

Lemma ip_abs n (x y : 'cV[R]_n) : `|ip x y| <= nrm x * nrm y.
Proof. rewrite ler_norml ip_le andbT ler_oppl -ipNr -(nrmN y). exact: ip_le. Qed.

Lemma nrm_tri n (x y : 'cV[R]_n) : nrm (x + y) <= nrm x + nrm y.
Proof.
rewrite -(@ler_pexpn2r _ 2) ?nnegrE ?addr_ge0 ?nrm_ge0 // nrm_sqr ipDr !ipDl (ipC y x) sqrrD -!nrm_sqr.
rewrite addrA ler_add2r -addrA ler_add2l -mulr2n. apply: ler_wmuln2r. exact: ip_le.
Qed.

Lemma nrm_triB n (x y : 'cV[R]_n) : nrm x <= nrm y + nrm (x - y).
Proof. have := nrm_tri y (x - y). by rewrite addrC subrK. Qed.
End Norm.

(** ** The error of a computed vector *)
Section Close.
Variables (R : rcfType) (n : nat).
Implicit Types (u v e x : 'cV[R]_n) (X : 'M[R]_n).

(** [u] is computed in place of [v] with the relative error G - 1, and the norm
    of v is at most N. *)
Definition close (G N : R) u v : Prop := nrm (u - v) <= (G - 1) * N /\ nrm v <= N.

Lemma close_refl e : close 1 (nrm e) e e.
Proof. split=> //. by rewrite !subrr mul0r /nrm ip0r sqrtr0. Qed.

Lemma close_ge0 G N u v : close G N u v -> 0 <= N.
Proof. move=> [_]. exact: le_trans (nrm_ge0 _). Qed.

Lemma close_nrm G N u v : close G N u v -> nrm u <= G * N.
Proof.
move=> [H1 H2]. apply: le_trans (nrm_triB u v) _. apply: le_trans (ler_add H2 H1) _.
by rewrite mulrBl mul1r addrC subrK.
Qed.

Lemma close_mul G N beta (B : option 'M[R]_n) u v : 0 <= beta -> stretches_at_most beta B ->
  close G N u v -> close G (beta * N) (if B is Some B then B *m u else u) (if B is Some B then B *m v else v).
Proof.
move=> Hb HB [H1 H2]. split.
- have -> : (if B is Some B then B *m u else u) - (if B is Some B then B *m v else v)
    = (if B is Some B then B *m (u - v) else u - v) by case: (B) => // B'; rewrite mulmxBr.
  apply: le_trans (HB _) _. rewrite mulrCA. exact: ler_wpmul2l.
- apply: le_trans (HB _) _. exact: ler_wpmul2l.
Qed.

Lemma close_weak G N N' u v : 1 <= G -> N <= N' -> close G N u v -> close G N' u v.
Proof.
move=> HG HN [H1 H2]. split; last exact: le_trans HN.
apply: le_trans H1 _. apply: ler_wpmul2l => //. by rewrite subr_ge0.
Qed.

Lemma shrink_unit lam X : 0 < lam -> shrinks_at_most lam X -> X \in unitmx.
Proof.
move=> Hl HX. rewrite -unitmx_tr -row_free_unit -kermx_eq0. apply/eqP/row_matrixP => i. rewrite row0.
set r := row i _. have H0 : X *m r^T = 0.
{ rewrite -[X]trmxK -trmx_mul. have -> : r *m X^T = 0 by apply/sub_kermxP; exact: row_sub. exact: trmx0. }
have := HX r^T. rewrite H0 {2}/nrm ip0r sqrtr0 pmulr_rle0 // => H1.
have : nrm r^T == 0 by rewrite eq_le H1 nrm_ge0.
rewrite nrm_eq0 => /eqP E. by rewrite -[r]trmxK E trmx0.
Qed.

Lemma shrink_inv lam X v : 0 < lam -> shrinks_at_most lam X -> nrm (invmx X *m v) <= nrm v / lam.
Proof.
move=> Hl HX. rewrite ler_pdivl_mulr // mulrC. apply: le_trans (HX _) _.
by rewrite mulmxA mulmxV ?mul1mx ?(shrink_unit Hl HX).
Qed.

Lemma shrink_tr lam X : 0 < lam -> shrinks_at_most lam X -> shrinks_at_most lam X^T.
Proof.
move=> Hl HX v. have HU := shrink_unit Hl HX.
have [->|Hv] := eqVneq v 0; first by rewrite {1}/nrm ip0r sqrtr0 mulr0 nrm_ge0.
have Pv : 0 < nrm v by rewrite lt_neqAle eq_sym nrm_eq0 Hv nrm_ge0.
rewrite -(ler_pmul2r Pv) -mulrA -expr2 nrm_sqr.
have -> : ip v v = ip (X^T *m v) (invmx X *m v).
{ by rewrite -ip_adj mulmxA mulmxV // mul1mx. }
apply: le_trans (ler_wpmul2l (ltW Hl) (ip_le _ _)) _.
rewrite mulrCA. apply: ler_wpmul2l; first exact: nrm_ge0.
rewrite mulrC -ler_pdivl_mulr //. exact: shrink_inv.
Qed.

Lemma shrink_gram lam X : 0 < lam -> shrinks_at_most lam X -> shrinks_at_most (lam ^+ 2) (X^T *m X).
Proof.
move=> Hl HX v. rewrite -mulmxA. apply: le_trans (shrink_tr Hl HX _).
rewrite expr2 -mulrA. apply: ler_wpmul2l (HX _). exact: ltW.
Qed.

(** A system solved up to a relative residual *)
Lemma close_solve G N delta lam X u v x : 1 <= G -> 0 < lam -> 0 <= delta -> shrinks_at_most lam X ->
  close G N u v -> nrm (u - X *m x) <= delta * nrm u ->
  close (G * (1 + delta)) (N / lam) x (invmx X *m v).
Proof.
move=> HG Hl Hd HX HC Hr. have HU := shrink_unit Hl HX. have [H1 H2] := HC. split; last first.
  apply: le_trans (shrink_inv _ Hl HX) _. by rewrite ler_pmul2r ?invr_gt0.
have -> : x - invmx X *m v = invmx X *m ((X *m x - u) + (u - v)).
{ by rewrite addrA subrK mulmxBr mulmxA mulVmx // mul1mx. }
apply: le_trans (shrink_inv _ Hl HX) _. rewrite mulrA ler_pmul2r ?invr_gt0 //.
apply: le_trans (nrm_tri _ _) _. apply: le_trans (ler_add (_ : _ <= delta * (G * N)) H1) _.
  rewrite -nrmN opprB. apply: le_trans Hr _. apply: ler_wpmul2l => //. exact: close_nrm HC.
by rewrite mulrA -mulrDl mulrDr mulr1 [G * delta]mulrC addrA [delta * G + G]addrC.
Qed.

Lemma close_ip G N u v e : close G N u v -> `|ip e u - ip e v| <= nrm e * ((G - 1) * N).
Proof.
move=> [H1 H2]. rewrite -ipBr. apply: le_trans (ip_abs _ _) _. apply: ler_wpmul2l => //. exact: nrm_ge0.
Qed.

Lemma close_sqr G N u v : 1 <= G -> close G N u v -> `|ip u u - ip v v| <= (G ^+ 2 - 1) * N ^+ 2.
Proof.
move=> HG HC. have [H1 H2] := HC.
have -> : ip u u - ip v v = ip (u - v) (u + v).
{ by rewrite ipDr !(ipC (u - v)) !ipBr (ipC v u) addrA subrK. }
apply: le_trans (ip_abs _ _) _.
have H3 : nrm (u + v) <= (G + 1) * N.
{ apply: le_trans (nrm_tri _ _) _. rewrite mulrDl mul1r. apply: ler_add => //. exact: close_nrm HC. }
apply: le_trans (ler_pmul (nrm_ge0 _) (nrm_ge0 _) H1 H3) _.
by rewrite mulrACA -expr2 -subr_sqr expr1n.
Qed.
End Close.

Section Props.
Variables (R : rcfType) (E : routines R).

(** A call whose solution has a relative residual of at most [delta] *)
Definition accurate n (delta : R) (c : call R n) : Prop :=
  nrm (rhs c - sys c *m sol c) <= delta * nrm (rhs c).

(** The number 1 or 2: the singular values of A^T A are squares of those of A *)
Definition degree (gram : bool) : nat := if gram then 2%N else 1%N.

Section Run.
Variables (n : nat) (sparse : bool) (assume : assumption) (tol delta lam : R).
Hypotheses (delta_ge0 : 0 <= delta) (lam_gt0 : 0 < lam).
Implicit Types (A X : 'M[R]_n) (B C : option 'M[R]_n) (u v e x : 'cV[R]_n) (log : seq (call R n)).

Lemma linear_solver_log X u x log : linear_solver E sparse assume tol X u = Some (x, log) ->
  exists i, log = [:: Call X u x i].
Proof.
rewrite /linear_solver. case: sparse.
- by case: (rename assume) => //= -[<- <-]; eexists.
- by case: dense_solve => //= y [<- <-]; eexists.
Qed.

Lemma arrange (a b g c d l : R) : a * (b * (g * (c * (d * b * l)))) = a * b ^+ 2 * (d * c) * g * l.
Proof.
rewrite expr2 -!mulrA; congr (_ * (_ * _)). rewrite !mulrA; congr (_ * _). rewrite [LHS]mulrC -!mulrA.
congr (_ * _). by rewrite mulrC [c * d]mulrC mulrA.
Qed.

Lemma growth1 k : 1 <= (1 + delta) ^+ k.
Proof. apply: exprn_ege1. by rewrite ler_addl. Qed.

Lemma bindlE T U (m : logged R n T) (k : T -> logged R n U) y log : bindl m k = Some (y, log) ->
  exists (x : T) l1 l2, [/\ m = Some (x, l1), k x = Some (y, l2) & log = l1 ++ l2].
Proof.
rewrite /bindl. case: m => [[x l1]|] //=. case Ek : (k x) => [[y' l2]|] //= [<- <-].
by exists x, l1, l2.
Qed.

Lemma repeat_log X k u x log : repeat (solve E sparse assume tol (Some X)) k u = Some (x, log) ->
  List.Forall (fun c => sys c = X) log.
Proof.
elim: k u log => [|k IH] u log /=; first by move=> [_ <-].
move=> H. have [x1 [l1 [l2 [H1 H2 ->]]]] := bindlE H. have [i ->] := linear_solver_log H1. constructor=> //. exact: IH H2.
Qed.

Lemma repeat_close (mu : R) X k u v x log G N : 0 < mu -> shrinks_at_most mu X -> 1 <= G ->
  repeat (solve E sparse assume tol (Some X)) k u = Some (x, log) ->
  List.Forall (accurate delta) log -> close G N u v ->
  close (G * (1 + delta) ^+ k) (N / mu ^+ k) x (mxpow (invmx X) k *m v).
Proof.
move=> Hmu HX. elim: k u v log G N => [|k IH] u v log G N HG /=.
  move=> [-> _] _. by rewrite mul1mx divr1 mulr1.
move=> H HF HC. have [x1 [l1 [l2 [H1 H2 El]]]] := bindlE H. have [i Ei] := linear_solver_log H1.
rewrite El Ei in HF.
inversion HF as [|c l Hc Hl]; subst.
have HC1 := close_solve HG Hmu delta_ge0 HX HC Hc.
have HG1 : 1 <= G * (1 + delta) by apply: mulr_ege1 => //; rewrite ler_addl.
have := IH _ _ _ _ _ HG1 H2 Hl HC1.
rewrite -mulrA -exprS -[in X in close _ X]mulrA -invfM -exprS mulmxA -mxpowSr. by [].
Qed.

Lemma operator_close A AtA (p : int) (gram : bool) B beta u v x log G N : 0 <= p -> shrinks_at_most lam A ->
  (gram -> AtA = Some (A^T *m A)) -> (gram -> p = 1 -> B <> None) ->
  0 <= beta -> stretches_at_most beta B -> 1 <= G ->
  operator_dot E sparse assume tol A AtA p gram B u = Some (x, log) ->
  List.Forall (fun c => sys c = (if gram then A^T *m A else A)) log /\
  (List.Forall (accurate delta) log -> close G N u v ->
   close (G * (1 + delta) ^+ absz p) (beta * N / (lam ^+ degree gram) ^+ absz p) x
     (mxpowz (if gram then A^T *m A else A) (- p) *m (if B is Some B then B *m v else v))).
Proof.
move=> Hp HA HG HB Hb HS G1. rewrite /operator_dot.
set X := if gram then A^T *m A else A.
have HX : shrinks_at_most (lam ^+ degree gram) X.
{ rewrite /X /degree. case: (gram) => //; exact: shrink_gram. }
have Hl : 0 < lam ^+ degree gram by apply: exprn_gt0.
set BE := if B is Some B then B *m u else u. set BV := if B is Some B then B *m v else v.
case: eqP => [->|/eqP p0].
  move=> [<- <-]. split=> // _ HC. rewrite oppr0 /= mul1mx expr0 expr0 mulr1 divr1. exact: close_mul.
case: eqP => [p1|/eqP p1].
  have -> : (if gram then if B is None then solve E sparse assume tol (Some A^T) BE
             else solve E sparse assume tol AtA BE else solve E sparse assume tol (Some A) BE)
            = linear_solver E sparse assume tol X BE.
  { rewrite /X. case: gram HG HB {X HX Hl} => // HG HB. rewrite HG //=. case EB : B => //.
    by case: (HB isT p1). }
  move=> /linear_solver_log [i ->]. split; first by constructor.
  move=> HF HC. inversion HF as [|c l Hc Hn]; subst.
  rewrite /= !expr1 mxpow1. have HC2 := close_mul Hb HS HC. exact: (close_solve G1 Hl delta_ge0 HX HC2 Hc).
case: ltP => [p2|p2]; last by exfalso; lia.
have -> : (if gram then repeat (solve E sparse assume tol AtA) (absz p) BE
           else repeat (solve E sparse assume tol (Some A)) (absz p) BE)
          = repeat (solve E sparse assume tol (Some X)) (absz p) BE.
{ rewrite /X. by case: gram HG {HB X HX Hl} => // ->. }
move=> HR. split; first exact: repeat_log HR.
move=> HF HC. have HC' := close_mul Hb HS HC.
have := repeat_close Hl HX G1 HR HF HC'. rewrite -/BV.
by have -> : mxpowz X (- p) = mxpow (invmx X) (absz p) by case: p Hp p0 {p1 p2 HB HR} => // -[|k].
Qed.

(** The error of a sample, whatever the solver, in terms of the residuals *)
Lemma sample_close A B C (gram : bool) (p : int) beta gamma e y log : 0 <= p -> shrinks_at_most lam A ->
  0 <= beta -> 0 <= gamma -> stretches_at_most beta B -> stretches_at_most gamma C ->
  (gram -> p = 1 -> B <> None) ->
  solver_sample E sparse assume tol A B C gram p e = Some (y, log) ->
  List.Forall (fun c => sys c = (if gram then A^T *m A else A)) log /\
  (List.Forall (accurate delta) log -> exists2 y0, HutchModel.hutchinson_sample A B C gram p e = Some y0 &
    `|y - y0| <= n%:R * nrm e ^+ 2 * (beta * gamma) * growth delta (solves p C) / lam ^+ (degree gram * solves p C)).
Proof.
move=> Hp HA Hb Hc HSb HSc HB. rewrite /solver_sample /estimator.
have HU := shrink_unit lam_gt0 HA.
have HG : gram -> HutchModel.gramian A gram p B C = Some (A^T *m A).
{ move=> Hg. rewrite /HutchModel.gramian Hg. case: ifP => // /andP [/andP [/eqP p1 /eqP EB] _].
  by case: (HB Hg p1). }
have Hs : gram && (absz p == 1)%N && (B == None) && (C == None) = false.
{ apply/negP => /andP [/andP [/andP [Hg /eqP p1] /eqP EB] _]. apply: (HB Hg _ EB). lia. }
case: ifP => // _. rewrite Hs.
move=> H. have [x1 [l1 [l2 [H1 H' El]]]] := bindlE H. have [x2 [l3 [l4 [H2 [Ey El4] El2]]]] := bindlE H'. subst.
have [S1 C1] := operator_close e (nrm e) Hp HA HG HB Hb HSb (lexx 1) H1.
have Hdot := operator_dotE e HU (le_trans (isT : -1 <= 0 :> int) Hp) HG HB.
have HN : gram -> p != -1 by move=> _; apply: contraTneq Hp => ->.
set X := if gram then A^T *m A else A in S1 C1 Hdot *.
have Hdeg k : (lam ^+ degree gram) ^+ k = lam ^+ (degree gram * k) by rewrite exprM.
have Hy (w : 'cV[R]_n) : HutchModel.inner_product e w = ip e w by [].
have E0 : (if B is Some B then B else 1%:M) *m e = (if B is Some B then B *m e else e).
{ by case: (B) => //; rewrite mul1mx. }
have HS0 x : (if C is Some C' then HutchModel.operator_dot A (HutchModel.gramian A gram p B C) p gram C x else Some x)
    = Some (if C is Some C' then mxpowz X (- p) *m (C' *m x) else x) ->
  HutchModel.operator_dot A (HutchModel.gramian A gram p B C) p gram B e = Some x ->
  HutchModel.hutchinson_sample A B C gram p e =
  Some (n%:R * ip e (if C is Some C' then mxpowz X (- p) *m (C' *m x) else x)).
{ move=> HC Hx. rewrite /HutchModel.hutchinson_sample /HutchModel.estimator.
  case: ifP => [/andP [/andP [Hg /eqP]]|_]; first by rewrite HG.
  by rewrite Hx [obind _ _]/= HC /= Hs Hy. }
pose v1 := mxpowz X (- p) *m (if B is Some B then B *m e else e).
have D1 : HutchModel.operator_dot A (HutchModel.gramian A gram p B C) p gram B e = Some v1.
{ by rewrite Hdot // E0. }
pose k1 := absz p. have G1 : 1 <= (1 + delta) ^+ k1 by exact: growth1.
have fin k N v : close ((1 + delta) ^+ k) N x2 v ->
  `|n%:R * HutchModel.inner_product e x2 - n%:R * ip e v| <= n%:R * (nrm e * (((1 + delta) ^+ k - 1) * N)).
{ move=> HC. rewrite Hy -mulrBr normrM normr_nat. apply: ler_wpmul2l; first exact: ler0n. exact: close_ip HC. }
case EC : C H2 HSc HS0 D1 HG => [C'|] H2 HSc HS0 D1 HG; last first.
  move: H2 => [Ex <-]. rewrite !cats0. split=> // HF. subst x2.
  exists (n%:R * ip e v1); first exact: HS0.
  have := C1 HF (close_refl e). rewrite mul1r => HC.
  have HC' := close_mul Hc HSc HC.
  apply: le_trans (fin _ _ _ HC') _.
  have -> : solves p (None : option 'M[R]_n) = k1 by rewrite /solves /k1; case: (p) Hp.
  by rewrite arrange Hdeg.
have HBc : gram -> p = 1 -> Some C' <> None by [].
have [S2 C2] := operator_close v1 (beta * nrm e / (lam ^+ degree gram) ^+ k1) Hp HA HG HBc Hc HSc G1 H2.
rewrite cats0. split.
  apply/List.Forall_app. by split.
move=> /List.Forall_app [F1 F2]. exists (n%:R * ip e (mxpowz X (- p) *m (C' *m v1))).
  apply: (HS0 v1) => //. by rewrite operator_dotE // (le_trans _ Hp).
have := C1 F1 (close_refl e). rewrite mul1r => HC. have {}HC := C2 F2 HC.
rewrite -/X -exprD in HC.
apply: le_trans (fin _ _ _ HC) _.
have -> : solves p (Some C') = (k1 + k1)%N by rewrite /solves /k1; case: (p) Hp.
rewrite -Hdeg [X in _ <= _ / X]exprD invfM. set li := _^-1.
by rewrite -[gamma * _ * li]mulrA -[beta * _ * li * li]mulrA arrange.
Qed.

(** The case gram=True, p=1 with neither B nor C, where A^T x = e is solved *)
Lemma gram_close A e y log : shrinks_at_most lam A ->
  solver_sample E sparse assume tol A None None true 1 e = Some (y, log) ->
  List.Forall (fun c => sys c = A^T) log /\
  (List.Forall (accurate delta) log -> exists2 y0, HutchModel.hutchinson_sample A None None true 1 e = Some y0 &
    `|y - y0| <= n%:R * nrm e ^+ 2 * growth delta 2 / lam ^+ 2).
Proof.
move=> HA. have HU := shrink_unit lam_gt0 HA. rewrite /solver_sample /estimator /= => H.
have [x1 [l1 [l2 [H1 H' El]]]] := bindlE H. move: H'. rewrite /bindl /= => -[Ey El2].
have [i Ei] := linear_solver_log H1. subst. split; first by constructor.
move=> HF. inversion HF as [|c l Hc Hn]; subst.
exists (n%:R * ip (invmx A^T *m e) (invmx A^T *m e)).
  by rewrite /HutchModel.hutchinson_sample /HutchModel.estimator /= /HutchModel.operator_dot /= unitmx_tr HU.
have HC := close_solve (lexx 1) lam_gt0 delta_ge0 (shrink_tr lam_gt0 HA) (close_refl e) Hc.
have G1 : 1 <= 1 * (1 + delta) by rewrite mul1r ler_addl.
have -> : n%:R * nrm e ^+ 2 * growth delta 2 / lam ^+ 2 = n%:R * (growth delta 2 * (nrm e / lam) ^+ 2).
{ by rewrite expr_div_n [growth _ _ * _]mulrCA !mulrA. }
rewrite -mulrBr normrM normr_nat. apply: ler_wpmul2l; first exact: ler0n.
apply: le_trans (close_sqr G1 HC) _. by rewrite mul1r.
Qed.

(** A system whose residual is small compared to the solution: the stopping
    criterion of minres, where [a] is its estimate of the norm of the matrix *)
Definition small_residual (a : R) (c : call R n) : Prop :=
  nrm (rhs c - sys c *m sol c) <= tol * (a * nrm (sol c)).

Lemma minres_accurate (mu a : R) (c : call R n) : 0 <= tol -> 0 <= a -> tol * a < mu -> shrinks_at_most mu (sys c) ->
  small_residual a c -> accurate (tol * a / (mu - tol * a)) c.
Proof.
clear delta delta_ge0 lam lam_gt0.
case: c => X b x i /= Ht Ha Hmu HX. rewrite /small_residual /accurate /= mulrA.
set t := tol * a in Hmu *. have Ht0 : 0 <= t by apply: mulr_ge0.
have Pd : 0 < mu - t by rewrite subr_gt0. set r := nrm (b - X *m x) => Hr.
have Hx : mu * nrm x <= nrm b + r.
{ apply: le_trans (HX x) _. apply: le_trans (nrm_triB _ b) _. by rewrite -(nrmN (X *m x - b)) opprB. }
have Pmu : 0 < mu by exact: le_lt_trans Hmu.
rewrite mulrAC ler_pdivl_mulr // mulrBr ler_subl_addr [r * t]mulrC -mulrDr.
apply: le_trans (ler_wpmul2r (ltW Pmu) Hr) _. rewrite -mulrA. apply: ler_wpmul2l => //. by rewrite mulrC.
Qed.
End Run.

(** ** C75 *)

(** The flag info of every call says that the solver has converged. *)
Definition converged n (log : seq (call R n)) : Prop := List.Forall (fun c => info c = 0) log.

Lemma converged_accurate n assume tol (A : 'M[R]_n) (u x : 'cV[R]_n) log : routines_ok E ->
  assume <> Sym -> linear_solver E true assume tol A u = Some (x, log) -> converged log ->
  List.Forall (accurate tol) log.
Proof.
move=> EO HS. rewrite /linear_solver. case: assume HS => //= _ [Ex <-] HC; inversion HC as [|c l Hc Hn];
  subst; constructor=> //; rewrite /accurate /=.
- exact: gmres_ok.
- exact: cg_ok.
- exact: cg_ok.
Qed.

Section Log.
Variables (P Q : forall n, call R n -> Prop) (n : nat) (sparse : bool) (assume : assumption) (tol : R).
Hypothesis step : forall (A : 'M[R]_n) u x log, linear_solver E sparse assume tol A u = Some (x, log) ->
  List.Forall (@P n) log -> List.Forall (@Q n) log.

Lemma log_solve X u x log : solve E sparse assume tol X u = Some (x, log) ->
  List.Forall (@P n) log -> List.Forall (@Q n) log.
Proof. by case: X => // X; apply: step. Qed.

Lemma log_repeat X k u x log : repeat (solve E sparse assume tol X) k u = Some (x, log) ->
  List.Forall (@P n) log -> List.Forall (@Q n) log.
Proof.
elim: k u log => [|k IH] u log /=; first by move=> [_ <-].
move=> H. have [x1 [l1 [l2 [H1 H2 ->]]]] := bindlE H. move=> /List.Forall_app [F1 F2].
apply/List.Forall_app. split; [exact: log_solve H1 F1|exact: IH H2 F2].
Qed.

Lemma log_operator A AtA p gram B u x log : operator_dot E sparse assume tol A AtA p gram B u = Some (x, log) ->
  List.Forall (@P n) log -> List.Forall (@Q n) log.
Proof.
rewrite /operator_dot. case: eqP => _; first by move=> [_ <-].
case: eqP => _.
  case: gram; last exact: log_solve. case: B => [B|]; exact: log_solve.
case: ltP => _; first by case: gram; exact: log_repeat.
by case: eqP => // _ [_ <-].
Qed.

Lemma log_sample A B C gram p e y log : solver_sample E sparse assume tol A B C gram p e = Some (y, log) ->
  List.Forall (@P n) log -> List.Forall (@Q n) log.
Proof.
rewrite /solver_sample /estimator. case: ifP => // _ H.
have [x1 [l1 [l2 [H1 H' El]]]] := bindlE H. have [x2 [l3 [l4 [H2 [_ El4] El2]]]] := bindlE H'.
rewrite El El2 -El4 cats0 => /List.Forall_app [F1 F2]. apply/List.Forall_app. split.
- exact: log_operator H1 F1.
- case: C H2 {H H' H1} => [C|] H2; first exact: log_operator H2 F2. by move: H2 => [_ <-].
Qed.
End Log.

(** C75.  A sparse matrix with "gen", "pos" or "sym_pos": if the solver
    converges in every call, the samples are those of an operator with the
    documented trace, up to an error that the tolerance bounds.  Missing: calls
    in which the solver does not converge, see C75_unnoticed_refuted; "sym", see
    C75_sym_partial; p < -1 and two cases with gram, see C38. *)
Theorem C75_tolerance_partial n (A : 'M[R]_n) (B C : option 'M[R]_n) (gram : bool) (p : int) assume
    (tol lam beta gamma : R) : routines_ok E -> assume <> Sym -> 0 <= tol -> 0 < lam -> shrinks_at_most lam A ->
  0 <= beta -> 0 <= gamma -> stretches_at_most beta B -> stretches_at_most gamma C -> 0 <= p ->
  (gram -> p = 1 -> B <> None) ->
  exists2 Op : 'M[R]_n, \tr Op = documented_trace A B C gram p &
  forall e y log, solver_sample E true assume tol A B C gram p e = Some (y, log) -> converged log ->
    `|y - n%:R * (e^T *m Op *m e) 0 0| <=
    n%:R * nrm e ^+ 2 * (beta * gamma) * growth tol (solves p C) / lam ^+ (degree gram * solves p C).
Proof.
move=> EO HSym Ht Hl HA Hb Hc HB HC Hp Hg.
have [Op [HT HO]] : samples_documented A B C gram p.
{ apply: C38_samples_partial.
  - exact: shrink_unit Hl HA.
  - exact: le_trans Hp.
  - move=> _ Ep. by rewrite Ep in Hp.
  - by move=> H1 H2 /(Hg H1 H2). }
exists Op => // e y log HS Hcv.
have [_ HX] := sample_close Ht Hl Hp HA Hb Hc HB HC Hg HS.
have HF : List.Forall (accurate tol) log.
{ apply: (log_sample (P := fun m (c : call R m) => info c = 0) (Q := fun m => @accurate m tol) _ HS Hcv).
  move=> X u x l H1 H2. exact: converged_accurate H1 H2. }
have [y0 E0 Hy] := HX HF. by move: E0; rewrite HO => -[->].
Qed.

(** The same for gram=True, p=1 with neither B nor C *)
Theorem C75_tolerance_gram_partial n (A : 'M[R]_n) assume (tol lam : R) :
  routines_ok E -> assume <> Sym -> 0 <= tol -> 0 < lam -> shrinks_at_most lam A ->
  exists2 Op : 'M[R]_n, \tr Op = documented_trace A None None true 1 &
  forall e y log, solver_sample E true assume tol A None None true 1 e = Some (y, log) -> converged log ->
    `|y - n%:R * (e^T *m Op *m e) 0 0| <= n%:R * nrm e ^+ 2 * growth tol 2 / lam ^+ 2.
Proof.
move=> EO HSym Ht Hl HA.
have [Op [HT HO]] : samples_documented A None None true 1.
{ apply: C38_samples_partial => //. exact: shrink_unit Hl HA. }
exists Op => // e y log HS Hcv. have [_ HX] := gram_close Ht Hl HA HS.
have HF : List.Forall (accurate tol) log.
{ apply: (log_sample (P := fun m (c : call R m) => info c = 0) (Q := fun m => @accurate m tol) _ HS Hcv).
  move=> X u x l H1 H2. exact: converged_accurate H1 H2. }
have [y0 E0 Hy] := HX HF. by move: E0; rewrite HO => -[->].
Qed.

(** The mean of the samples over all vectors of signs, scaled to length 1: the
    trace itself up to the error of the solver. *)
Theorem C75_bias_partial n' (A : 'M[R]_n'.+1) (B C : option 'M[R]_n'.+1) (gram : bool) (p : int) assume
    (tol lam beta gamma : R) : routines_ok E -> assume <> Sym -> 0 <= tol -> 0 < lam -> shrinks_at_most lam A ->
  0 <= beta -> 0 <= gamma -> stretches_at_most beta B -> stretches_at_most gamma C -> 0 <= p ->
  (gram -> p = 1 -> B <> None) ->
  let n := n'.+1 in
  forall (sample : n.-tuple bool -> R) (log : n.-tuple bool -> seq (call R n)),
  (forall s, solver_sample E true assume tol A B C gram p ((Num.sqrt n%:R)^-1 *: vec n (signs R s))
             = Some (sample s, log s)) ->
  (forall s, converged (log s)) ->
  `|(2 ^ n)%:R^-1 * (\sum_s sample s) - documented_trace A B C gram p| <=
  n%:R * (beta * gamma) * growth tol (solves p C) / lam ^+ (degree gram * solves p C).
Proof.
move=> EO HSym Ht Hl HA Hb Hc HB HC Hp Hg n sample log HS HL.
have [Op HT HO] := C75_tolerance_partial EO HSym Ht Hl HA Hb Hc HB HC Hp Hg.
set bound := _ / _. rewrite -HT -C19_rademacher -mulrBr -sumrB normrM normrV ?unitfE ?pnatr_eq0 ?expn_eq0 // normr_nat.
rewrite mulrC ler_pdivr_mulr ?ltr0n ?expn_gt0 //. apply: le_trans (ler_norm_sum _ _ _) _.
have -> : bound * (2 ^ n)%:R = \sum_(s : n.-tuple bool) bound.
{ by rewrite sumr_const card_tuple card_bool mulr_natr. }
apply: ler_sum => s _. set v := vec n (signs R s). pose q : R := Num.sqrt n%:R.
have Hq : q ^+ 2 = n%:R by rewrite sqr_sqrtr ?ler0n.
have Hv : ip v v = n%:R.
{ rewrite /ip. under eq_bigr => i _. { rewrite signsE. over. }
  rewrite (eq_bigr (fun=> 1)) => [|i _]; last by case: ifP; rewrite ?mulrNN mulr1.
  by rewrite sumr_const card_ord. }
have E1 : nrm (q^-1 *: v) ^+ 2 = 1.
{ by rewrite nrm_sqr ipZr ipC ipZr Hv mulrA -expr2 exprVn Hq mulVf ?pnatr_eq0. }
have E2 : n%:R * ((q^-1 *: v)^T *m Op *m (q^-1 *: v)) 0 0 = ip v (Op *m v).
{ rewrite -mulmxA -ipE -scalemxAr ipZr ipC ipZr mulrA -expr2 exprVn Hq mulrA mulfV ?pnatr_eq0 // mul1r. exact: ipC. }
have := HO _ _ _ (HS s) (HL s). by rewrite E1 E2 mulr1.
Qed.

(** "sym": minres stops when the residual is small compared to the product of
    its estimate [a] of the norm of the matrix and the norm of the solution.
    The tolerance then counts by the condition number. *)
Theorem C75_sym_partial n (A : 'M[R]_n) (B C : option 'M[R]_n) (gram : bool) (p : int)
    (tol a lam beta gamma : R) : 0 <= tol -> 0 <= a -> 0 < lam -> shrinks_at_most lam A ->
  tol * a < lam ^+ degree gram ->
  0 <= beta -> 0 <= gamma -> stretches_at_most beta B -> stretches_at_most gamma C -> 0 <= p ->
  (gram -> p = 1 -> B <> None) ->
  let delta := tol * a / (lam ^+ degree gram - tol * a) in
  exists2 Op : 'M[R]_n, \tr Op = documented_trace A B C gram p &
  forall e y log, solver_sample E true Sym tol A B C gram p e = Some (y, log) ->
    List.Forall (small_residual tol a) log ->
    `|y - n%:R * (e^T *m Op *m e) 0 0| <=
    n%:R * nrm e ^+ 2 * (beta * gamma) * growth delta (solves p C) / lam ^+ (degree gram * solves p C).
Proof.
move=> Ht Ha Hl HA Hta Hb Hc HB HC Hp Hg delta.
have [Op [HT HO]] : samples_documented A B C gram p.
{ apply: C38_samples_partial.
  - exact: shrink_unit Hl HA.
  - exact: le_trans Hp.
  - move=> _ Ep. by rewrite Ep in Hp.
  - by move=> H1 H2 /(Hg H1 H2). }
exists Op => // e y log HS Hsm.
have Hd : 0 <= delta by apply: divr_ge0; [exact: mulr_ge0|rewrite subr_ge0 ltW].
have [Hsys HX] := sample_close Hd Hl Hp HA Hb Hc HB HC Hg HS.
have HF : List.Forall (accurate delta) log.
{ elim: log Hsm Hsys {HS HX} => [|c l IH] Hsm Hsys; first by constructor.
  inversion Hsm as [|c1 l1 Hc1 Hl1]; inversion Hsys as [|c2 l2 Hc2 Hl2]; subst. constructor; last exact: IH.
  apply: minres_accurate => //. rewrite Hc2. case: (gram) => //; exact: shrink_gram. }
have [y0 E0 Hy] := HX HF. by move: E0; rewrite HO => -[->].
Qed.

(** No system is solved if p is 0 or -1. *)
Theorem C75_no_solver n sparse assume tol (A : 'M[R]_n) (B C : option 'M[R]_n) (gram : bool) (p : int) e :
  p <= 0 -> solver_sample E sparse assume tol A B C gram p e =
  omap (fun y => (y, [::])) (HutchModel.hutchinson_sample A B C gram p e).
Proof.
move=> Hp.
have HD AtA (D : option 'M[R]_n) u : operator_dot E sparse assume tol A AtA p gram D u =
  omap (fun x => (x, [::])) (HutchModel.operator_dot A AtA p gram D u).
{ rewrite /operator_dot /HutchModel.operator_dot. case: eqP => // _.
  have -> : (p == 1) = false by lia. have -> : (1 < p) = false by lia. by case: eqP. }
rewrite /solver_sample /estimator /HutchModel.hutchinson_sample /HutchModel.estimator.
case: ifP => // _. rewrite HD. case: HutchModel.operator_dot => //= x.
case: C => [C|] //. rewrite /bindl /= HD. by case: HutchModel.operator_dot.
Qed.

(** A dense matrix that is as the caller says: the sample is the exact one, and
    no call returns for a matrix that is singular. *)
Definition as_assumed n (assume : assumption) (A : 'M[R]_n) : Prop :=
  match assume with
  | Gen => True
  | Sym => A^T = A
  | Pos | SymPos => posdef A
  | Other => False
  end.

Theorem C75_dense n assume tol (A : 'M[R]_n) (B C : option 'M[R]_n) (gram : bool) (p : int) e :
  routines_ok E -> as_assumed assume A ->
  omap fst (solver_sample E false assume tol A B C gram p e) = HutchModel.hutchinson_sample A B C gram p e.
Proof.
move=> EO HA.
have L (X : 'M[R]_n) u : as_assumed assume X ->
  omap fst (linear_solver E false assume tol X u) = HutchModel.solve (Some X) u.
{ rewrite /linear_solver /HutchModel.solve /=. case: assume {HA} => //= HX.
  - rewrite dense_gen_ok //. by case: ifP.
  - rewrite dense_sym_ok // HX symlow_id //. by case: ifP.
  - have [H _] := dense_pos_ok EO X u. have HU := posdef_unit HX. have [Hs _] := HX.
    rewrite /= in H. rewrite Hs symlow_id // in H. by rewrite H // HU.
  - have [H _] := dense_pos_ok EO X u. have HU := posdef_unit HX. have [Hs _] := HX.
    rewrite /= in H. rewrite Hs symlow_id // in H. by rewrite H // HU. }
have HT : as_assumed assume A^T by move: HA; case: (assume) => //= H; rewrite ?trmxK ?H // (proj1 H).
have bE T U (m : logged R n T) (k : T -> logged R n U) : omap fst (bindl m k) = obind (fun x => omap fst (k x)) (omap fst m).
{ rewrite /bindl. case: m => [[x l]|] //=. by case: (k x) => [[]|]. }
have LR (X : 'M[R]_n) k u : as_assumed assume X ->
  omap fst (repeat (solve E false assume tol (Some X)) k u) = HutchModel.repeat (HutchModel.solve (Some X)) k u.
{ move=> HX. elim: k u => [|k IH] u //. rewrite /HutchModel.repeat iterSr.
  rewrite -[repeat _ _ _]/(bindl (linear_solver E false assume tol X u) (repeat (solve E false assume tol (Some X)) k)).
  rewrite bE L //. rewrite -[obind _ (Some u)]/(HutchModel.solve (Some X) u).
  case: (HutchModel.solve (Some X) u) => [x|]; first exact: IH.
  by elim: k {IH} => [|k /= <-]. }
have HGA : A \in unitmx -> as_assumed assume (A^T *m A).
{ move=> HU. move: HA. case: (assume) => //= _; rewrite ?trmx_mul ?trmxK //;
  rewrite -{2}[A]trmxK; apply: gram_posdef; by rewrite unitmx_tr. }
have HS : as_assumed assume (A^T *m A).
{ move: HA HGA. case: (assume) => //= H HG; rewrite ?trmx_mul ?trmxK //; apply: HG; exact: posdef_unit. }
have HD AtA (D : option 'M[R]_n) u : AtA = None \/ AtA = Some (A^T *m A) ->
  omap fst (operator_dot E false assume tol A AtA p gram D u) = HutchModel.operator_dot A AtA p gram D u.
{ rewrite /operator_dot /HutchModel.operator_dot => HAA.
  case: eqP => // _. case: eqP => [_|p1].
  - case: gram; last exact: L. case: D => [D|]; last exact: L. case: HAA => -> //. exact: L.
  - case: ltP => [Hp|_]; last by case: eqP.
    case: gram; last exact: LR. case: HAA => ->; last exact: LR.
    case: p Hp {p1} => // -[|k] // _. rewrite /HutchModel.repeat iterSr /=. by elim: (k) => [|j /= <-]. }
rewrite /solver_sample /estimator /HutchModel.hutchinson_sample /HutchModel.estimator.
have HAA : HutchModel.gramian A gram p B C = None \/ HutchModel.gramian A gram p B C = Some (A^T *m A).
{ rewrite /HutchModel.gramian. case: (gram); last by left. case: ifP => _; by [left|right]. }
case: ifP => // _. rewrite bE HD //. case: HutchModel.operator_dot => //= x. rewrite bE.
case: C HAA => [C|] //= HAA. by rewrite HD.
Qed.

(** ** Refutations *)

(** What a solver says about its success has no effect on the result. *)
Theorem C75_info_ignored (E' : routines R) n sparse assume tol (A : 'M[R]_n) (B C : option 'M[R]_n) (gram : bool) (p : int) e :
  (forall m (X : 'M[R]_m) b, (minres E X b tol).1 = (minres E' X b tol).1) ->
  (forall m (X : 'M[R]_m) b, (cg E X b tol).1 = (cg E' X b tol).1) ->
  (forall m (X : 'M[R]_m) b, (gmres E X b tol).1 = (gmres E' X b tol).1) ->
  (forall a m (X : 'M[R]_m) b, dense_solve E a X b = dense_solve E' a X b) ->
  omap fst (solver_sample E sparse assume tol A B C gram p e) =
  omap fst (solver_sample E' sparse assume tol A B C gram p e).
Proof.
move=> H1 H2 H3 H4.
have L (X : 'M[R]_n) u : omap fst (linear_solver E sparse assume tol X u) = omap fst (linear_solver E' sparse assume tol X u).
{ rewrite /linear_solver. case: sparse; first by case: (rename assume) => //=; rewrite (H1, H2, H3).
  rewrite H4. by case: dense_solve. }
have bE T U (m : logged R n T) (k : T -> logged R n U) : omap fst (bindl m k) = obind (fun x => omap fst (k x)) (omap fst m).
{ rewrite /bindl. case: m => [[x l]|] //=. by case: (k x) => [[]|]. }
have LS (X : option 'M[R]_n) u : omap fst (solve E sparse assume tol X u) = omap fst (solve E' sparse assume tol X u).
{ by case: X => [X|] //=; exact: L. }
have LR (X : option 'M[R]_n) k u : omap fst (repeat (solve E sparse assume tol X) k u) = omap fst (repeat (solve E' sparse assume tol X) k u).
{ elim: k u => [|k IH] u //=. rewrite !bE LS. by case: (omap fst _) => //= x. }
have LD AtA D u : omap fst (operator_dot E sparse assume tol A AtA p gram D u) = omap fst (operator_dot E' sparse assume tol A AtA p gram D u).
{ rewrite /operator_dot. case: eqP => // _. case: eqP => _; first by case: gram => //; case: D.
  case: ltP => _ //. by case: gram. }
rewrite /solver_sample /estimator. case: ifP => // _. rewrite !bE LD. case: (omap fst _) => //= x.
rewrite !bE. congr obind. case: C => [C|] //.
Qed.
End Props.

(** ** Routines that are as assumed *)
Section Ref.
Variable R : rcfType.

Definition dense_ref (a : assumption) n (A : 'M[R]_n) (b : 'cV[R]_n) : option 'cV[R]_n :=
  let S := symlow A^T in
  match a with
  | Gen => if A \in unitmx then Some (invmx A *m b) else None
  | Sym => if S \in unitmx then Some (invmx S *m b) else None
  | Pos => if chol_ref A^T is Some _ then Some (invmx S *m b) else None
  | _ => None
  end.

Definition iterative := forall n, 'M[R]_n -> 'cV[R]_n -> R -> 'cV[R]_n * int.

Definition iterative_ok (it : iterative) : Prop := forall n (A : 'M[R]_n) b tol,
  (it n A b tol).2 = 0 -> nrm (b - A *m (it n A b tol).1) <= tol * nrm b.

Lemma routines_ref_ok (it : iterative) : iterative_ok it -> routines_ok (Routines it it it dense_ref).
Proof.
move=> H. split=> //= n A b; rewrite /dense_ref /=.
have := chol_refP A^T. case: chol_ref => [L [HL EL]|HN].
- split=> // HN. case: HN. rewrite -EL. exact: lower_posdef.
- by split=> // /HN.
Qed.

(** A solver that stops with the residual [tol] times the right hand side, and
    one that gives up at once and returns y times the right hand side *)
Definition lazy : iterative := fun n A b tol =>
  if (0 <= tol) && (A \in unitmx) then ((1 - tol) *: (invmx A *m b), 0) else (0, 1).
Definition gives_up (y : R) : iterative := fun n A b tol => (y *: b, 1).

Lemma lazy_ok : iterative_ok lazy.
Proof.
move=> n A b tol. rewrite /lazy. case: ifP => // /andP [Ht HU] _ /=.
rewrite -scalemxAr mulmxA mulmxV // mul1mx scalerBl scale1r opprB addrCA subrr addr0.
by rewrite nrmZ ger0_norm.
Qed.

Lemma gives_up_ok y : iterative_ok (gives_up y). Proof. by []. Qed.

(** The tolerance bounds nothing if a solver does not converge: for the matrix
    [[1]] the call returns any number, without a sign of the failure. *)
Theorem C75_unnoticed_refuted (y tol : R) : exists E : routines R, routines_ok E /\
  forall assume, assume <> Other -> exists log,
  solver_sample E true assume tol (1%:M : 'M_1) None None false 1 1%:M = Some (y, log) /\
  HutchModel.hutchinson_sample (1%:M : 'M[R]_1) None None false 1 1%:M = Some 1.
Proof.
exists (Routines (gives_up y) (gives_up y) (gives_up y) dense_ref). split.
  apply: routines_ref_ok. exact: gives_up_ok.
move=> assume Ha. exists [:: Call 1%:M 1%:M (y *: 1%:M) 1]. split.
- rewrite /solver_sample /estimator /= /operator_dot /= /linear_solver /=.
  case: assume Ha => //= _; rewrite /bindl /= /HutchModel.inner_product big_ord1 !mxE /= mulr1n !mul1r mulr1 //.
- rewrite /HutchModel.hutchinson_sample /HutchModel.estimator /= /HutchModel.operator_dot /= unitmx1 /= invmx1 mul1mx.
  by rewrite /HutchModel.inner_product big_ord1 !mxE /= mulr1n !mul1r.
Qed.

(** "pos" is documented as positive definite, and "sym_pos" as symmetric and
    positive definite.  A dense matrix that is positive definite but not
    symmetric is replaced by the symmetric matrix with its upper triangle: for
    [[2, 1], [0, 2]] the samples are those of an operator with trace 4/3, and
    the trace of the inverse is 1. *)
Definition pd2 : 'M[R]_2 := 2%:R%:M + delta_mx 0 1.

(** The symmetric matrix with its upper triangle *)
Definition swap2 : 'M[R]_2 := delta_mx 0 1 + delta_mx 1 0.
Definition sym2 : 'M[R]_2 := 2%:R%:M + swap2.

Lemma ip2 (x y : 'cV[R]_2) : ip x y = x 0 0 * y 0 0 + x 1 0 * y 1 0.
Proof. rewrite /ip !big_ord_recl big_ord0 addr0. by congr (_ + x _ _ * y _ _); apply/val_inj. Qed.

Lemma qform_ip n (M : 'M[R]_n) x : qform M x = ip x (M *m x).
Proof. by rewrite ipE mulmxA. Qed.

Lemma delta_x (i j : 'I_2) (x : 'cV[R]_2) (k : 'I_2) : (delta_mx i j *m x) k 0 = if k == i then x j 0 else 0.
Proof.
rewrite mxE (bigD1 j) //= big1 ?addr0 => [|l /negbTE Hl]; rewrite mxE ?eqxx ?andbT; last by rewrite Hl andbF mul0r.
by case: eqP => _; rewrite ?mul1r ?mul0r.
Qed.

Lemma pd2_pos (x : 'cV[R]_2) : x != 0 -> 0 < qform pd2 x.
Proof.
move=> Hx. rewrite qform_ip mulmxDl ipDr mul_scalar_mx ipZr.
have P : 0 < ip x x by rewrite lt_neqAle eq_sym ip_eq0 Hx ip_ge0.
have -> : ip x (delta_mx 0 1 *m x) = x 0 0 * x 1 0.
{ by rewrite ip2 !delta_x /= mulr0 addr0. }
have Q : 0 <= (x 0 0 + x 1 0) ^+ 2 by exact: sqr_ge0.
rewrite -(pmulrn_lgt0 _ (isT : (0 < 2)%N)) mulrnDl.
have -> : 2%:R * ip x x *+ 2 + x 0 0 * x 1 0 *+ 2 = ip x x *+ 3 + (x 0 0 + x 1 0) ^+ 2.
{ rewrite sqrrD ip2 -!expr2. set a := _ ^+ 2. set b := x 1 0 ^+ 2. set c := (x 0 0 * x 1 0 *+ 2).
  rewrite [a + c + b]addrAC [(a + b) *+ 3 + _]addrA. set d := a + b. by rewrite -mulrSr mulr_natl -mulrnA. }
by apply: ltr_paddr => //; rewrite pmulrn_lgt0.
Qed.

Lemma swap_swap : swap2 *m swap2 = 1%:M.
Proof.
rewrite mulmxDl !mulmxDr !mul_delta_mx_cond /= mulr0n mulr1n mulr0n add0r addr0.
apply/matrixP => i j. rewrite !mxE.
by case: i => -[|[|i]] // Hi; case: j => -[|[|j]] // Hj; rewrite /= ?addr0 ?add0r.
Qed.

Lemma tr_swap : \tr swap2 = 0.
Proof. by rewrite /mxtrace !big_ord_recl big_ord0 !mxE /= !addr0. Qed.

Lemma sym2E : symlow pd2^T = sym2.
Proof.
apply/matrixP => i j. rewrite !mxE.
by case: i => -[|[|i]] // Hi; case: j => -[|[|j]] // Hj; rewrite /= ?addr0 ?add0r.
Qed.

Lemma sym2_posdef : posdef sym2.
Proof.
split; first by rewrite linearD /= tr_scalar_mx linearD /= !trmx_delta [delta_mx 1 0 + _]addrC.
move=> x Hx. have P : 0 < ip x x by rewrite lt_neqAle eq_sym ip_eq0 Hx ip_ge0.
rewrite qform_ip mulmxDl ipDr mul_scalar_mx ipZr mulmxDl ipDr !ip2 !delta_x /= !mulr0 addr0 add0r.
have Q : 0 <= (x 0 0 + x 1 0) ^+ 2 by exact: sqr_ge0.
rewrite [x 1 0 * x 0 0]mulrC -ip2 -mulr2n.
have -> : 2%:R * ip x x + x 0 0 * x 1 0 *+ 2 = ip x x + (x 0 0 + x 1 0) ^+ 2.
{ rewrite sqrrD ip2 -!expr2. set a := _ ^+ 2. set b := x 1 0 ^+ 2. set c := (x 0 0 * x 1 0 *+ 2).
  rewrite [a + c + b]addrAC [a + b + (_ + _)]addrA. set d := a + b. by rewrite -mulr2n mulr_natl. }
exact: ltr_paddr.
Qed.

Lemma inv_square (D : 'M[R]_2) (d : R) : D *m D = (4%:R - d)%:M -> d != 0 ->
  invmx (2%:R%:M + D) = d^-1 *: (2%:R%:M - D).
Proof.
move=> H Hd. apply: mulmx1_invmx. rewrite -scalemxAr mulmxBr !mulmxDl H !mul_scalar_mx mul_mx_scalar.
rewrite opprD addrA addrK scale_scalar_mx -natrM -raddfB opprB addrCA subrr addr0.
by rewrite scale_scalar_mx mulVf.
Qed.

Lemma inv_sym2 : invmx sym2 = 3%:R^-1 *: (2%:R%:M - swap2).
Proof. apply: inv_square; last by rewrite pnatr_eq0. by rewrite swap_swap -natrB. Qed.

Lemma inv_pd2 : invmx pd2 = 4%:R^-1 *: (2%:R%:M - delta_mx 0 1).
Proof. apply: inv_square; last by rewrite pnatr_eq0. by rewrite mul_delta_mx_cond mulr0n subrr raddf0. Qed.

Lemma same_form_trace n (M N : 'M[R]_n) :
  (forall e : 'cV[R]_n, (e^T *m M *m e) 0 0 = (e^T *m N *m e) 0 0) -> \tr M = \tr N.
Proof.
move=> H. apply: eq_bigr => i _. have := H (delta_mx i 0). by rewrite trmx_delta -!rowE -!colE !mxE.
Qed.

Theorem C75_pos_refuted (E : routines R) (tol : R) : routines_ok E ->
  [/\ forall x, x != 0 -> 0 < qform pd2 x, pd2 \in unitmx &
  ~ exists2 Op : 'M[R]_2, \tr Op = documented_trace pd2 None None false 1 &
    forall e, omap fst (solver_sample E false Pos tol pd2 None None false 1 e) = Some (2%:R * (e^T *m Op *m e) 0 0)].
Proof.
move=> EO. split; first exact: pd2_pos.
  apply: contraT => HN. have H := inv_pd2. rewrite /invmx (negbTE HN) in H.
  move/matrixP/(_ 0 1): H. rewrite !mxE /= !mulr0n add0r sub0r => /eqP.
  by rewrite eq_sym mulrN1 lt_eqF // (lt_trans (_ : _ < 0)) ?ltr01 // oppr_lt0 invr_gt0 ltr0n.
move=> [Op HT HS].
have HO (e : 'cV[R]_2) : (e^T *m Op *m e) 0 0 = (e^T *m invmx sym2 *m e) 0 0.
{ have := HS e. rewrite /solver_sample /estimator /= /operator_dot /= /linear_solver /=.
  have [H _] := dense_pos_ok EO pd2 e. rewrite /= sym2E in H. rewrite H; last exact: sym2_posdef.
  rewrite /bindl /= inner_productE mulmxA => -[] /(mulfI _) ->; first by [].
  by rewrite pnatr_eq0. }
have := same_form_trace HO. rewrite HT /documented_trace /= mul1mx mxpow1 inv_sym2 inv_pd2.
rewrite !linearZ /= !linearB /= tr_swap subr0.
have -> : \tr (delta_mx 0 1 : 'M[R]_2) = 0 by rewrite /mxtrace !big_ord_recl big_ord0 !mxE /= !addr0.
rewrite subr0 mxtrace_scalar => /(mulIf _) H.
have /eqP : 4%:R^-1 = 3%:R^-1 :> R by apply: H; rewrite mulrn_eq0 pnatr_eq0.
by rewrite (inj_eq invr_inj) eqr_nat.
Qed.

(** ** A case: routines that stop as soon as the tolerance allows, and A = 2 I.
    The hypotheses hold, and the error is as large as the bound. *)
Lemma scalar_shrinks n (a : R) : 0 <= a -> shrinks_at_most a (a%:M : 'M[R]_n).
Proof. move=> Ha v. by rewrite mul_scalar_mx nrmZ ger0_norm. Qed.

Lemma none_stretches n : stretches_at_most 1 (None : option 'M[R]_n).
Proof. move=> v. by rewrite mul1r. Qed.

Example C75_case n (e : 'cV[R]_n) (tol : R) : 0 <= tol -> exists E : routines R, routines_ok E /\
  exists y log, [/\ solver_sample E true SymPos tol 2%:R%:M None None false 1 e = Some (y, log),
    log <> [::], converged log &
    `|y - n%:R * (e^T *m invmx 2%:R%:M *m e) 0 0| =
    n%:R * nrm e ^+ 2 * (1 * 1) * growth tol (solves 1 (None : option 'M[R]_n)) / 2%:R ^+ (degree false * solves 1 (None : option 'M[R]_n))].
Proof.
move=> Ht. exists (Routines lazy lazy lazy dense_ref). split.
  apply: routines_ref_ok. exact: lazy_ok.
have H2 : (2%:R%:M : 'M[R]_n) \in unitmx.
{ by rewrite unitmxE det_scalar unitrX // unitfE pnatr_eq0. }
have HI : invmx (2%:R%:M : 'M[R]_n) = (2%:R^-1)%:M.
{ apply: mulmx1_invmx. by rewrite -scalar_mxM mulfV // pnatr_eq0. }
rewrite /solver_sample /estimator /= /operator_dot /= /linear_solver /= /lazy Ht H2 /= /bindl /=.
eexists; eexists; split; first by []; first by []; first by constructor.
rewrite -mulmxA -ipE HI !mul_scalar_mx !ipZr -[HutchModel.inner_product _ _]/(ip e _) !ipZr -nrm_sqr.
set h := 2%:R^-1 * nrm e ^+ 2. have Hh : 0 <= h by rewrite mulr_ge0 ?invr_ge0 ?ler0n ?sqr_ge0.
rewrite /solves /= /growth !expr1 addrAC subrr add0r mulr1 -mulrBr mulrBl mul1r addrAC subrr add0r mulrN normrN.
rewrite (ger0_norm (mulr_ge0 (ler0n _ _) (mulr_ge0 Ht Hh))).
rewrite (mulr1 (n%:R * _)) -!mulrA. congr (_ * _). by rewrite [RHS]mulrA -expr2 [RHS]mulrC -[RHS]mulrA.
Qed.

End Ref.

Definition C75_assumptions := (@C75_tolerance_partial, @C75_tolerance_gram_partial, @C75_bias_partial, @C75_sym_partial,
  @C75_no_solver, @C75_dense, @C75_info_ignored, @C75_unnoticed_refuted, @C75_pos_refuted).
Print Assumptions C75_assumptions.
