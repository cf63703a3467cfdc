(** The Hutchinson method: C38. *)
From mathcomp Require Import all_ssreflect all_algebra.
From mathcomp Require Import zify.
From mathcomp.real_closed Require Import realalg.
From Verif Require Import KernelSpec LanczosSpec LanczosMath MatSpec CholMath HutchModel PropSlq.
Set Implicit Arguments.
Unset Strict Implicit.
Unset Printing Implicit Defensive.
Import GRing.Theory Num.Theory Order.TTheory.
Local Open Scope ring_scope.

Arguments mxpow : simpl never.

Section Props.
Variable R : rcfType.

(** The documented operator: with X = A, or A^T A if gram is true,
    trace(B X^-p), or trace(B X^-p C X^-p) if C is given; B is the identity
    matrix if it is not given. *)
Definition documented_trace n (A : 'M[R]_n) (B C : option 'M[R]_n) (gram : bool) (p : int) : R :=
  let X := if gram then A^T *m A else A in
  let Bm := if B is Some B then B else 1%:M in
  let Xp := mxpowz X (- p) in
  \tr (if C is Some C then Bm *m Xp *m C *m Xp else Bm *m Xp).

(** The samples are those of an operator Op with the documented trace. *)
Definition samples_documented n (A : 'M[R]_n) (B C : option 'M[R]_n) (gram : bool) (p : int) : Prop :=
  exists Op : 'M[R]_n, \tr Op = documented_trace A B C gram p /\
    forall e, hutchinson_sample A B C gram p e = Some (n%:R * (e^T *m Op *m e) 0 0).

Lemma inner_productE n (x y : 'cV[R]_n) : inner_product x y = (x^T *m y) 0 0.
Proof. by rewrite /inner_product mxE; apply: eq_bigr => i _; rewrite mxE. Qed.

Lemma repeat_solve n (X : 'M[R]_n) k v : X \in unitmx ->
  repeat (solve (Some X)) k v = Some (mxpow (invmx X) k *m v).
Proof.
move=> H. rewrite /repeat. elim: k => [|k IH] /=; first by rewrite mul1mx.
by rewrite IH /= H mxpowS mulmxA.
Qed.

Lemma operator_dotE n (A : 'M[R]_n) AtA (p : int) (gram : bool) (B : option 'M[R]_n) E : A \in unitmx -> -1 <= p ->
  (gram -> AtA = Some (A^T *m A)) -> (gram -> p = 1 -> B <> None) -> (gram -> p != -1) ->
  operator_dot A AtA p gram B E =
  Some (mxpowz (if gram then A^T *m A else A) (- p) *m ((if B is Some B then B else 1%:M) *m E)).
Proof.
move=> HA Hp HG HB HN. rewrite /operator_dot.
have -> : (if B is Some B then B *m E else E) = (if B is Some B then B else 1%:M) *m E.
{ by case: B {HB} => //; rewrite mul1mx. }
set BE := _ *m E.
have HAA : A^T *m A \in unitmx by rewrite unitmx_mul unitmx_tr HA.
case: eqP => [->|/eqP p0]; first by rewrite /= mul1mx.
case: eqP => [p1|/eqP p1].
  rewrite p1 /= mxpow1. case: gram HG HB HN => [HG HB HN|_ _ _].
  - case: B HB @BE => [B _|/(_ isT p1) //]. rewrite HG //= HAA. by [].
  - by rewrite /= HA.
case: ltP => [p2|p2].
  case: p Hp HG HB HN p0 p1 p2 => // -[|[|k]] // _ HG _ _ _ _ _.
  rewrite -NegzE. case: gram HG => [HG|_]; rewrite ?HG // repeat_solve //.
have Ep : p = -1 by lia. rewrite Ep eqxx opprK /= mxpow1.
by case: gram HN {HG HB} => // /(_ isT); rewrite Ep eqxx.
Qed.

(** C38.  Missing: p < -1, and with gram the cases p = -1 with B or C given, and
    p = 1 with C but not B given; see the refutations. *)
Theorem C38_samples_partial n (A : 'M[R]_n) (B C : option 'M[R]_n) (gram : bool) (p : int) : A \in unitmx -> -1 <= p ->
  (gram -> p = -1 -> B = None /\ C = None) -> (gram -> p = 1 -> B = None -> C = None) ->
  samples_documented A B C gram p.
Proof.
move=> HA Hp H1 H2.
have HAA : A^T *m A \in unitmx by rewrite unitmx_mul unitmx_tr HA.
have [Hs|Hs] := boolP [&& gram, (absz p == 1)%N, B == None & C == None].
  move: Hs => /and4P [Hg Hp1 /eqP HB /eqP HC]. rewrite /samples_documented HB HC Hg.
  exists (mxpowz (A^T *m A) (- p)). split; first by rewrite /documented_trace mul1mx.
  move=> e. rewrite /hutchinson_sample /estimator /gramian eqxx !andbT.
  have [Ep|Ep] : p = 1 \/ p = -1 by lia.
  - rewrite Ep /= /operator_dot /= unitmx_tr HA /= inner_productE mxpow1. congr (Some (_ * _)).
    rewrite trmx_mul trmx_inv trmxK !mulmxA invmx_mul ?unitmx_tr //. by rewrite !mulmxA.
  - rewrite Ep /= /operator_dot /= inner_productE mxpow1. congr (Some (_ * _)).
    by rewrite trmx_mul !mulmxA.
set X := if gram then A^T *m A else A.
pose Bm := if B is Some B then B else 1%:M : 'M[R]_n.
have HX : X \in unitmx by rewrite /X; case: (gram).
pose Xp := mxpowz X (- p).
have HG : gram -> gramian A gram p B C = Some (A^T *m A).
{ move=> Hg. rewrite /gramian Hg. case: ifP => // /andP [/andP [/eqP p1 /eqP EB] /eqP EC].
  by move: Hs; rewrite Hg p1 EB EC. }
have HN : gram -> p != -1.
{ move=> Hg. apply/eqP => Ep. have [EB EC] := H1 Hg Ep. by move: Hs; rewrite Hg Ep EB EC. }
have HB : gram -> p = 1 -> B <> None.
{ move=> Hg Ep EB. have EC := H2 Hg Ep EB. by move: Hs; rewrite Hg Ep EB EC. }
exists (if C is Some C then Xp *m C *m Xp *m Bm else Xp *m Bm). split.
  rewrite /documented_trace -/X -/Xp -/Bm. case: (C) => [C'|]; last by rewrite mxtrace_mulC.
  by rewrite mxtrace_mulC !mulmxA.
move=> e. rewrite /hutchinson_sample /estimator.
have -> : gram && (gramian A gram p B C == None) = false.
{ apply/negbTE/negP => /andP [Hg]. by rewrite HG. }
rewrite /= operator_dotE // -/X -/Xp -/Bm /=.
have -> : gram && (absz p == 1)%N && (B == None) && (C == None) = false.
{ by rewrite -!andbA; apply/negbTE. }
case EC : C => [C'|] /=.
- rewrite operator_dotE //; last by rewrite -EC. rewrite -/X -/Xp /= inner_productE. by rewrite !mulmxA.
- by rewrite inner_productE !mulmxA.
Qed.

(** Sign vectors scaled to unit length: the mean of the samples is the
    documented trace. *)
Corollary C38_unbiased_partial n' (A : 'M[R]_n'.+1) (B C : option 'M[R]_n'.+1) (gram : bool) (p : int) : A \in unitmx -> -1 <= p ->
  (gram -> p = -1 -> B = None /\ C = None) -> (gram -> p = 1 -> B = None -> C = None) ->
  let n := n'.+1 in
  exists sample : n.-tuple bool -> R,
    (forall s, hutchinson_sample A B C gram p ((Num.sqrt n%:R)^-1 *: vec n (signs R s)) = Some (sample s)) /\
    (2 ^ n)%:R^-1 * (\sum_s sample s) = documented_trace A B C gram p.
Proof.
move=> HA Hp H1 H2 n. have [Op [HT HS]] := C38_samples_partial HA Hp H1 H2.
exists (fun s => ip (vec n (signs R s)) (Op *m vec n (signs R s))). split; last by rewrite C19_rademacher.
move=> s. rewrite HS. congr Some. set v := vec n _. set q := Num.sqrt _.
have -> : (q^-1 *: v)^T = q^-1 *: v^T by rewrite linearZ.
rewrite -!scalemxAl -scalemxAr scalerA mxE -expr2 exprVn sqr_sqrtr ?ler0n //.
rewrite mulrA mulfV ?pnatr_eq0 // mul1r -mulmxA mxE /ip. by apply: eq_bigr => i _; rewrite mxE.
Qed.

(** p < -1: every call fails. *)
Theorem C38_negative_refuted n (A : 'M[R]_n) (B C : option 'M[R]_n) (gram : bool) (p : int) e : p < -1 ->
  hutchinson_sample A B C gram p e = None.
Proof.
move=> Hp. rewrite /hutchinson_sample /estimator.
have -> : operator_dot A (gramian A gram p B C) p gram B e = None; last by case: ifP.
rewrite /operator_dot. have -> : (p == 0) = false by lia. have -> : (p == 1) = false by lia.
have -> : (1 < p) = false by lia. by have -> : (p == -1) = false by lia.
Qed.

(** gram=True, p=-1 and B given: the samples are those of A B, not A^T A B. *)
Theorem C38_gram_B_refuted : exists (A B : 'M[R]_1), A \in unitmx /\
  ~ samples_documented A (Some B) None true (-1).
Proof.
exists 2%:R%:M, 1%:M. split; first by rewrite unitmxE det_scalar unitrX // unitfE pnatr_eq0.
move=> [Op [HT /(_ 1%:M)]]. rewrite /hutchinson_sample /estimator /= /operator_dot /= => -[].
rewrite inner_productE trmx1 !mul1mx !mulmx1 !mul1r.
have -> : Op 0 0 = \tr Op by rewrite /mxtrace big_ord1.
rewrite HT /documented_trace /= mul1mx mxpow1 tr_scalar_mx -scalar_mxM mxtrace_scalar mulr1n mxE.
move=> /eqP. by rewrite -natrM eqr_nat.
Qed.

(** gram=True, p=1, C given and B omitted: A^T x = e is solved in place of
    A^T A x = e. *)
Theorem C38_gram_C_refuted : exists (A C : 'M[R]_1), A \in unitmx /\
  ~ samples_documented A None (Some C) true 1.
Proof.
have H2 : (2%:R%:M : 'M[R]_1) \in unitmx by rewrite unitmxE det_scalar unitrX // unitfE pnatr_eq0.
have H4 : (2%:R%:M : 'M[R]_1)^T *m 2%:R%:M \in unitmx by rewrite unitmx_mul unitmx_tr H2.
have I a : a != 0 -> invmx (a%:M : 'M[R]_1) = (a^-1)%:M.
{ move=> Ha. apply: mulmx1_invmx. by rewrite -scalar_mxM mulfV. }
exists 2%:R%:M, 1%:M. split=> //.
move=> [Op [HT /(_ 1%:M)]]. rewrite /hutchinson_sample /estimator /= /operator_dot /= unitmx_tr H2 /= H4 /= => -[].
rewrite inner_productE trmx1 !mul1mx !mulmx1 !mul1r.
have -> : Op 0 0 = \tr Op by rewrite /mxtrace big_ord1.
rewrite HT /documented_trace /= mul1mx mulmx1 mxpow1 tr_scalar_mx -scalar_mxM.
rewrite !I ?mulf_neq0 ?pnatr_eq0 // -!scalar_mxM mxtrace_scalar mulr1n mxE eqxx mulr1n => /eqP.
rewrite (inj_eq (mulfI _)) ?invr_eq0 ?mulf_neq0 ?pnatr_eq0 // (inj_eq invr_inj) -natrM.
by rewrite eqr_nat.
Qed.

(** A case: A = [[1,1],[0,1]] is not symmetric; p = 2, gram, any B and C. *)
Example C38_case (B C : 'M[R]_2) :
  samples_documented (1%:M + delta_mx 0 1) (Some B) (Some C) true 2.
Proof.
apply: C38_samples_partial => //.
have : (1%:M + delta_mx 0 1) *m (1%:M - delta_mx 0 1) = 1%:M :> 'M[R]_2.
{ rewrite mulmxDl mul1mx mulmxBr mulmx1 mul_delta_mx_cond mulr0n subr0. by rewrite subrK. }
by case/mulmx1_unit.
Qed.

End Props.

Print Assumptions C38_samples_partial.
Print Assumptions C38_unbiased_partial.
Print Assumptions C38_negative_refuted.
Print Assumptions C38_gram_B_refuted.
Print Assumptions C38_gram_C_refuted.
