(** The real numbers of the standard library as a real closed field of
    mathcomp, so that the models can be used with real logarithms, powers and
    exponentials.  Nothing here models code.  Axioms of the standard library
    used: those of the reals, functional extensionality, excluded middle and
    indefinite description (for the choice structure). *)
Require Import Reals Epsilon FunctionalExtensionality ClassicalEpsilon Lra.
From mathcomp Require Import all_ssreflect all_algebra.
Set Implicit Arguments.
Unset Strict Implicit.
Unset Printing Implicit Defensive.

Local Open Scope R_scope.

Definition eqr (r1 r2 : R) : bool := if Req_EM_T r1 r2 is left _ then true else false.

Lemma eqrP : Equality.axiom eqr.
Proof. by move=> r1 r2; rewrite /eqr; case: Req_EM_T => H; constructor. Qed.

Canonical R_eqMixin := EqMixin eqrP.
Canonical R_eqType := Eval hnf in EqType R R_eqMixin.

Fact inhR : inhabited R. Proof. exact: (inhabits 0). Qed.

Definition pickR (P : pred R) (n : nat) :=
  let x := epsilon inhR P in if P x then Some x else None.

Fact pickR_some P n x : pickR P n = Some x -> P x.
Proof. by rewrite /pickR; case: (boolP (P _)) => // Px [<-]. Qed.

Fact pickR_ex (P : pred R) : (exists x : R, P x) -> exists n, pickR P n.
Proof. by rewrite /pickR; move=> /(epsilon_spec inhR)->; exists 0%N. Qed.

Fact pickR_ext (P Q : pred R) : P =1 Q -> pickR P =1 pickR Q.
Proof.
move=> PEQ n; rewrite /pickR; set u := epsilon _ _; set v := epsilon _ _.
suff -> : u = v by rewrite PEQ.
by congr epsilon; apply: functional_extensionality => x; rewrite PEQ.
Qed.

Definition R_choiceMixin : choiceMixin R := Choice.Mixin pickR_some pickR_ex pickR_ext.
Canonical R_choiceType := Eval hnf in ChoiceType R R_choiceMixin.

Fact RplusA : associative Rplus. Proof. by move=> *; rewrite Rplus_assoc. Qed.
Definition R_zmodMixin := ZmodMixin RplusA Rplus_comm Rplus_0_l Rplus_opp_l.
Canonical R_zmodType := Eval hnf in ZmodType R R_zmodMixin.

Fact RmultA : associative Rmult. Proof. by move=> *; rewrite Rmult_assoc. Qed.
Fact R1_neq_0 : R1 != R0.
Proof. by apply/eqP/R1_neq_R0. Qed.

Definition R_ringMixin := RingMixin RmultA Rmult_1_l Rmult_1_r
  Rmult_plus_distr_r Rmult_plus_distr_l R1_neq_0.
Canonical R_ringType := Eval hnf in RingType R R_ringMixin.
Canonical R_comRingType := Eval hnf in ComRingType R Rmult_comm.

Definition Rinvx r := if r != 0 then / r else r.
Definition unit_R r := r != 0.

Lemma RmultRinvx : {in unit_R, left_inverse R1 Rinvx Rmult}.
Proof.
move=> r; rewrite -topredE /unit_R /Rinvx => /= rNZ /=.
by rewrite rNZ Rinv_l //; apply/eqP.
Qed.

Lemma RinvxRmult : {in unit_R, right_inverse R1 Rinvx Rmult}.
Proof.
move=> r; rewrite -topredE /unit_R /Rinvx => /= rNZ /=.
by rewrite rNZ Rinv_r //; apply/eqP.
Qed.

Lemma intro_unit_R x y : y * x = R1 /\ x * y = R1 -> unit_R x.
Proof.
case=> yxE1 xyE1; apply/eqP => xZ.
by case/eqP: R1_neq_0; rewrite -yxE1 xZ Rmult_0_r.
Qed.

Lemma Rinvx_out : {in predC unit_R, Rinvx =1 id}.
Proof. by move=> x; rewrite inE/= /Rinvx -if_neg => ->. Qed.

Definition R_unitRingMixin := UnitRingMixin RmultRinvx RinvxRmult intro_unit_R Rinvx_out.
Canonical R_unitRing := Eval hnf in UnitRingType R R_unitRingMixin.
Canonical R_comUnitRingType := Eval hnf in [comUnitRingType of R].

Lemma R_idomainMixin x y : x * y = R0 -> (x == R0) || (y == R0).
Proof. by move=> /Rmult_integral [->|->]; rewrite eqxx ?orbT. Qed.
Canonical R_idomainType := Eval hnf in IdomainType R R_idomainMixin.

Lemma R_fieldMixin : GRing.Field.mixin_of [unitRingType of R].
Proof. by []. Qed.
Definition R_fieldIdomainMixin := FieldIdomainMixin R_fieldMixin.
Canonical R_fieldType := FieldType R R_fieldMixin.

Definition Rleb r1 r2 : bool := if Rle_dec r1 r2 is left _ then true else false.
Definition Rltb r1 r2 : bool := Rleb r1 r2 && (r1 != r2).

Lemma RlebP r1 r2 : reflect (r1 <= r2) (Rleb r1 r2).
Proof. by rewrite /Rleb; apply: (iffP idP); case: Rle_dec. Qed.

Section ssreal_struct.
Import GRing.Theory Num.Theory Num.Def.
Local Open Scope ring_scope.

Lemma Rleb_add x y : Rleb 0 x -> Rleb 0 y -> Rleb 0 (x + y).
Proof. by move=> /RlebP Lxy /RlebP Lyz; apply/RlebP; exact: Rplus_le_le_0_compat. Qed.

Lemma Rleb_mul x y : Rleb 0 x -> Rleb 0 y -> Rleb 0 (x * y).
Proof. by move=> /RlebP x0 /RlebP y0; apply/RlebP; exact: Rmult_le_pos. Qed.

Lemma Rleb_anti x : Rleb 0 x -> Rleb x 0 -> x = 0.
Proof. by move=> /RlebP x0 /RlebP y0; apply: Rle_antisym. Qed.

Lemma Rleb_sub x y : Rleb 0 (y - x) = Rleb x y.
Proof.
by apply/RlebP/RlebP => H; rewrite /GRing.add /GRing.opp /GRing.zero /= in H *; lra.
Qed.

Lemma Rleb_total x : Rleb 0 x || Rleb x 0.
Proof.
have [H|H] := Rle_dec 0 x; first by apply/orP; left; apply/RlebP.
by apply/orP; right; apply/RlebP; rewrite /GRing.zero /=; lra.
Qed.

Lemma RnormN x : Rabs (- x) = Rabs x.
Proof. exact: Rabs_Ropp. Qed.

Lemma Rge0_norm x : Rleb 0 x -> Rabs x = x.
Proof. by move=> /RlebP H; apply: Rabs_pos_eq. Qed.

Lemma Rltb_def x y : Rltb x y = (y != x) && Rleb x y.
Proof. by rewrite /Rltb eq_sym andbC. Qed.

Definition R_realLeMixin : realLeMixin [idomainType of R] :=
  RealLeMixin Rleb_add Rleb_mul Rleb_anti Rleb_sub Rleb_total RnormN Rge0_norm Rltb_def.

Canonical R_porderType := POrderType ring_display R R_realLeMixin.
Canonical R_latticeType := LatticeType R R_realLeMixin.
Canonical R_distrLatticeType := DistrLatticeType R R_realLeMixin.
Canonical R_orderType := OrderType R R_realLeMixin.
Canonical R_numDomainType := NumDomainType R R_realLeMixin.
Canonical R_normedZmodType := NormedZmodType R R R_realLeMixin.
Canonical R_numFieldType := [numFieldType of R].
Canonical R_realDomainType := [realDomainType of R].
Canonical R_realFieldType := [realFieldType of R].

Lemma RleP (x y : R) : reflect (Rle x y) (x <= y).
Proof. exact: RlebP. Qed.

Lemma RltP (x y : R) : reflect (Rlt x y) (x < y).
Proof.
rewrite -[x < y]/(Rltb x y) /Rltb; apply: (iffP andP).
  by case=> /RlebP H /eqP N; case: H.
move=> H; split; first by apply/RlebP; left.
by apply/eqP => E; rewrite E in H; apply: (Rlt_irrefl y).
Qed.

Lemma horner_continuity (p : {poly R}) : continuity (horner p).
Proof.
elim/poly_ind: p => [|p c IH].
  have -> : horner (0 : {poly R}) = fct_cte R0.
    by apply: functional_extensionality => x; rewrite horner0.
  by apply: derivable_continuous; apply: derivable_const.
have -> : horner (p * 'X + c%:P) = plus_fct (mult_fct (horner p) Ranalysis1.id) (fct_cte c).
  by apply: functional_extensionality => x; rewrite !hornerE.
apply: continuity_plus; last by apply: derivable_continuous; apply: derivable_const.
by apply: continuity_mult => //; apply: derivable_continuous; apply: derivable_id.
Qed.

Lemma R_real_closed : Num.real_closed_axiom [numDomainType of R].
Proof.
move=> p a b /RleP ab /andP [/RleP pa /RleP pb].
have Hab : Rle (Rmult p.[a] p.[b]) 0.
  have := Rmult_le_pos _ _ (Ropp_0_ge_le_contravar _ (Rle_ge _ _ pa)) pb.
  rewrite /GRing.zero /=; lra.
have [x [Hx Ex]] := IVT_cor (horner p) a b (@horner_continuity p) ab Hab.
exists x; last by apply/rootP.
by case: Hx => /RleP -> /RleP ->.
Qed.

Canonical R_rcfType := RcfType R R_real_closed.
End ssreal_struct.

(** The operations of the two libraries agree. *)
Section Bridge.
Import GRing.Theory Num.Theory.
Local Open Scope ring_scope.

Lemma RplusE (x y : R) : x + y = Rplus x y. Proof. by []. Qed.
Lemma RmultE (x y : R) : x * y = Rmult x y. Proof. by []. Qed.
Lemma RoppE (x : R) : - x = Ropp x. Proof. by []. Qed.
Lemma R0E : (0 : R) = IZR 0. Proof. by []. Qed.
Lemma R1E : (1 : R) = IZR 1. Proof. by []. Qed.
Lemma RnormE (x : R) : `|x| = Rabs x. Proof. by []. Qed.

Lemma RinvE (x : R) : x != 0 -> x^-1 = Rinv x.
Proof. by move=> H; rewrite /GRing.inv /= /Rinvx H. Qed.

Lemma RdivE (x y : R) : y != 0 -> x / y = Rdiv x y.
Proof. by move=> H; rewrite RinvE. Qed.

Lemma RexpE (x : R) n : x ^+ n = pow x n.
Proof. by elim: n => [|n IH]; rewrite ?expr0 // exprS IH. Qed.

Lemma RnatE n : n%:R = INR n :> R.
Proof.
elim: n => [|n IH] //. by rewrite S_INR -IH -addn1 natrD.
Qed.

Lemma RsqrtE (x : R) : 0 <= x -> Num.sqrt x = R_sqrt.sqrt x.
Proof.
move=> H. apply/eqP. rewrite -(@eqr_expn2 _ 2) ?sqrtr_ge0 //; last by apply/RleP/sqrt_pos.
rewrite sqr_sqrtr // expr2 RmultE sqrt_sqrt //. by apply/RleP.
Qed.

End Bridge.

Ltac toR := rewrite ?(RplusE, RmultE, RoppE, R0E, R1E, RexpE, RnatE).
Ltac toRin H := rewrite ?(RplusE, RmultE, RoppE, R0E, R1E, RexpE, RnatE) in H.
Ltac Rring := toR; simpl INR; match goal with |- @eq _ ?a ?b => change (@eq R a b) end; ring.
