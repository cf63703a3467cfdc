(** The Schatten norm: C39 and its continuity, C57. *)
Require Import Reals Lra.
From mathcomp Require Import all_ssreflect all_algebra.
From mathcomp.real_closed Require Import complex.
From mathcomp Require Import zify.
From Verif Require Import MatSpec CholMath RealField ArgsModel EigenMath EigenSpec EigenModel.
From Verif Require Import PropEigen PropEigenGen SchattenSpec SchattenModel.
From Verif Require TraceModel PropTrace CholModel PropChol.
Set Implicit Arguments.
Unset Strict Implicit.
Unset Printing Implicit Defensive.
Import GRing.Theory Num.Theory Order.TTheory.
Local Open Scope ring_scope.

Arguments mxpow : simpl never.
Local Notation toC := (real_complex R).

Lemma Rpower_gt0 (x p : R) : 0 < Rpower x p.
Proof. by apply/RltP/exp_pos. Qed.

Lemma npow_pos (x p : R) : 0 < x -> npow x p = Some (Rpower x p).
Proof. by rewrite /npow => ->. Qed.

Lemma divE (x y : R) : y != 0 -> Rdiv x y = x / y.
Proof. by move=> H; rewrite RdivE. Qed.

Lemma cexp_real (x : R) : cexp (toC x) = toC (exp x).
Proof. by rewrite /= cos_0 sin_0 -R0E -R1E mulr0 mulr1. Qed.

Lemma divC_real (x y : R) : toC x / toC y = toC (x / y).
Proof. by rewrite fmorph_div. Qed.

Lemma cdiv_real (x y : R) : y != 0 -> cdiv (toC x) (toC y) = Some (toC (x / y)).
Proof.
move=> H. rewrite /cdiv (inj_eq (@complexI R_rcfType)) (negbTE H). by rewrite divC_real.
Qed.

Lemma sum_gt0 (T : Type) (s : seq T) (f : T -> R) : (0 < size s)%N -> (forall x, 0 < f x) ->
  0 < \sum_(x <- s) f x.
Proof.
case: s => // x s _ H. rewrite big_cons ltr_paddr //. by apply: sumr_ge0 => y _; apply: ltW.
Qed.

Lemma prod_pos (s : seq R) : (forall x, x \in s -> 0 < x) -> 0 < \prod_(x <- s) x.
Proof. by move=> H; rewrite big_seq; apply: prodr_gt0 => x /H. Qed.

(** The two lines of schatten *)
Lemma schatten_ofP n s logdet trace traceinv p v : value p = Some v -> size s = n -> (0 < n)%N ->
  (forall x, x \in s -> 0 < x) ->
  (v = 0 -> logdet = Some (toC (ln (\prod_(x <- s) x)))) ->
  (0 < v -> trace p = Some (\sum_(x <- s) Rpower x v)) ->
  (v < 0 -> traceinv (pyabs p) = Some (\sum_(x <- s) Rpower x v)) ->
  schatten_of n logdet trace traceinv p = Some (toC (power_mean s v)).
Proof.
move=> Hv Hs Hn Hpos H0 H1 H2. rewrite /schatten_of Hv /power_mean Hs.
have Hn0 : n%:R != 0 :> R by rewrite pnatr_eq0 -lt0n.
have Hmean : 0 < (\sum_(x <- s) Rpower x v) / n%:R.
  by rewrite divr_gt0 ?ltr0n //; apply: sum_gt0; rewrite ?Hs // => x; apply: Rpower_gt0.
case: eqP => [E|/eqP E].
  rewrite (H0 E) -[LHS]/(omap cexp (cdiv (toC _) (toC n%:R))) cdiv_real //.
  rewrite -[LHS]/(Some (cexp (toC _))) cexp_real. congr (Some (toC _)).
  by rewrite /Rpower div1r mulrC.
case: ifP => Hlt.
  rewrite (H1 Hlt) /= /ndiv (negbTE Hn0) /= npow_pos //.
have Hlt' : v < 0 by rewrite lt_neqAle E leNgt Hlt.
by rewrite (H2 Hlt') /= /ndiv (negbTE Hn0) /= npow_pos.
Qed.

Lemma is_power_pos (x p : R) : 0 < x -> is_power x p (Rpower x p).
Proof. by move=> /RltP H; left. Qed.

Lemma Rpower_exprz (x : R) (z : int) : 0 < x -> Rpower x z%:~R = x ^ z.
Proof.
move=> Hx. have H1 := npowP (is_power_pos z%:~R Hx).
have : is_power x z%:~R (x ^ z)%R by apply: is_power_exprz; rewrite gt_eqF.
by move=> /npowP; rewrite H1 => -[].
Qed.

Lemma cpowr_pos (x v : R) : 0 < x -> cpowr (toC x) v = Some (toC (Rpower x v)).
Proof.
move=> Hx. have Hx0 : (toC x == 0) = false by rewrite (inj_eq (@complexI R_rcfType)) gt_eqF.
rewrite /cpowr. case: ifP => [/eqP Hi|_]; last first.
  rewrite Hx0 /clog Hx0 angle_real ltNge (ltW Hx).
  have -> : cabs (toC x) = x by rewrite /= expr0n addr0 sqrtr_sqr gtr0_norm.
  rewrite -[LHS]/(Some (cexp (toC v * toC (ln x)))). by rewrite -rmorphM cexp_real.
have /RltP Hx' := Hx. have Hp : Rpower x v = powerRZ x (Int_part v) by rewrite {1}Hi powerRZ_Rpower.
rewrite {}Hp {Hi}. case: (Int_part v) => [|k|k] /=; first by [].
- by rewrite -RexpE rmorphX.
- rewrite Hx0 -RexpE -RinvE ?expf_neq0 ?gt_eqF //. by rewrite fmorphV rmorphX.
Qed.

Lemma value_pyabs p v : value p = Some v -> value (pyabs p) = Some `|v|.
Proof.
case: p => [z|x|//] [<-] /=; first by rewrite intr_norm. 
by rewrite -ratr_norm.
Qed.

Lemma Rpower_abs_neg (x v : R) : 0 < x -> v < 0 -> 1 / Rpower x `|v| = Rpower x v.
Proof.
move=> Hx Hv. rewrite ltr0_norm // RoppE Rpower_Ropp div1r -RinvE ?invrK // gt_eqF //. exact: Rpower_gt0.
Qed.

Lemma sum_nseq n (x : R) (f : R -> R) : \sum_(y <- nseq n x) f y = f x * n%:R.
Proof. by elim: n => [|n IH]; rewrite ?big_nil ?mulr0 // big_cons IH -addn1 natrD mulrDr mulr1 addrC. Qed.

Lemma prod_nseq n (x : R) : \prod_(y <- nseq n x) y = x ^+ n.
Proof. by elim: n => [|n IH]; rewrite ?big_nil // big_cons IH exprS. Qed.

Lemma RpowerK (x p : R) : 0 < x -> p != 0 -> Rpower (Rpower x p) (1 / p)%R = x.
Proof. by move=> /RltP Hx Hp; rewrite Rpower_mult -RmultE div1r mulfV // Rpower_1. Qed.

Lemma Rpower_nat (x : R) (k : nat) : 0 < x -> Rpower x k%:R = x ^+ k.
Proof. by move=> Hx; rewrite pmulrn Rpower_exprz. Qed.

Lemma power_mean_const n (c v : R) : 0 < c -> (0 < n)%N -> power_mean (nseq n c) v = c.
Proof.
move=> Hc Hn. have Hn0 : n%:R != 0 :> R by rewrite pnatr_eq0 -lt0n.
rewrite /power_mean size_nseq. case: eqP => [_|/eqP Hv].
  by rewrite prod_nseq -Rpower_nat // RpowerK.
by rewrite sum_nseq mulfK // RpowerK.
Qed.

Lemma spectrum_scale n (A : 'M[R]_n) s (c : R) : spectrum A s -> spectrum (c *: A) [seq c * x | x <- s].
Proof.
move=> Hs. apply/spectrum_toC. have /spectrum_toC {}Hs := Hs.
have [P [T [HP HT E]]] := triangular_form (map_mx toC A).
have Hd : spectrum (map_mx toC A) (diagonal T) by rewrite /spectrum (char_poly_similar HP E) (spectrum_trig HT).
have HcT : is_trig_mx (toC c *: T).
  by apply/is_trig_mxP => i j Hij; rewrite mxE (is_trig_mxP HT) ?mulr0.
have E' : P *m map_mx toC (c *: A) = (toC c *: T) *m P.
  by rewrite map_mxZ -scalemxAr E scalemxAl.
have -> : [seq toC i | i <- [seq c * x | x <- s]] = [seq toC c * z | z <- map toC s].
  by rewrite -!map_comp; apply: eq_map => x /=; rewrite rmorphM.
apply: (perm_spectrum (perm_map _ (spectrum_perm Hd Hs))).
rewrite /spectrum (char_poly_similar HP E') (spectrum_trig HcT).
by rewrite /diagonal -map_comp !big_map; apply: eq_bigr => i _ /=; rewrite mxE.
Qed.

Lemma Rpower_mul (x y p : R) : 0 < x -> 0 < y -> Rpower (x * y)%R p = Rpower x p * Rpower y p.
Proof. move=> /RltP Hx /RltP Hy. by rewrite !RmultE Rpower_mult_distr. Qed.

Lemma mean_gt0 (s : seq R) v : (0 < size s)%N -> 0 < (\sum_(x <- s) Rpower x v) / (size s)%:R.
Proof. by move=> H; rewrite divr_gt0 ?ltr0n //; apply: sum_gt0 => // x; apply: Rpower_gt0. Qed.

Lemma power_mean_scale (s : seq R) (c v : R) : 0 < c -> (0 < size s)%N -> (forall x, x \in s -> 0 < x) ->
  power_mean [seq c * x | x <- s] v = c * power_mean s v.
Proof.
move=> Hc Hn Hs. have Hn0 : (size s)%:R != 0 :> R by rewrite pnatr_eq0 -lt0n.
rewrite /power_mean size_map !big_map. case: eqP => [_|/eqP Hv].
  have -> : \prod_(x <- s) (c * x) = c ^+ size s * \prod_(x <- s) x.
    by elim: (s) => [|x t IH]; rewrite ?big_nil ?mulr1 // !big_cons IH exprS mulrACA.
  by rewrite Rpower_mul ?exprn_gt0 ?prod_pos // -Rpower_nat // RpowerK.
have -> : \sum_(x <- s) Rpower (c * x)%R v = Rpower c v * \sum_(x <- s) Rpower x v.
  by rewrite mulr_sumr; apply: eq_big_seq => x /Hs Hx; rewrite Rpower_mul.
by rewrite -mulrA Rpower_mul ?Rpower_gt0 ?mean_gt0 // RpowerK.
Qed.

Lemma Rpower_le (x y p : R) : 0 < x -> x <= y -> 0 < p -> Rpower x p <= Rpower y p.
Proof.
move=> /RltP Hx /RleP Hy /RltP Hp. apply/RleP/Rle_Rpower_l; first exact: Rlt_le. by split.
Qed.

Lemma Rpower_le_neg (x y p : R) : 0 < x -> x <= y -> p < 0 -> Rpower y p <= Rpower x p.
Proof.
move=> Hx Hy Hp. have Hp' : 0 < - p by rewrite oppr_gt0.
have E z : Rpower z p = (Rpower z (- p)%R)^-1.
  by rewrite RoppE Rpower_Ropp -RinvE ?gt_eqF ?Rpower_gt0 // invrK.
by rewrite !E lef_pinv ?posrE ?Rpower_gt0 // Rpower_le.
Qed.

Lemma Rpower_bounds (lo hi x p : R) : 0 < lo -> 0 < x -> p != 0 ->
  (if 0 < p then Rpower lo p <= x <= Rpower hi p else Rpower hi p <= x <= Rpower lo p) -> 0 < hi ->
  lo <= Rpower x (1 / p)%R <= hi.
Proof.
move=> Hl Hx Hp H Hh. rewrite -{1}(RpowerK Hl Hp) -{1}(RpowerK Hh Hp).
case: ifP H => Hlt /andP [H1 H2].
  by rewrite !Rpower_le ?Rpower_gt0 ?div1r ?invr_gt0.
have Hlt' : p < 0 by rewrite lt_neqAle Hp leNgt Hlt.
by rewrite !Rpower_le_neg ?Rpower_gt0 ?div1r ?invr_lt0.
Qed.

Lemma power_mean_bounds (s : seq R) (lo hi v : R) : (0 < size s)%N -> 0 < lo ->
  (forall x, x \in s -> lo <= x <= hi) -> lo <= power_mean s v <= hi.
Proof.
move=> Hn Hlo Hs. have Hn0 : (size s)%:R != 0 :> R by rewrite pnatr_eq0 -lt0n.
have Hhi : 0 < hi.
  case: s Hn Hs {Hn0} => // x s _ /(_ x). rewrite mem_head => /(_ isT) /andP [H1 H2].
  exact: lt_le_trans Hlo (le_trans H1 H2).
have Hpos x : x \in s -> 0 < x by move=> /Hs /andP [H _]; apply: lt_le_trans H.
have B (f : R -> R) (l h : R) : (forall x, x \in s -> l <= f x <= h) ->
    l <= (\sum_(x <- s) f x) / (size s)%:R <= h.
  move=> H. rewrite ler_pdivl_mulr ?ltr0n // ler_pdivr_mulr ?ltr0n //.
  have Ec (c : R) : c * (size s)%:R = \sum_(x <- s) c.
    by elim: (s) => [|x t IH]; rewrite ?big_nil ?mulr0 // big_cons -IH /= -addn1 natrD mulrDr mulr1 addrC.
  by rewrite !Ec !big_seq; apply/andP; split; apply: ler_sum => x /H /andP [].
have Hmul : power_mean s v = power_mean s v by [].
rewrite /power_mean. case: eqP => [_|/eqP Hv].
  apply: Rpower_bounds => //; first exact: prod_pos.
  rewrite ltr0n Hn !Rpower_nat //.
  elim: (s) Hs => [|x t IH] H; first by rewrite big_nil !expr0 lexx.
  rewrite big_cons /= !exprS.
  have /andP [H1 H2] := H x (mem_head _ _).
  have /andP [H3 H4] : lo ^+ size t <= \prod_(j <- t) j <= hi ^+ size t.
    by apply: IH => y Hy; apply: H; rewrite inE Hy orbT.
  have Hx : 0 <= x by apply: le_trans H1; apply: ltW.
  rewrite !ler_pmul ?exprn_ge0 // ?(ltW Hlo) //. by apply: le_trans H3; rewrite exprn_ge0 // ltW.
apply: Rpower_bounds => //; first exact: mean_gt0.
case: ifP => Hlt; apply: B => x Hx; have /andP [H1 H2] := Hs _ Hx; have Hx0 := Hpos _ Hx.
  by rewrite !Rpower_le.
have Hlt' : v < 0 by rewrite lt_neqAle Hv leNgt Hlt.
by rewrite !Rpower_le_neg.
Qed.

Lemma deriv_sum (s : seq R) : derivable_pt_lim (fun v => \sum_(x <- s) Rpower x v)%R 0 (\sum_(x <- s) ln x)%R.
Proof.
elim: s => [|x s IH].
  have -> : (fun v : R => \sum_(x <- [::]) Rpower x v)%R = (fun _ => 0%R).
    by apply: FunctionalExtensionality.functional_extensionality => v; rewrite big_nil.
  rewrite big_nil. exact: derivable_pt_lim_const.
have -> : (fun v : R => \sum_(y <- x :: s) Rpower y v)%R = ((fun v => Rpower x v) + (fun v => \sum_(y <- s) Rpower y v)%R)%F.
  by apply: FunctionalExtensionality.functional_extensionality => v; rewrite big_cons.
rewrite big_cons. apply: derivable_pt_lim_plus IH.
rewrite /Rpower. have H := derivable_pt_lim_comp (fun v => Rmult v (ln x)) exp (IZR 0) (ln x) (IZR 1).
have H1 : derivable_pt_lim (fun v => Rmult v (ln x)) (IZR 0) (ln x).
  move=> eps He. exists (mkposreal 1 Rlt_0_1) => h Hh _.
  have -> : Rminus (Rdiv (Rminus (Rmult (Rplus 0 h) (ln x)) (Rmult 0 (ln x))) h) (ln x) = IZR 0 by field.
  by rewrite Rabs_R0.
have H2 : derivable_pt_lim exp (Rmult 0 (ln x)) (IZR 1).
  rewrite Rmult_0_l -exp_0. exact: derivable_pt_lim_exp.
have := H H1 H2. by rewrite Rmult_1_l.
Qed.

Lemma ln_prod (s : seq R) : (forall x, x \in s -> 0 < x) -> ln (\prod_(x <- s) x)%R = \sum_(x <- s) ln x.
Proof.
elim: s => [|x s IH] H; first by rewrite !big_nil ln_1.
have Hs y : y \in s -> 0 < y by move=> Hy; apply: H; rewrite inE Hy orbT.
rewrite !big_cons RmultE ln_mult ?IH //; first by apply/RltP/H; rewrite mem_head.
by apply/RltP/prod_pos.
Qed.

Lemma power_mean_continuous (s : seq R) (eps : R) : (0 < size s)%N -> (forall x, x \in s -> 0 < x) ->
  0 < eps -> exists2 d, 0 < d & forall v, `|v| < d -> `|power_mean s v - power_mean s 0| < eps.
Proof.
move=> Hn Hs /RltP He. set n : R := (size s)%:R.
have Hn0 : n != 0 by rewrite pnatr_eq0 -lt0n.
have /RltP Hn1 : 0 < n by rewrite ltr0n.
pose S v : R := (\sum_(x <- s) Rpower x v)%R. pose l : R := (\sum_(x <- s) ln x)%R.
have S0 : S 0 = n.
  rewrite /S /n. elim: (s) => [|x t IH]; first by rewrite big_nil.
  by rewrite big_cons IH /Rpower Rmult_0_l exp_0 /= -addn1 natrD addrC.
pose L v := ln (Rdiv (S v) n).
have L0 : L 0 = 0 by rewrite /L S0 /Rdiv Rinv_r ?ln_1 //; apply/eqP.
have DL : derivable_pt_lim L 0 (Rdiv l n).
  have D1 : derivable_pt_lim (fun v => Rdiv (S v) n) 0 (Rdiv l n).
    have := derivable_pt_lim_scal S (Rinv n) 0 l (deriv_sum s).
    rewrite Rmult_comm. have -> // : mult_real_fct (Rinv n) S = (fun v => Rdiv (S v) n).
    by apply: FunctionalExtensionality.functional_extensionality => v; rewrite /mult_real_fct Rmult_comm.
  have E1 : Rdiv (S 0) n = 1 by rewrite S0 /Rdiv Rinv_r //; apply/eqP.
  have := derivable_pt_lim_comp _ ln _ _ (Rinv (Rdiv (S 0) n)) D1. rewrite E1 Rinv_1 Rmult_1_l. apply.
  have := derivable_pt_lim_ln 1 Rlt_0_1. by rewrite Rinv_1.
have M0 : power_mean s 0 = exp (Rdiv l n).
  by rewrite /power_mean eqxx /Rpower ln_prod // -/l -/n RdivE // /Rdiv -!RmultE mul1r mulrC.
have Mv v : v != 0 -> power_mean s v = exp (Rdiv (L v) v).
  by move=> Hv; rewrite /power_mean (negbTE Hv) /Rpower /L /S -/n !RdivE // /Rdiv -!RmultE mul1r mulrC.
have Cexp : continuity_pt exp (Rdiv l n) by apply/derivable_continuous_pt/derivable_pt_exp.
have [d1 [Hd1 Hc]] := Cexp _ He. have [[d2 Hd2] Hd] := DL _ Hd1.
exists d2; first by apply/RltP. move=> v /RltP Hv. case: (eqVneq v 0) => [->|Hv0].
  by rewrite subrr normr0; apply/RltP.
apply/RltP. rewrite M0 Mv //. case: (Req_dec (Rdiv (L v) v) (Rdiv l n)) => [->|Hne].
  by rewrite subrr normr0.
apply: Hc. split; first by split=> // H; apply: Hne.
have /eqP Hv0' := Hv0. have := Hd v Hv0' Hv. by rewrite /= Rplus_0_l L0 Rminus_0_r.
Qed.

(** The methods that accept an exponent p *)
Definition accepts (m : method) (p : TraceModel.pynum) : bool :=
  match m, p with
  | Exact, TraceModel.PyInt z => 0 < z
  | Exact, TraceModel.PyFloat x => (x == 1) || (x == 2%:R)
  | Eigenvalue, TraceModel.PyInt _ => true
  | Eigenvalue, TraceModel.PyFloat _ => true
  | Cholesky, TraceModel.PyInt z => z <= 0
  | Cholesky, TraceModel.PyFloat x => x == 0
  | _, TraceModel.PyFloatSpecial => false
  end.

Section Norm.
Variable E : eig_routines.
Hypothesis EO : eig_routines_ok E.
Variable F : CholModel.routines R_rcfType.
Hypothesis FO : CholModel.routines_ok F.
Variables (sym : bool) (b : CholModel.backend) (inv : bool).

Lemma genr_sum n (A : 'M[R]_n) s (f : R[i] -> option R[i]) (g : R -> R) w : spectrum A s ->
  (forall x, x \in s -> f (toC x) = Some (toC (g x))) ->
  obind (ctotal false n f) (eigenvalues_gen E A None None w) = Some (\sum_(x <- s) g x).
Proof.
move=> Hs Hf. have /spectrum_toC HC := Hs. have Hp := spectrum_perm (eig_ok EO A) HC.
rewrite /= /ctotal not_nan_Some (csumP (g := fun z => toC (g (complex.Re z)))); last first.
  by move=> z; rewrite (perm_mem Hp) => /mapP [x /Hf Hx ->]; rewrite Hx.
rewrite (perm_big _ Hp) big_map /= -rmorph_sum. exact: real_resultP.
Qed.

Lemma trace_powers n (A : 'M[R]_n) s p v m : spectrum A s -> A^T = A -> (forall x, x \in s -> 0 < x) ->
  value p = Some v -> accepts m p -> 0 < v -> trace E sym m A p = Some (\sum_(x <- s) Rpower x v).
Proof.
move=> Hs HA Hpos Hv Hm H0.
have X (k : nat) : k%:R = v -> \tr (mxpow A k) = \sum_(x <- s) Rpower x v.
  move=> Hk. rewrite (trace_spectrumR (spectrum_powR k Hs)) big_map.
  by apply: eq_big_seq => x /Hpos Hx; rewrite -Hk pmulrn Rpower_exprz.
case: m Hm; rewrite /trace.
- case: p Hv => [[k|k]|x|] //= [Hv]; first by rewrite PropTrace.C34_trace_of_power /= X.
  have G k : (k <= 2)%N -> x = k%:R -> of_res (TraceModel.exact_trace (PyFloat x)
      (TraceModel.Dense (A : 'M[[comRingType of R]]_n))) = Some (\sum_(x0 <- s) Rpower x0 v).
    move=> Hk Ek. rewrite Ek PropTrace.C34_float_exponent // PropTrace.C34_trace_of_power /= X //.
    by rewrite -Hv Ek ratr_nat.
  by move=> /orP [] /eqP Hx; [apply: (G 1%N)|apply: (G 2%N)].
- move=> _. rewrite Hv /=. case: sym.
    have Hw : whole_sym A None None by [].
    by have [-> _] := C40_symmetric EO Hw Hs (fun x Hx => is_power_pos v (Hpos x Hx)).
  apply: genr_sum Hs _ => x /Hpos Hx. exact: cpowr_pos.
- by case: p Hv => [z|x|] //= [Hv]; move: H0; rewrite -Hv ?ltr0z ?ltr0q; [case: ltgtP|case: eqP => [->|]].
Qed.

Lemma traceinv_powers n (A : 'M[R]_n) s p v m : spectrum A s -> posdef A -> (forall x, x \in s -> 0 < x) ->
  value p = Some v -> accepts m p -> v < 0 ->
  traceinv E F sym b inv m A (pyabs p) = Some (\sum_(x <- s) Rpower x v).
Proof.
move=> Hs HA Hpos Hv Hm H0. have [HS _] := HA. have HU := posdef_unit HA.
case: m Hm; rewrite /traceinv.
- case: p Hv => [[k|k]|x|] //= [Hv].
    by move=> _; move: H0; rewrite -Hv ltrz0.
  by move=> /orP [] /eqP Ex; move: H0; rewrite -Hv Ex ltrq0.
- move=> _. rewrite (value_pyabs Hv) /=. case: sym.
    have Hw : whole_sym A None None by [].
    have [_ [T _]] := C40_symmetric EO Hw Hs (fun x Hx => is_power_pos `|v| (Hpos x Hx)).
    rewrite T; first by congr Some; apply: eq_big_seq => x /Hpos Hx; rewrite Rpower_abs_neg.
    by move=> x Hx; rewrite gt_eqF // Rpower_gt0.
  apply: genr_sum Hs _ => x /Hpos Hx. rewrite cpowr_pos // /= cdiv_real ?gt_eqF ?Rpower_gt0 //.
  by rewrite Rpower_abs_neg.
- case: p Hv => [z|x|] //= [Hv] Hz; last by move: H0; rewrite -Hv (eqP Hz) rmorph0 ltxx.
  rewrite PropChol.C37_traceinv //=; last exact: one_posdef.
  have Ez : - `|z| = z by rewrite ler0_norm // opprK.
  rewrite mulmx1 Ez (trace_spectrumR (spectrum_powz Hs (z := z) _)) ?HU // big_map.
  by congr Some; apply: eq_big_seq => x /Hpos Hx; rewrite -Hv Rpower_exprz.
Qed.

(** C39: for a symmetric positive-definite matrix the norm is the power mean of
    the eigenvalues, by every method that accepts p. *)
Theorem C39_power_mean m n (A : 'M[R]_n) p v s : posdef A -> (0 < n)%N -> accepts m p ->
  value p = Some v -> spectrum A s ->
  schatten E F sym b inv m A p = Some (toC (power_mean s v)).
Proof.
move=> HA Hn Hm Hv Hs. have Hpos := spectrum_posdef HA Hs. have [HS _] := HA.
have Hd := det_posdef HA.
apply: schatten_ofP => //; first exact: spectrum_size Hs.
- move=> E0. rewrite -(det_spectrum Hs) /logdet.
  have HU := posdef_unit HA.
  case: m Hm => [|_|_].
  + case: p Hv => [[k|k]|x|] //= [Hv]; move: Hv; rewrite E0 => /eqP; rewrite ?intr_eq0.
      by case: k.
    by move=> Hx /orP [] /eqP Ex; move: Hx; rewrite Ex ?rmorph1 ?ratr_nat ?oner_eq0 ?pnatr_eq0.
  + by rewrite C40_logdet // ltNge (ltW Hd) /= mul1r gtr0_norm.
  + by rewrite PropChol.C36_logdet //= mul1r.
- exact: trace_powers.
- exact: traceinv_powers.
Qed.

(** C39, the documented formula: the determinant, the trace of a power and the
    trace of a power of the inverse. *)
Theorem C39_formula m n (A : 'M[R]_n) (z : int) : posdef A -> (0 < n)%N -> accepts m (PyInt z) ->
  schatten E F sym b inv m A (PyInt z) =
  Some (toC (if z == 0 then Rpower (\det A) (1 / n%:R)%R
             else Rpower (\tr (mxpowz A z) / n%:R)%R (1 / z%:~R)%R)).
Proof.
move=> HA Hn Hm. have [s Hs] := spectrum_sym (proj1 HA).
rewrite (C39_power_mean HA Hn Hm erefl Hs). congr (Some (toC _)).
rewrite /power_mean intr_eq0 (det_spectrum Hs) (spectrum_size Hs). case: eqP => // _.
rewrite (trace_spectrumR (spectrum_powz Hs (z := z) _)) ?posdef_unit // big_map.
congr (Rpower (_ / _)%R _). apply: eq_big_seq => x /(spectrum_posdef HA Hs) Hx.
by rewrite Rpower_exprz.
Qed.

(** The exact method needs no definite matrix. *)
Theorem C39_exact n (A : 'M[R]_n) (k : nat) : (0 < n)%N -> (0 < k)%N -> 0 < \tr (mxpow A k) ->
  schatten E F sym b inv Exact A (PyInt k) = Some (toC (Rpower (\tr (mxpow A k) / n%:R)%R (1 / k%:R)%R)).
Proof.
move=> Hn Hk HT. rewrite /schatten /schatten_of /value pnatr_eq0 ltr0n Hk.
have -> : (k == 0%N) = false by case: k Hk {HT}.
rewrite /trace PropTrace.C34_trace_of_power /= /ndiv pnatr_eq0 -[_ == 0%N]negbK -lt0n Hn /=.
by rewrite npow_pos ?divr_gt0 ?ltr0n.
Qed.

(** A multiple c I has norm c for every p. *)
Theorem C39_multiple m n (c : R) p : 0 < c -> (0 < n)%N -> accepts m p ->
  schatten E F sym b inv m (c%:M : 'M[R]_n) p = Some (toC c).
Proof.
move=> Hc Hn Hm.
have HA : posdef (c%:M : 'M[R]_n).
  split; first by rewrite tr_scalar_mx.
  move=> x Hx. rewrite /qform mul_mx_scalar -scalemxAl mxE pmulr_rgt0 //.
  by have := sq_norm_gt0 (v := x^T); rewrite trmxK trmx_eq0; apply.
have [v Hv] : exists v, value p = Some v.
  by case: p Hm => [z|x|] /=; [exists z%:~R|exists (ratr x)|case: m].
have Hs : spectrum (c%:M : 'M[R]_n) (nseq n c).
  have := spectrum_trig (scalar_mx_is_trig n c).
  have -> // : diagonal (c%:M : 'M[R]_n) = nseq n c.
  have /all_pred1P : all (pred1 c) (diagonal (c%:M : 'M[R]_n)).
    by rewrite /diagonal all_map; apply/allP => i _ /=; rewrite mxE eqxx mulr1n.
  by rewrite {2}/diagonal size_map size_enum_ord.
rewrite (C39_power_mean HA Hn Hm Hv Hs). congr (Some (toC _)). exact: power_mean_const.
Qed.

(** Homogeneity *)
Theorem C39_homogeneous m n (A : 'M[R]_n) (c : R) p : posdef A -> 0 < c -> (0 < n)%N -> accepts m p ->
  exists2 r, schatten E F sym b inv m A p = Some (toC r) &
    schatten E F sym b inv m (c *: A) p = Some (toC (c * r)%R).
Proof.
move=> HA Hc Hn Hm.
have HcA : posdef (c *: A).
  split; first by rewrite linearZ /= (proj1 HA).
  by move=> x Hx; rewrite /qform -scalemxAr -scalemxAl mxE pmulr_rgt0 //; apply: (proj2 HA).
have [v Hv] : exists v, value p = Some v.
  by case: p Hm => [z|x|] /=; [exists z%:~R|exists (ratr x)|case: m].
have [s Hs] := spectrum_sym (proj1 HA).
exists (power_mean s v); first exact: (C39_power_mean HA Hn Hm Hv Hs).
rewrite (C39_power_mean HcA Hn Hm Hv (spectrum_scale c Hs)). congr (Some (toC _)).
apply: power_mean_scale => //; first by rewrite (spectrum_size Hs).
exact: (spectrum_posdef HA Hs).
Qed.

(** The norm lies between the smallest and the largest eigenvalue. *)
Theorem C39_bounds m n (A : 'M[R]_n) p s (lo hi : R) : posdef A -> (0 < n)%N -> accepts m p ->
  spectrum A s -> (forall x, x \in s -> lo <= x <= hi) -> 0 < lo ->
  exists2 r, schatten E F sym b inv m A p = Some (toC r) & lo <= r <= hi.
Proof.
move=> HA Hn Hm Hs Hb Hlo.
have [v Hv] : exists v, value p = Some v.
  by case: p Hm => [z|x|] /=; [exists z%:~R|exists (ratr x)|case: m].
exists (power_mean s v); first exact: (C39_power_mean HA Hn Hm Hv Hs).
apply: power_mean_bounds => //. by rewrite (spectrum_size Hs).
Qed.

(** C57: the norm is continuous at p = 0. *)
Theorem C57_continuous n (A : 'M[R]_n) (eps : R) : posdef A -> (0 < n)%N -> 0 < eps ->
  exists2 r0, schatten E F sym b inv Eigenvalue A (PyInt 0) = Some (toC r0) &
  exists2 delta, 0 < delta &
    forall p v, value p = Some v -> `|v| < delta ->
    exists2 r, schatten E F sym b inv Eigenvalue A p = Some (toC r) & `|r - r0| < eps.
Proof.
move=> HA Hn He. have [s Hs] := spectrum_sym (proj1 HA).
have Hsz : (0 < size s)%N by rewrite (spectrum_size Hs).
have [d Hd Hc] := power_mean_continuous Hsz (spectrum_posdef HA Hs) He.
exists (power_mean s 0); first exact: (@C39_power_mean Eigenvalue _ _ (PyInt 0) 0 s).
exists d => // p v Hv /Hc H. exists (power_mean s v) => //.
apply: C39_power_mean => //. by case: p Hv.
Qed.

(** Gramian matrices, square A with positive determinant, eigenvalue method.
    Missing: matrices that are not square (next theorem) and, for p = 0, a
    negative determinant (C40_logdet_gram_refuted). *)
Theorem C39_gram_partial n (A : 'M[R]_n) p v s : (0 < n)%N -> 0 < \det A -> (sym -> A^T = A) ->
  value p = Some v -> spectrum (A^T *m A) s ->
  schatten_gram E F sym b inv Eigenvalue A p = Some (toC (power_mean s v)).
Proof.
move=> Hn Hd HA Hv Hs.
have HU : A^T *m A \in unitmx by rewrite unitmx_mul unitmx_tr andbb unitmxE unitfE gt_eqF.
have Hpos x : x \in s -> 0 < x.
  move=> Hx. rewrite lt_neqAle (spectrum_gram Hs Hx) andbT. apply: contraTneq HU => E0.
  by rewrite (spectrum_unit Hs) negbK E0.
have Hw : whole_gram A None None by [].
have Hsum (w : R) := C40_gram_partial EO Hw Hs (fun x Hx => is_power_pos w (Hpos x Hx)).
apply: schatten_ofP => //; first exact: spectrum_size Hs.
- move=> _. rewrite -(det_spectrum Hs) /logdet.
  have Hwl : whole_logdet sym A None None by [].
  by rewrite (C40_logdet_gram_partial EO _ Hwl Hd) mul1r.
- by move=> _; rewrite /trace_gram Hv /=; have [-> _] := Hsum v.
- move=> Hlt. rewrite /traceinv_gram (value_pyabs Hv) /=. have [_ [T _]] := Hsum `|v|.
  rewrite T; first by congr Some; apply: eq_big_seq => x /Hpos Hx; rewrite Rpower_abs_neg.
  by move=> x _; rewrite gt_eqF // Rpower_gt0.
Qed.

(** A matrix with more rows than columns: the number of rows takes the place of
    the size of A^T A, and the result is wrong for every p except 0 ... *)
Theorem C39_tall_refuted n m (A : 'M[R]_(n, m)) p v s : (0 < m < n)%N -> A^T *m A \in unitmx ->
  value p = Some v -> v != 0 -> spectrum (A^T *m A) s ->
  exists2 r, schatten_rect E F sym b inv Eigenvalue A p = Some (toC r) &
    r = power_mean s v * Rpower (m%:R / n%:R)%R (1 / v)%R /\ r <> power_mean s v.
Proof.
move=> /andP [Hm Hmn] HU Hv Hv0 Hs. have Hn : (0 < n)%N by apply: ltn_trans Hmn.
have Hpos x : x \in s -> 0 < x.
  move=> Hx. rewrite lt_neqAle (spectrum_gram Hs Hx) andbT. apply: contraTneq HU => E0.
  by rewrite (spectrum_unit Hs) negbK E0.
have Hw : whole_gram A None None by split=> //; apply: ltnW.
have Hsum (w : R) := C40_gram_partial EO Hw Hs (fun x Hx => is_power_pos w (Hpos x Hx)).
have Hsz := spectrum_size Hs.
have Hn0 : n%:R != 0 :> R by rewrite pnatr_eq0 -lt0n.
have Hm0 : m%:R != 0 :> R by rewrite pnatr_eq0 -lt0n.
pose S : R := (\sum_(x <- s) Rpower x v)%R.
have HS : 0 < S / m%:R by rewrite -Hsz; apply: mean_gt0; rewrite Hsz.
have HS' : 0 < S / n%:R.
  by rewrite divr_gt0 ?ltr0n //; move: HS; rewrite pmulr_lgt0 // invr_gt0 ltr0n.
have Hq : 0 < (m%:R / n%:R : R) by rewrite divr_gt0 ?ltr0n.
have Er : Rpower (S / n%:R)%R (1 / v)%R = power_mean s v * Rpower (m%:R / n%:R)%R (1 / v)%R.
  rewrite /power_mean (negbTE Hv0) Hsz -Rpower_mul //. congr Rpower.
  by rewrite mulrA divfK.
exists (Rpower (S / n%:R)%R (1 / v)%R).
  rewrite /schatten_rect /schatten_of Hv (negbTE Hv0). case: ifP => Hlt.
    by rewrite /trace_gram Hv /=; have [-> _] := Hsum v; rewrite /= /ndiv (negbTE Hn0) /= npow_pos.
  have Hlt' : v < 0 by rewrite lt_neqAle Hv0 leNgt Hlt.
  rewrite /traceinv_gram (value_pyabs Hv) /=. have [_ [T _]] := Hsum `|v|.
  rewrite T; last by move=> x _; rewrite gt_eqF // Rpower_gt0.
  have -> : \sum_(x <- s) 1 / Rpower x `|v| = S by apply: eq_big_seq => x /Hpos Hx; rewrite Rpower_abs_neg.
  by rewrite /= /ndiv (negbTE Hn0) /= npow_pos.
split=> //. rewrite Er => /eqP. rewrite -subr_eq0 -{2}[power_mean s v]mulr1 -mulrBr mulf_eq0.
rewrite gt_eqF /=; last by rewrite /power_mean; case: ifP => _; apply: Rpower_gt0.
rewrite subr_eq0 => /eqP H1.
have : ln (Rpower (m%:R / n%:R)%R (1 / v)%R) = 0 by rewrite H1 ln_1.
rewrite /Rpower ln_exp -RmultE => /eqP. rewrite mulf_eq0 div1r invr_eq0 (negbTE Hv0) /= => /eqP Hl.
have /eqP : (m%:R / n%:R : R) = 1.
  apply: ln_inv; [by apply/RltP|exact: Rlt_0_1|]. by rewrite Hl ln_1.
rewrite -(inj_eq (mulIf Hn0)) divfK // mul1r eqr_nat => /eqP H2. by rewrite H2 ltnn in Hmn.
Qed.

(** ... and for p = 0 as well unless det (A^T A) = 1. *)
Theorem C39_tall_zero_refuted n m (A : 'M[R]_(n, m)) : (0 < m < n)%N -> A^T *m A \in unitmx ->
  schatten_rect E F sym b inv Eigenvalue A (PyInt 0) =
    Some (toC (Rpower (\det (A^T *m A)) (1 / n%:R)%R)) /\
  (\det (A^T *m A) != 1 ->
    Rpower (\det (A^T *m A)) (1 / n%:R)%R <> Rpower (\det (A^T *m A)) (1 / m%:R)%R).
Proof.
move=> /andP [Hm Hmn] HU. have Hn : (0 < n)%N by apply: ltn_trans Hmn.
have Hn0 : n%:R != 0 :> R by rewrite pnatr_eq0 -lt0n.
have Hm0 : m%:R != 0 :> R by rewrite pnatr_eq0 -lt0n.
split.
  rewrite /schatten_rect /schatten_of /value eqxx /logdet_rect (C40_logdet_tall EO) //.
  rewrite -[LHS]/(omap cexp (cdiv (toC _) (toC n%:R))) cdiv_real //.
  rewrite -[LHS]/(Some (cexp (toC _))) cexp_real. congr (Some (toC _)).
  by rewrite /Rpower !mul1r mulrC.
move=> Hd. rewrite /Rpower => /exp_inv /eqP. rewrite -!RmultE -subr_eq0 -mulrBl mulf_eq0 !div1r.
rewrite subr_eq0 (inj_eq invr_inj) eqr_nat gtn_eqF //= => /eqP Hl.
have [s Hs] : exists s, spectrum (A^T *m A) s by apply: spectrum_sym; rewrite trmx_mul trmxK.
have Hdet : 0 < \det (A^T *m A).
  rewrite (det_spectrum Hs). apply: prod_pos => x Hx.
  rewrite lt_neqAle (spectrum_gram Hs Hx) andbT. apply: contraTneq HU => E0.
  by rewrite (spectrum_unit Hs) negbK E0.
case/eqP: Hd. apply: ln_inv; [by apply/RltP|exact: Rlt_0_1|]. by rewrite Hl ln_1.
Qed.

(** The documentation takes absolute values; without them the "norm" of -I is -1. *)
Theorem C39_sign_refuted n : (0 < n)%N ->
  schatten E F sym b inv Exact ((-1)%:M : 'M[R]_n) (PyInt 1) = Some (toC (-1)).
Proof.
move=> Hn. have Hn0 : n%:R != 0 :> R by rewrite pnatr_eq0 -lt0n.
rewrite /schatten /schatten_of /value (_ : 1%:~R = 1 :> R) // oner_eq0 ltr01 /trace.
rewrite PropTrace.C34_trace_of_power mxpow1 /= mxtrace_scalar /ndiv (negbTE Hn0) /=.
rewrite -mulr_natr mulfK // divr1.
have := is_power_exprz (x := -1) (z := 1). rewrite oppr_eq0 oner_eq0 /= expr1z => /(_ isT) /npowP.
by rewrite (_ : 1%:~R = 1 :> R) // => ->.
Qed.
End Norm.

(** A case: [[2,1],[1,2]] with p = -1.  The harmonic mean of 1 and 3 is 3/2. *)
Lemma two_one_posdef : posdef two_one.
Proof.
split; first by rewrite /two_one linearD /= trmx1 trmx_const.
move=> x Hx. rewrite /qform /two_one mulmxDr mulmx1 mulmxDl mxE.
have := sq_norm_gt0 (v := x^T). rewrite trmxK trmx_eq0 => /(_ Hx) H.
rewrite ltr_paddr //. have -> : (const_mx 1 : 'M[R]_2) = (const_mx 1 : 'cV_2) *m (const_mx 1 : 'rV_2).
  by apply/matrixP => i j; rewrite !mxE big_ord1 !mxE mulr1.
have -> : (const_mx 1 : 'rV[R]_2) = (const_mx 1 : 'cV_2)^T by rewrite trmx_const.
rewrite mulmxA -mulmxA -[const_mx 1 in X in X *m _]trmxK -trmx_mul mxE big_ord1 mxE.
by rewrite -expr2 sqr_ge0.
Qed.

Example C39_case E F sym b inv : eig_routines_ok E -> CholModel.routines_ok F ->
  schatten E F sym b inv Cholesky two_one (PyInt (- 1)) = Some (toC (3%:R / 2%:R)).
Proof.
move=> EO FO. rewrite (@C39_power_mean _ EO _ FO sym b inv Cholesky _ _ (PyInt (- 1)) (- 1) _ two_one_posdef _ _ _ two_one_spectrum) //.
congr (Some (toC _)). rewrite /power_mean /= oppr_eq0 oner_eq0 !big_cons big_nil addr0.
have P x : 0 < x -> Rpower x (-1)%R = x^-1.
  by move=> Hx; rewrite -[(-1)%R]/((-1)%:~R) Rpower_exprz // -[(-1)%R]/(- 1%:Z) -exprnN expr1.
have -> : 1 / -1 = -1 :> R by rewrite mul1r invrN invr1.
have H3 : 0 < 1 + 3%:R^-1 :> R by rewrite addr_gt0 ?invr_gt0 ?ltr01 ?ltr0n.
rewrite !P ?ltr01 ?ltr0n // invr1; last by rewrite divr_gt0 ?ltr0n.
rewrite invf_div. apply: (mulIf (x := 1 + 3%:R^-1)); first by rewrite gt_eqF.
rewrite divfK ?gt_eqF // mulrDr mulr1 mulrAC divff ?pnatr_eq0 // -mulrDl -(natrD _ 3 1).
by rewrite (natrM _ 2 2) mulfK ?pnatr_eq0.
Qed.

Definition C39_assumptions := (@C39_power_mean, @C39_formula, @C39_exact, @C39_multiple, @C39_homogeneous,
  @C39_bounds, @C57_continuous, @C39_gram_partial, @C39_tall_refuted, @C39_tall_zero_refuted, @C39_sign_refuted).
Print Assumptions C39_assumptions.
