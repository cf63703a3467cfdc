(** The error of the quadrature for exponential functions. *)
Require Import Reals Lra.
From mathcomp Require Import all_ssreflect all_algebra.
From mathcomp Require Import zify.
From Verif Require Import RealField ExpMath.
From Verif Require Import Mem KernelModel KernelSpec LanczosModel LanczosSpec LanczosMath LanczosProofs GolubKahnProofs.
From Verif Require Import Spectral SlqModel SlqSpec SlqProofs ExactProofs PropSlq SlqRunValues.
From Verif Require Import PropSolver AccuracySpec AccuracyProofs.
Set Implicit Arguments.
Unset Strict Implicit.
Unset Printing Implicit Defensive.
Import GRing.Theory Num.Theory Order.TTheory.
Local Open Scope ring_scope.

Section Powers.
Variable R : rcfType.

Lemma op_bound N (P : 'M[R]_N.+1) (d : 'rV[R]_N.+1) (h : R -> R) c (y : 'cV[R]_N.+1) : orthonormal P ->
  (forall i, `|h (d 0 i)| <= c) -> nrm (matrix_function h P d *m y) <= c * nrm y.
Proof.
move=> HP Hh. set x := _ *m y. have [E|Hx] := eqVneq (nrm x) 0.
{ rewrite E mulr_ge0 ?nrm_ge0 //. exact: le_trans (Hh 0). }
have Hp : 0 < nrm x by rewrite lt_neqAle eq_sym Hx nrm_ge0.
have := form_bound x y HP Hh. rewrite -/x -nrm_sqr ger0_norm ?sqr_ge0 // expr2 mulrAC.
by rewrite ler_pmul2r.
Qed.

Lemma shift_power N (M P : 'M[R]_N.+1) d c j : spectral M P d ->
  matrix_function (fun y => (y - c) ^+ j) P d = (M - c%:M) ^+ j.
Proof.
move=> HP. rewrite (matrix_function_poly (p := ('X - c%:P) ^+ j) HP); last by move=> i; rewrite horner_exp !hornerE.
by rewrite rmorphX rmorphB /= horner_mx_X horner_mx_C.
Qed.

(** Powers of the distance to c, when the iteration stopped with a remainder *)
Lemma power_perturbed n k (N : 'M[R]_n.+1) w (V : 'M[R]_(n.+1, k.+1)) T r Q d P e (c h : R) j : w != 0 ->
  0 <= h -> range_in N (c - h) (c + h) -> lanczos_result N w V T r -> spectral T Q d -> spectral N P e ->
  `|matrix_function (fun y => (y - c) ^+ j) Q d 0 0 - rayleigh (matrix_function (fun y => (y - c) ^+ j) P e) w| <=
  j%:R * h ^+ j.-1 * nrm r.
Proof.
move=> Hw Hh Hr [HV HV0 [HT _] HVr HNV] Hsp HP.
have Hd : forall i, c - h <= d 0 i <= c + h by exact: ritz_bounds HV HT Hsp Hr.
have He : forall i, c - h <= e 0 i <= c + h by exact: spectral_range HP Hr.
have Hb (y : R) i : c - h <= y <= c + h -> `|(y - c) ^+ i| <= h ^+ i.
{ move=> Hy. rewrite normrX. apply: ler_expn2r; rewrite ?nnegrE //.
  by rewrite ler_distl. }
rewrite !(shift_power _ _ Hsp) !(shift_power _ _ HP). set S := N - c%:M. set U := T - c%:M.
set q0 := (nrm w)^-1 *: w. pose e0 : 'cV[R]_k.+1 := delta_mx 0 0.
have Eq : q0 = V *m e0 by rewrite /q0 -HV0 colE.
have Hq : nrm q0 = 1 by rewrite /nrm ip_normalised // sqrtr1.
have ESV : S *m V = V *m U + r *m delta_mx 0 ord_max.
{ rewrite /S /U mulmxBl mulmxBr HNV mul_scalar_mx mul_mx_scalar. by rewrite addrAC. }
pose a i := S ^+ i *m q0 - V *m (U ^+ i *m e0).
have Ha i : a i.+1 = S *m a i + (U ^+ i) ord_max 0 *: r.
{ rewrite /a !exprS -!mulmxE mulmxBr -[S *m _ *m q0]mulmxA -addrA. congr (_ + _).
  rewrite (mulmxA S) ESV mulmxDl opprD -addrA -(mulmxA V) (mulmxA U).
  have -> : r *m delta_mx 0 ord_max *m (U ^+ i *m e0) = (U ^+ i) ord_max 0 *: r.
  { rewrite -mulmxA [delta_mx 0 ord_max *m _]mx11_scalar mul_mx_scalar. congr (_ *: _).
    by rewrite mulmxA -rowE -colE !mxE. }
  by rewrite addNr addr0. }
have HU i : `|(U ^+ i) ord_max 0| <= h ^+ i.
{ have -> : (U ^+ i) ord_max 0 = ip (delta_mx ord_max 0) (U ^+ i *m e0).
  { by rewrite ipE trmx_delta -colE -rowE !mxE. }
  have N1 (l : 'I_k.+1) : nrm (delta_mx l 0 : 'cV[R]_k.+1) = 1.
  { rewrite /nrm ipE trmx_delta mul_delta_mx !mxE eqxx. exact: sqrtr1. }
  rewrite -(shift_power c i Hsp).
  have := @form_bound R _ Q d (fun y => (y - c) ^+ i) (h ^+ i) (delta_mx ord_max 0) e0 Hsp.1
    (fun l => Hb _ i (Hd l)). by rewrite !N1 !mulr1. }
have HS x : nrm (S *m x) <= h * nrm x.
{ rewrite -[S]expr1 -(shift_power c 1 HP). apply: op_bound; first exact: HP.1.
  move=> i. by rewrite -[X in _ <= X]expr1; apply: Hb. }
have Hna i : nrm (a i) <= i%:R * h ^+ i.-1 * nrm r.
{ elim: i => [|i IH].
  - rewrite /a !expr0 !mul1mx -Eq subrr !mul0r. by rewrite -[X in X <= _]/(nrm 0) (eqP (_ : nrm 0 == 0)) // nrm_eq0.
  - rewrite Ha. apply: le_trans (nrm_tri _ _) _. rewrite nrmZ -[i.+1.-1]/i -[X in X%:R]addn1 natrD !mulrDl mul1r.
    apply: ler_add; last by rewrite ler_wpmul2r ?nrm_ge0.
    apply: le_trans (HS _) _. apply: le_trans (ler_wpmul2l Hh IH) _.
    rewrite mulrA mulrCA. case: (i) => [|l]; first by rewrite !mul0r. by rewrite exprS. }
have -> : rayleigh (S ^+ j) w = (U ^+ j) 0 0 + ip q0 (a j).
{ rewrite -ip_q0 -/q0 /a ipBr. have -> : ip q0 (V *m (U ^+ j *m e0)) = (U ^+ j) 0 0.
  { rewrite ipE Eq trmx_mul -mulmxA (mulmxA V^T) HV mul1mx. by rewrite /e0 trmx_delta -colE -rowE !mxE. }
  by rewrite addrC subrK. }
rewrite opprD addrA subrr add0r normrN. apply: le_trans (ip_abs _ _) _. by rewrite Hq mul1r.
Qed.
End Powers.

(** ** Exponentials *)
Delimit Scope R_scope with Re.

Lemma fact_factorial j : fact j = j`!.
Proof. elim: j => // j IH. by rewrite factS -IH. Qed.

Lemma RmaxE (x y : R) : Num.max x y = Rmax x y.
Proof.
rewrite /Rmax. case: Rle_dec => [/RleP H|H]; first exact/max_idPr.
apply/max_idPl/RleP. lra.
Qed.

Lemma termE (x : R) j : x ^+ j / j`!%:R = eterm x j.
Proof.
have Hj : (j`!%:R : R) != 0 by rewrite pnatr_eq0 -lt0n fact_gt0.
by rewrite RdivE // RexpE -fact_factorial RnatE.
Qed.

Section Exponential.
Variable n' : nat.
Notation n := n'.+1.
Variables (k : nat) (N : 'M[R]_n) (w : 'cV[R]_n) (V : 'M[R]_(n, k.+1)) (T : 'M[R]_k.+1) (r : 'cV[R]_n).
Variables (Q : 'M[R]_k.+1) (d : 'rV[R]_k.+1) (P : 'M[R]_n) (e : 'rV[R]_n) (lo hi : R).
Hypothesis w_nz : w != 0.
Hypothesis Hr : range_in (R := R_rcfType) N lo hi.
Hypothesis Hlz : lanczos_result (R := R_rcfType) N w V T r.
Hypothesis HT : spectral (R := R_rcfType) T Q d.
Hypothesis HN : spectral (R := R_rcfType) N P e.

Definition gap (g : R -> R) : R := matrix_function g Q d 0 0 - rayleigh (R := R_rcfType) (matrix_function g P e) w.

Lemma gap_lin g h a : gap (fun y => Rplus (g y) (Rmult a (h y))) = Rplus (gap g) (Rmult a (gap h)).
Proof.
have -> : gap (fun y => Rplus (g y) (Rmult a (h y))) = gap (fun y => g y + a * h y) by [].
rewrite -RmultE -RplusE /gap !mf_weights !(rayleigh_weights (R := R_rcfType)) mulrBr addrACA -opprD !mulr_sumr -!big_split /=.
by congr (_ - _); apply: eq_bigr => i _; rewrite mulrDr [a * (_ * _)]mulrCA.
Qed.

Lemma gap_ext g h : (forall y, g y = h y) -> gap g = gap h.
Proof. by move=> H; rewrite /gap !(@mf_ext R_rcfType _ _ _ g h) // => i; rewrite H. Qed.

Lemma gap_bound g delta : (forall y, Rle lo y /\ Rle y hi -> Rle (Rabs (g y)) delta) -> Rle (Rabs (gap g)) (Rmult (IZR 2) delta).
Proof.
move=> H. apply/RleP.
have Happ : approximates (R := R_rcfType) g 0 lo hi delta.
{ move=> y /andP [/RleP H1 /RleP H2]. rewrite horner0 subr0. by apply/RleP; apply: H. }
have E0 : matrix_function (R := R_rcfType) (horner 0) Q d 0 0 = rayleigh (R := R_rcfType) (horner_mx N 0) w.
{ rewrite mf_weights /rayleigh rmorph0 mul0mx ip0r mul0r. by apply: big1 => i _; rewrite horner0 mulr0. }
have := quadrature_error (R := R_rcfType) w_nz Hlz HT Hr E0 Happ HN.
rewrite -/(gap g) -mulr_natl. by rewrite (_ : 2%:R = IZR 2 :> R).
Qed.

Lemma range_le : lo <= hi.
Proof.
have Hp : 0 < ip (R := R_rcfType) w w by rewrite lt_neqAle eq_sym ip_eq0 w_nz ip_ge0.
have /andP [H1 H2] := Hr w. have := le_trans H1 H2. by rewrite ler_pmul2r.
Qed.
Lemma half (x : R) : x / 2%:R = Rdiv x (IZR 2).
Proof. have H : (2%:R : R) != 0 by rewrite pnatr_eq0. rewrite RdivE //. Qed.

Lemma gap_power j : 
  Rle (Rabs (gap (fun y => pow (Rminus y (Rdiv (Rplus lo hi) (IZR 2))) j)))
    (Rmult (Rmult (INR j) (pow (Rdiv (Rminus hi lo) (IZR 2)) (Nat.pred j))) (nrm (R := R_rcfType) r)).
Proof.
rewrite -[Rdiv (Rplus _ _) _]half -[Rdiv (Rminus _ _) _]half -RexpE -RnatE. apply/RleP.
rewrite (@gap_ext _ (fun y => (y - (lo + hi) / 2%:R) ^+ j)); last by move=> y; rewrite RexpE.
have H2 : 0 < 2%:R :> R by rewrite ltr0n. have H2n : (2%:R : R) != 0 by rewrite gt_eqF.
have E1 : (lo + hi) / 2%:R - (hi - lo) / 2%:R = lo.
{ rewrite !half. change (Rminus (Rdiv (Rplus lo hi) (IZR 2)) (Rdiv (Rminus hi lo) (IZR 2)) = lo). field. }
have E2 : (lo + hi) / 2%:R + (hi - lo) / 2%:R = hi.
{ rewrite !half. change (Rplus (Rdiv (Rplus lo hi) (IZR 2)) (Rdiv (Rminus hi lo) (IZR 2)) = hi). field. }
apply: (power_perturbed (R := R_rcfType) (V := V) (T := T) j w_nz _ _ Hlz HT HN).
- by rewrite divr_ge0 ?subr_ge0 ?range_le // ltW.
- by rewrite E1 E2.
Qed.

Lemma exp_perturbed kappa : `|gap (fun y => exp (kappa * y))| <=
  exp (Num.max (kappa * lo) (kappa * hi)) * (`|kappa| * nrm (R := R_rcfType) r).
Proof.
rewrite RmaxE. apply/RleP.
apply: (@exp_functional_all gap lo hi _ gap_lin gap_ext gap_bound kappa (nrm (R := R_rcfType) r)).
- exact/RleP/range_le.
- apply/RleP. exact: nrm_ge0.
- exact: gap_power.
Qed.

Lemma exp_degree kappa D :
  (forall q : {poly R}, (size q <= D)%N ->
     matrix_function (R := R_rcfType) (horner q) Q d 0 0 = rayleigh (R := R_rcfType) (horner_mx N q) w) ->
  `|gap (fun y => exp (kappa * y))| <=
  exp (Num.max (kappa * lo) (kappa * hi)) * (2%:R * ((`|kappa| * ((hi - lo) / 2%:R)) ^+ D / D`!%:R)).
Proof.
move=> Hex. rewrite RmaxE termE half.
have -> : 2%:R * eterm (`|kappa| * Rdiv (hi - lo) (IZR 2)) D =
  Rplus (Rmult (IZR 2) (eterm (Rmult (Rabs kappa) (Rdiv (Rminus hi lo) (IZR 2))) D)) (Rmult (Rabs kappa) (IZR 0)).
{ by rewrite Rmult_0_r Rplus_0_r. }
apply/RleP.
apply: (@exp_functional gap lo hi _ gap_lin gap_ext gap_bound kappa (IZR 0) D).
- exact/RleP/range_le.
- exact: Rle_refl.
- move=> j /ssrnat.ltP Hj. rewrite Rmult_0_r. set c := Rdiv _ _.
  rewrite (@gap_ext _ (horner (('X - c%:P) ^+ j))); last by move=> y; rewrite horner_exp !hornerE RexpE.
  have E : gap (horner (('X - c%:P) ^+ j)) = 0.
  { have Hq : (size (('X - c%:P) ^+ j : {poly R}) <= D)%N by rewrite size_exp_XsubC.
    rewrite /gap (Hex _ Hq) (matrix_function_poly (R := R_rcfType) (p := ('X - c%:P) ^+ j) HN) //. exact: subrr. }
  rewrite E -RnormE normr0. exact: Rle_refl.
Qed.
End Exponential.
