(** The error of the quadrature for linear fractions. *)
From mathcomp Require Import all_ssreflect all_algebra.
From mathcomp Require Import zify.
From Verif Require Import Mem KernelModel KernelSpec LanczosModel LanczosSpec LanczosMath LanczosProofs GolubKahnProofs.
From Verif Require Import Spectral SlqModel SlqSpec SlqProofs ExactProofs PropSlq SlqRunValues.
From Verif Require Import PropSolver AccuracySpec AccuracyProofs LinfracSpec.
Set Implicit Arguments.
Unset Strict Implicit.
Unset Printing Implicit Defensive.
Import GRing.Theory Num.Theory Order.TTheory.
Local Open Scope ring_scope.

Section Resolvent.
Variable R : rcfType.
Notation res s := (fun y : R => (y + s)^-1).
Notation gap h Q d P e w := (matrix_function h Q d 0 0 - rayleigh (matrix_function h P e) w).

(** The pole is left of the range *)
Lemma left_perturbed n k (N : 'M[R]_n.+1) w (V : 'M[R]_(n.+1, k.+1)) T r Q d P e lo hi s : w != 0 -> N^T = N ->
  0 < lo + s -> range_in N lo hi -> lanczos_result N w V T r -> spectral T Q d -> spectral N P e ->
  `|gap (res s) Q d P e w| <= nrm r / (lo + s) ^+ 2.
Proof.
move=> Hw Hsym Hls Hr Hlz HT HP. rewrite !mf_shifted.
have HrS := range_shifted s Hr. have HPS := spectral_shifted s HP.
have [_ <-] := mf_inv HPS (fun i => lt0r_neq0 (lt_le_trans Hls (proj1 (andP (spectral_range HPS HrS i))))).
have HsymS : (N + s%:M)^T = N + s%:M by rewrite linearD /= Hsym tr_scalar_mx.
exact: inverse_perturbed Hw HsymS Hls HrS (lanczos_shifted s Hlz) (spectral_shifted s HT).
Qed.

Lemma left_degree n k m (N : 'M[R]_n.+1) w (V : 'M[R]_(n.+1, k.+1)) T r Q d P e lo hi s : w != 0 ->
  0 < lo + s -> range_in N lo hi -> lanczos_result N w V T r -> spectral T Q d -> spectral N P e ->
  (forall q : {poly R}, (size q <= 2 * m)%N ->
     matrix_function (horner q) Q d 0 0 = rayleigh (horner_mx N q) w) ->
  `|gap (res s) Q d P e w| <= 2%:R / (lo + s) * ((hi - lo) / (hi - lo + 2%:R * (lo + s))) ^+ (2 * m).
Proof.
move=> Hw Hls Hr Hlz HT HP Hex.
have := @inverse_approximated R GRing.inv (lo + s) (hi + s) (2 * m) Hls (fun _ _ => erefl).
set q0 := inverse_poly _ _. pose q := q0 \Po ('X + s%:P).
have Hq : (size q <= 2 * m)%N.
{ rewrite /q size_comp_poly2 ?size_inverse_poly //. by rewrite size_XaddC. }
have -> : hi + s - (lo + s) = hi - lo by rewrite opprD addrACA subrr addr0.
have -> : hi + s + (lo + s) = hi - lo + 2%:R * (lo + s).
{ rewrite mulr_natl mulr2n [in RHS]addrA. congr (_ + _). by rewrite addrA subrK. }
move=> Happ. set t := _ ^+ _ in Happ *.
have Happ' : approximates (res s) q lo hi ((lo + s)^-1 * t).
{ move=> y Hy. rewrite /q horner_comp hornerD hornerX hornerC. apply: (Happ (y + s)). by rewrite !ler_add2r. }
apply: le_trans (quadrature_error Hw Hlz HT Hr (Hex q Hq) Happ' HP) _.
by rewrite -[X in X <= _]mulr_natl mulrA.
Qed.

(** The other side by a change of sign *)
Lemma spectral_opp n (M P : 'M[R]_n) e : spectral M P e -> spectral (- M) P (- e).
Proof.
move=> [HP ->]. split=> //. by rewrite -mulNmx -mulmxN; congr (_ *m _ *m _); rewrite linearN.
Qed.

Lemma range_opp n (M : 'M[R]_n) lo hi : range_in M lo hi -> range_in (- M) (- hi) (- lo).
Proof.
move=> H y. have -> : ip y (- M *m y) = - ip y (M *m y) by rewrite mulNmx -scaleN1r ipZr mulN1r.
by rewrite !mulNr !ler_opp2 andbC; apply: H.
Qed.

Lemma lanczos_opp n k (N : 'M[R]_n) w (V : 'M[R]_(n, k.+1)) T r :
  lanczos_result N w V T r -> lanczos_result (- N) w V (- T) (- r).
Proof.
move=> [HV H0 [HT [a [b Eab]]] Hr HN]. split=> //.
- split; first by rewrite mulmxN mulNmx HT.
  exists (fun i => - a i), (fun i => - b i). rewrite Eab. apply/matrixP => i j. rewrite !mxE.
  by do 3!(case: ifP => // _); rewrite oppr0.
- by rewrite mulmxN Hr oppr0.
- by rewrite mulNmx HN mulmxN mulNmx opprD.
Qed.

Lemma mf_opp n (P : 'M[R]_n) e s : matrix_function (res s) P e = - matrix_function (res (- s)) P (- e).
Proof.
rewrite /matrix_function -mulNmx -mulmxN. congr (_ *m _ *m _).
apply/matrixP => i j. rewrite !mxE. by rewrite -opprD invrN mulNrn opprK.
Qed.

Lemma gap_opp n k (Q : 'M[R]_k.+1) d (P : 'M[R]_n) e w s :
  gap (res s) Q d P e w = - (gap (res (- s)) Q (- d) P (- e) w).
Proof.
rewrite (mf_opp Q) (mf_opp P) mxE opprB /rayleigh mulNmx.
by rewrite -[- (_ *m w)]scaleN1r ipZr !mulN1r mulNr opprK addrC.
Qed.

Section Any.
Variables (n k : nat) (N : 'M[R]_n.+1) (w : 'cV[R]_n.+1) (V : 'M[R]_(n.+1, k.+1)) (T : 'M[R]_k.+1) (r : 'cV[R]_n.+1).
Variables (Q : 'M[R]_k.+1) (d : 'rV[R]_k.+1) (P : 'M[R]_n.+1) (e : 'rV[R]_n.+1) (lo hi s delta : R).
Hypothesis w_nz : w != 0.
Hypothesis Hsym : N^T = N.
Hypothesis delta_gt0 : 0 < delta.
Hypothesis Hdelta : delta = lo + s \/ delta = - (hi + s).
Hypothesis Hr : range_in N lo hi.
Hypothesis Hlz : lanczos_result N w V T r.
Hypothesis HT : spectral T Q d.
Hypothesis HN : spectral N P e.

Lemma nrmN (x : 'cV[R]_n.+1) : nrm (- x) = nrm x.
Proof. by rewrite -scaleN1r nrmZ normrN1 mul1r. Qed.

Lemma resolvent_stop : `|gap (res s) Q d P e w| <= nrm r / delta ^+ 2.
Proof.
case: Hdelta => E.
- rewrite E. apply: left_perturbed w_nz Hsym _ Hr Hlz HT HN. by rewrite -E.
- rewrite gap_opp normrN -nrmN E opprD.
  apply: left_perturbed w_nz _ _ (range_opp Hr) (lanczos_opp Hlz) (spectral_opp HT) (spectral_opp HN).
  + by rewrite linearN /= Hsym.
  + by rewrite -opprD -E.
Qed.

Lemma resolvent_steps m :
  (forall q : {poly R}, (size q <= 2 * m)%N ->
     matrix_function (horner q) Q d 0 0 = rayleigh (horner_mx N q) w) ->
  `|gap (res s) Q d P e w| <= 2%:R / delta * ((hi - lo) / (hi - lo + 2%:R * delta)) ^+ (2 * m).
Proof.
move=> Hex. case: Hdelta => E.
- rewrite E. apply: left_degree w_nz _ Hr Hlz HT HN Hex. by rewrite -E.
- rewrite gap_opp normrN E opprD -[hi - lo](_ : - lo - - hi = _); last by rewrite opprK addrC.
  apply: left_degree w_nz _ (range_opp Hr) (lanczos_opp Hlz) (spectral_opp HT) (spectral_opp HN) _.
  + by rewrite -opprD -E.
  + move=> q Hq. pose q' := q \Po (- 'X).
    have Hq' : (size q' <= 2 * m)%N by rewrite /q' size_comp_poly2 // size_opp size_polyX.
    have E1 (M : nat) (A B : 'M[R]_M.+1) x : spectral A B x -> matrix_function (horner q) B (- x) = matrix_function (horner q') B x.
    { move=> _. rewrite /matrix_function. congr (_ *m diag_mx _ *m _). apply/rowP => i.
      by rewrite !mxE horner_comp hornerN hornerX. }
    rewrite (E1 _ _ _ _ HT) (Hex q' Hq').
    rewrite -(matrix_function_poly (g := horner q') (p := q') HN) // -(E1 _ _ _ _ HN).
    by rewrite (matrix_function_poly (g := horner q) (p := q) (spectral_opp HN)).
Qed.
End Any.
End Resolvent.
