(** The error of samples of the log-determinant. *)
Require Import Reals Lra.
From mathcomp Require Import all_ssreflect all_algebra.
From mathcomp Require Import zify.
From Verif Require Import RealField LogMath.
From Verif Require Import Mem KernelModel KernelSpec LanczosModel LanczosSpec LanczosMath.
From Verif Require Import LanczosProofs GolubKahnProofs Spectral SlqModel SlqSpec SlqProofs ExactProofs PropSlq.
From Verif Require Import SlqRunValues AccuracySpec AccuracyProofs LogSpec.
Set Implicit Arguments.
Unset Strict Implicit.
Unset Printing Implicit Defensive.
Import GRing.Theory Num.Theory Order.TTheory.
Local Open Scope ring_scope.
Delimit Scope R_scope with Re.

(** A sum over an index as a list of weights and arguments *)
Definition pairs k (a d : 'I_k -> R) : list (R * R) := [seq (a i, d i) | i <- index_enum (ordinal_finType k)].

Lemma wsum_pairs k (a d : 'I_k -> R) (h : R -> R) : wsum (pairs a d) h = \sum_i a i * h (d i).
Proof.
rewrite /pairs unlock /reducebig. elim: (index_enum _) => //= i s IH. by rewrite IH.
Qed.

Lemma pairs_weights k (a d : 'I_k -> R) (lo hi : R) : (forall i, 0 <= a i) -> (forall i, lo <= d i <= hi) ->
  \sum_i a i = 1 -> weights (pairs a d) lo hi.
Proof.
move=> Ha Hd H1. split.
- rewrite wsum_pairs. change (\sum_i a i * 1 = 1). rewrite -[RHS]H1. by apply: eq_bigr => i _; rewrite mulr1.
- rewrite /pairs. elim: (index_enum _) => [|i s IH]; constructor=> //=.
  have /andP [/RleP H2 /RleP H3] := Hd i. split; first exact/RleP. by split.
Qed.

Lemma inv_shift (d s lo hi : R) : 0 < lo -> 0 <= s -> lo <= d <= hi -> (d + s)^-1 = (/ (d + s))%Re.
Proof.
move=> Hlo Hs /andP [Hd _]. apply: RinvE. apply: lt0r_neq0. apply: ltr_paddr => //. exact: lt_le_trans Hd.
Qed.

Section Log.
Variables (n' k m : nat) (N P : 'M[R]_n'.+1) (w : 'cV[R]_n'.+1) (V : 'M[R]_(n'.+1, k.+1)) (T Q : 'M[R]_k.+1) (r : 'cV[R]_n'.+1).
Variables (d : 'rV[R]_k.+1) (e : 'rV[R]_n'.+1) (lo hi : R).
Hypothesis w_nz : w != 0.
Hypothesis N_sym : N^T = N.
Hypothesis lo_gt0 : 0 < lo.
Hypothesis N_range : range_in N lo hi.
Hypothesis HL : lanczos_result N w V T r.
Hypothesis HT : spectral T Q d.
Hypothesis HP : spectral N P e.

Let D i := d 0 i.
Let E i := e 0 i.
Let a i : R := (Q 0 i ^+ 2)%R.
Let b i : R := ((P^T *m w) i 0 ^+ 2 / ip w w)%R.

Lemma d_in i : lo <= D i <= hi.
Proof. case: HL => HV _ [HTV _] _ _. exact: ritz_bounds HV HTV HT N_range i. Qed.

Lemma e_in i : lo <= E i <= hi. Proof. exact: spectral_range HP N_range i. Qed.

Lemma lo_hi : lo <= hi. Proof. have /andP [H1 H2] := e_in 0. exact: le_trans H1 H2. Qed.

Lemma weights_d : weights (pairs a D) lo hi.
Proof. apply: pairs_weights; [by move=> i; rewrite sqr_ge0|exact: d_in|exact: weights_one HT.1]. Qed.

Lemma weights_e : weights (pairs b E) lo hi.
Proof.
apply: pairs_weights; [|exact: e_in|exact: weights_one' w_nz HP.1].
move=> i. by rewrite mulr_ge0 ?sqr_ge0 // invr_ge0 ip_ge0.
Qed.

Lemma resolvents (s : R) : 0 <= s ->
  wsum (pairs a D) (fun x => / (x + s))%Re = matrix_function (fun y => (y + s)^-1) Q d 0 0 /\
  wsum (pairs b E) (fun x => / (x + s))%Re = rayleigh (matrix_function (fun y => (y + s)^-1) P e) w.
Proof.
move=> Hs. rewrite !wsum_pairs mf_weights rayleigh_weights. split; apply: eq_bigr => i _; congr (_ * _); apply: esym.
- exact: (inv_shift lo_gt0 Hs (d_in i)).
- exact: (inv_shift lo_gt0 Hs (e_in i)).
Qed.

Lemma log_error (G G' : R -> R) :
  (forall s : R, 0 <= s -> derivable_pt_lim G s (G' s)) -> (forall s : R, 0 <= s -> 0 <= G s) ->
  (forall s : R, 0 <= s ->
     `|matrix_function (fun y => (y + s)^-1) Q d 0 0 - rayleigh (matrix_function (fun y => (y + s)^-1) P e) w| <= - G' s) ->
  `|matrix_function ln Q d 0 0 - rayleigh (matrix_function ln P e) w| <= G 0.
Proof.
move=> HG HG0 Hb. rewrite mf_weights rayleigh_weights -(wsum_pairs a D) -(wsum_pairs b E).
apply/RleP. apply: (@log_from_resolvent (pairs a D) (pairs b E) lo hi G G' _ _ weights_d weights_e).
- exact/RltP. 
- exact/RleP/lo_hi.
- move=> s /RleP Hs. exact: HG.
- move=> s /RleP Hs. exact/RleP/HG0.
- move=> s /RleP Hs. have [-> ->] := resolvents Hs. exact/RleP/Hb.
Qed.

Lemma log_perturbed :
  `|matrix_function ln Q d 0 0 - rayleigh (matrix_function ln P e) w| <= nrm r / lo.
Proof.
pose c := nrm r. have Hc : 0 <= c := nrm_ge0 r.
have Hpos (s : R) : 0 <= s -> 0 < lo + s by move=> Hs; exact: ltr_paddr.
have -> : nrm r / lo = (c / (lo + 0))%Re.
{ rewrite RdivE ?gt_eqF //. congr (_ / _)%Re. by rewrite Rplus_0_r. }
apply: (log_error (G := fun s => (c / (lo + s))%Re) (G' := fun s => (- (c / (lo + s) ^ 2))%Re)).
- move=> s /RleP Hs. apply: first_rate => //. exact/RltP.
- move=> s Hs. rewrite -(RdivE c (lt0r_neq0 (Hpos s Hs))). apply: divr_ge0 => //. exact: ltW (Hpos s Hs).
- move=> s Hs. apply: le_trans (resolvent_perturbed w_nz N_sym lo_gt0 Hs N_range HL HT HP) _.
  change (nrm r / (lo + s) ^+ 2 <= - - (c / (lo + s) ^ 2)%Re). rewrite opprK -(RexpE (lo + s)) -RdivE //.
  by rewrite expf_neq0 // gt_eqF // Hpos.
Qed.

Lemma log_degree : (0 < m)%N ->
  (forall q : {poly R}, (size q <= 2 * m)%N -> matrix_function (horner q) Q d 0 0 = rayleigh (horner_mx N q) w) ->
  `|matrix_function ln Q d 0 0 - rayleigh (matrix_function ln P e) w| <=
  (hi + lo) / (lo * (2 * m - 1)%:R) * ((hi - lo) / (hi + lo)) ^+ (2 * m).
Proof.
move=> Hm Hex. have [j Ej] : exists j, (2 * m = j.+2)%N by exists (2 * m - 2)%N; lia.
have Hlh := lo_hi. have Hhi : 0 < hi by exact: lt_le_trans Hlh.
set S := hi + lo. have HS : 0 < S by exact: addr_gt0.
set Dl := hi - lo. have HD : 0 <= Dl by rewrite subr_ge0.
have Hj : 0 < (j.+1)%:R :> R by rewrite ltr0n.
pose K : R := (Dl ^+ j.+2 / (lo * j.+1%:R))%R.
have HK : 0 <= K by rewrite /K divr_ge0 ?exprn_ge0 // mulr_ge0 // ltW.
have E2 (s : R) : S + s *+ 2 = (S + 2 * s)%Re by rewrite -mulr_natl RnatE.
have Hpos (s : R) : 0 <= s -> 0 < S + s *+ 2 by move=> Hs; apply: ltr_paddr => //; rewrite mulrn_wge0.
have -> : S / (lo * (2 * m - 1)%:R) * (Dl / S) ^+ (2 * m) = (K / (S + 2 * 0) ^ j.+1)%Re.
{ have -> : (S + 2 * 0)%Re = S by rewrite -E2 mul0rn addr0.
  rewrite -(RexpE S) -RdivE ?expf_neq0 ?gt_eqF // Ej (_ : (j.+2 - 1)%N = j.+1) // /K.
  rewrite expr_div_n [S ^+ j.+2]exprS. move: (lo * _) (Dl ^+ _) (S ^+ j.+1) => L Y Z.
  rewrite invfM [Y * (_ * _)]mulrCA [S / L]mulrC -[LHS]mulrA mulVKf ?gt_eqF //. by rewrite mulrA [L^-1 * Y]mulrC. }
apply: (log_error (G := fun s => (K / (S + 2 * s) ^ j.+1)%Re)
  (G' := fun s => (- (2 * INR j.+1 * K / (S + 2 * s) ^ j.+2))%Re)).
- move=> s /RleP Hs. apply: second_rate => //. exact/RltP.
- move=> s Hs. rewrite -E2 -(RexpE (S + s *+ 2)) -RdivE ?expf_neq0 ?gt_eqF ?Hpos //.
  by rewrite divr_ge0 // exprn_ge0 // ltW // Hpos.
- move=> s Hs. apply: le_trans (resolvent_degree w_nz lo_gt0 Hs N_range HL HT HP Hex) _.
  rewrite -/S -/Dl Ej. have HP2 := Hpos s Hs.
  have -> : - (- (2 * INR j.+1 * K / (S + 2 * s) ^ j.+2))%Re = 2%:R / lo * (Dl / (S + s *+ 2)) ^+ j.+2.
  { rewrite -RoppE opprK -E2 -(RexpE (S + s *+ 2)) -RdivE ?expf_neq0 ?gt_eqF // -RnatE expr_div_n /K.
    change (2%:R * j.+1%:R * (Dl ^+ j.+2 / (lo * j.+1%:R)) / (S + s *+ 2) ^+ j.+2 =
            2%:R / lo * (Dl ^+ j.+2 / (S + s *+ 2) ^+ j.+2)).
    have HJ : j.+1%:R != 0 :> R by rewrite pnatr_eq0. set J := j.+1%:R in HJ *. set Y := Dl ^+ _. set Z := _ ^+ j.+2.
    rewrite [lo * J]mulrC invfM [Y * (_ * _)]mulrCA -[2%:R * J * _]mulrA mulVKf //.
    by rewrite [Y / lo]mulrC !mulrA. }
  apply: ler_wpmul2r; first by rewrite exprn_ge0 // divr_ge0 // ltW.
  rewrite ler_pmul2l ?ltr0n // lef_pinv ?posrE //; last exact: ltr_paddr. by rewrite ler_addl.
Qed.
End Log.
