(** The Schatten norms and anti-norms of positive-definite matrices: the sum of
    two matrices against the sum of the two norms.  Nothing here models code. *)
Require Import Reals Lra.
From mathcomp Require Import all_ssreflect all_algebra.
From Verif Require Import MatSpec CholMath RealField LanczosSpec Spectral EigenMath.
From Verif Require Import SchattenSpec PropSchatten.
Set Implicit Arguments.
Unset Strict Implicit.
Unset Printing Implicit Defensive.
Import Order.TTheory GRing.Theory Num.Theory.
Local Open Scope ring_scope.

(** ** The powers and the logarithm lie on one side of their tangents *)
Section Tangents.
Local Open Scope R_scope.

Lemma exp_tangent (x : R) : 1 + x <= exp x.
Proof.
case: (Req_dec x 0) => [->|H]; first by rewrite exp_0; lra.
by left; apply: exp_ineq1.
Qed.

Lemma Rpower_concave (u p : R) : 0 < u -> 0 <= p <= 1 -> Rpower u p <= 1 + p * (u - 1).
Proof.
move=> Hu Hp. rewrite /Rpower. set x := ln u. rewrite -{1}(exp_ln u) // -/x.
have H1 := exp_tangent (x - p * x). have H2 := exp_tangent (- (p * x)).
have P := exp_pos (p * x).
have E1 : exp x = exp (p * x) * exp (x - p * x) by rewrite -exp_plus; congr exp; lra.
have E2 : 1 = exp (p * x) * exp (- (p * x)) by rewrite -exp_plus Rplus_opp_r exp_0.
have K1 : exp (p * x) * (1 + (x - p * x)) <= exp x by rewrite E1; apply: Rmult_le_compat_l; lra.
have K2 : exp (p * x) * (1 + - (p * x)) <= 1 by rewrite {2}E2; apply: Rmult_le_compat_l; lra.
have : p * (exp (p * x) * (1 + (x - p * x))) <= p * exp x by apply: Rmult_le_compat_l; lra.
have : (1 - p) * (exp (p * x) * (1 + - (p * x))) <= (1 - p) * 1 by apply: Rmult_le_compat_l; lra.
move=> A B. have := Rplus_le_compat _ _ _ _ A B. set e := exp (p * x).
have -> : (1 - p) * (e * (1 + - (p * x))) + p * (e * (1 + (x - p * x))) = e by ring.
lra.
Qed.

Lemma Rpower_convex (u p : R) : 0 < u -> p < 0 \/ 1 <= p -> 1 + p * (u - 1) <= Rpower u p.
Proof.
move=> Hu [Hp|Hp].
  rewrite /Rpower. set x := ln u. rewrite -{1}(exp_ln u) // -/x.
  have H1 := exp_tangent (p * x). have H2 := exp_tangent x.
  have : (- p) * (1 + x) <= (- p) * exp x by apply: Rmult_le_compat_l; lra.
  lra.
have Hw : 0 < Rpower u p by apply: exp_pos.
have Hq : 0 <= / p <= 1.
  split; first by left; apply: Rinv_0_lt_compat; lra.
  by rewrite -Rinv_1; apply: Rinv_le_contravar; lra.
have := Rpower_concave Hw Hq. rewrite Rpower_mult Rinv_r ?Rpower_1 //; last by lra.
move=> H. have : p * u <= p * (1 + / p * (Rpower u p - 1)) by apply: Rmult_le_compat_l; lra.
have -> : p * (1 + / p * (Rpower u p - 1)) = p + (Rpower u p - 1) by field; lra.
lra.
Qed.

Lemma ln_tangent (u : R) : 0 < u -> ln u <= u - 1.
Proof. move=> Hu. have := exp_tangent (ln u). rewrite exp_ln //; lra. Qed.
End Tangents.

(** The function whose mean is taken: a power, or the logarithm for p = 0; and
    its derivative *)
Definition phi (p x : R) : R := if p == 0 then ln x else Rpower x p.
Definition slope (p y : R) : R := if p == 0 then y^-1 else p * Rpower y p / y.

Lemma phi_scale p c x : 0 < c -> 0 < x ->
  phi p (c * x)%R = if p == 0 then ln c + ln x else Rpower c p * Rpower x p.
Proof.
move=> Hc Hx. rewrite /phi; case: eqP => _; last exact: Rpower_mul.
by apply: ln_mult; apply/RltP.
Qed.

Lemma tangent_above (p x y : R) : 0 < x -> 0 < y -> 0 <= p < 1 ->
  phi p x <= phi p y + slope p y * (x - y).
Proof.
move=> Hx Hy /andP [p0 p1]. have Hu : 0 < x / y by rewrite divr_gt0.
have -> : x = y * (x / y) by rewrite mulrC divfK ?gt_eqF.
have EY : y * (x / y) - y = y * (x / y - 1) by rewrite mulrBr mulr1.
rewrite EY phi_scale // /phi /slope. case: eqP => [_|/eqP Np].
  rewrite ler_add2l mulrA mulVf ?gt_eqF // mul1r.
  by apply/RleP; apply: ln_tangent; apply/RltP.
have H : Rpower (x / y)%R p <= 1 + p * (x / y - 1).
  apply/RleP. have /RltP Hu' := Hu. have /RleP p0' := p0. have /RleP p1' := ltW p1.
  exact: (Rpower_concave Hu' (conj p0' p1')).
have K := ler_wpmul2l (ltW (Rpower_gt0 y p)) H.
apply: (le_trans K). rewrite (mulrDr (Rpower y p)) mulr1 ler_add2l.
by rewrite (mulrA _ y) mulfVK ?gt_eqF // mulrA (mulrC p).
Qed.

Lemma tangent_below (p x y : R) : 0 < x -> 0 < y -> (p < 0) || (1 <= p) ->
  phi p y + slope p y * (x - y) <= phi p x.
Proof.
move=> Hx Hy Hp. have Hu : 0 < x / y by rewrite divr_gt0.
have Np : (p == 0) = false by apply/eqP => E0; move: Hp; rewrite E0 ltxx lt_geF // ltr01.
have -> : x = y * (x / y) by rewrite mulrC divfK ?gt_eqF.
have EY : y * (x / y) - y = y * (x / y - 1) by rewrite mulrBr mulr1.
rewrite EY phi_scale // /phi /slope Np.
have H : 1 + p * (x / y - 1) <= Rpower (x / y)%R p.
  apply/RleP. have /RltP Hu' := Hu.
  have Hp' : Rlt p (IZR 0) \/ Rle (IZR 1) p by case/orP: Hp => Hp; [left; apply/RltP|right; apply/RleP].
  exact: (Rpower_convex Hu' Hp').
have K := ler_wpmul2l (ltW (Rpower_gt0 y p)) H.
apply: le_trans K. rewrite (mulrDr (Rpower y p)) mulr1 ler_add2l.
by rewrite (mulrA _ y) mulfVK ?gt_eqF // mulrA (mulrC p).
Qed.

(** ** Weighted means and doubly stochastic weights *)
Section Jensen.
Variables (f g : R -> R).
Hypothesis tangent : forall x y, 0 < x -> 0 < y -> f y + g y * (x - y) <= f x.

Lemma jensen_row n (v : 'I_n -> R) (x : 'I_n -> R) m : (forall j, 0 <= v j) -> \sum_j v j = 1 ->
  (forall j, 0 < x j) -> 0 < m ->
  f m + g m * (\sum_j v j * x j - m) <= \sum_j v j * f (x j).
Proof.
move=> v0 v1 Hx Hm.
have -> : f m + g m * (\sum_j v j * x j - m) = \sum_j v j * (f m + g m * (x j - m)).
  under [RHS]eq_bigr do rewrite mulrDr mulrCA mulrBr. rewrite big_split /= -mulr_suml v1 mul1r -mulr_sumr.
  by rewrite sumrB -mulr_suml v1 mul1r.
by apply: ler_sum => j _; apply: ler_wpmul2l; rewrite ?tangent.
Qed.

Lemma jensen_two n (V W : 'M[R]_n) (x y m : 'I_n -> R) th et :
  (forall i j, 0 <= V i j) -> (forall i, \sum_j V i j = 1) -> (forall j, \sum_i V i j = 1) ->
  (forall i j, 0 <= W i j) -> (forall i, \sum_j W i j = 1) -> (forall j, \sum_i W i j = 1) ->
  (forall i, 0 < x i) -> (forall i, 0 < y i) -> (forall i, 0 < m i) ->
  0 <= th -> 0 <= et -> th + et = 1 ->
  (forall i, m i = th * (\sum_j V i j * x j) + et * (\sum_j W i j * y j)) ->
  \sum_i f (m i) <= th * (\sum_j f (x j)) + et * (\sum_j f (y j)).
Proof.
move=> V0 Vr Vc W0 Wr Wc Hx Hy Hm t0 e0 te Em.
have X (U : 'M[R]_n) (z : 'I_n -> R) : (forall j, \sum_i U i j = 1) ->
    \sum_j f (z j) = \sum_i \sum_j U i j * f (z j).
  by move=> Uc; rewrite exchange_big /=; apply: eq_bigr => j _; rewrite -mulr_suml Uc mul1r.
rewrite (X V x Vc) (X W y Wc) !mulr_sumr -big_split /=. apply: ler_sum => i _.
have Hv := ler_wpmul2l t0 (jensen_row (V0 i) (Vr i) Hx (Hm i)).
have Hw := ler_wpmul2l e0 (jensen_row (W0 i) (Wr i) Hy (Hm i)).
apply: le_trans (ler_add Hv Hw). move: (Em i).
set a := \sum_j V i j * x j. set b := \sum_j W i j * y j. move=> E.
have -> : th * (f (m i) + g (m i) * (a - m i)) + et * (f (m i) + g (m i) * (b - m i)) =
  (th + et) * f (m i) + g (m i) * (th * a + et * b - (th + et) * m i).
  move: (f (m i)) (g (m i)) (m i) => F G z. Rring.
by rewrite te !mul1r -E subrr mulr0 addr0.
Qed.
End Jensen.

(** ** Power means *)
Definition values n (d : 'I_n -> R) : seq R := [seq d i | i <- enum 'I_n].

Lemma size_values n (d : 'I_n -> R) : size (values d) = n.
Proof. by rewrite size_map size_enum_ord. Qed.

Lemma sum_values n (d : 'I_n -> R) (f : R -> R) : \sum_(x <- values d) f x = \sum_i f (d i).
Proof. by rewrite big_map big_enum. Qed.

Lemma values_pos n (d : 'I_n -> R) : (forall i, 0 < d i) -> forall x, x \in values d -> 0 < x.
Proof. by move=> H x /mapP [i _ ->]. Qed.

Lemma power_mean_gt0 s p : 0 < power_mean s p.
Proof. by rewrite /power_mean; case: ifP => _; apply: Rpower_gt0. Qed.

Lemma Rpower1 (p : R) : Rpower 1 p = 1.
Proof. by rewrite /Rpower ln_1 Rmult_0_r exp_0. Qed.

Lemma phi1 p : phi p 1 = if p == 0 then 0 else 1.
Proof. by rewrite /phi; case: eqP => _; [rewrite ln_1|rewrite Rpower1]. Qed.

(** The mean of the values of phi decides how the power mean compares with 1 *)
Lemma mean_one n (d : 'I_n -> R) p : (0 < n)%N -> (forall i, 0 < d i) ->
  power_mean (values d) p = 1 -> \sum_i phi p (d i) = phi p 1 * n%:R.
Proof.
move=> Hn Hd. have Hn0 : n%:R != 0 :> R by rewrite pnatr_eq0 -lt0n.
rewrite phi1 /power_mean /phi size_values. case: eqP => [_|/eqP Np] H.
  rewrite mul0r -sum_values -ln_prod; last exact: values_pos.
  have P := prod_pos (values_pos Hd).
  have : Rpower (Rpower (\prod_(x <- values d) x)%R (1 / n%:R)%R) n%:R = Rpower 1 n%:R by rewrite H.
  rewrite Rpower_mult -RmultE mulfVK // Rpower_1; last exact/RltP.
  by rewrite Rpower1 => ->; rewrite ln_1.
rewrite mul1r. rewrite sum_values in H.
have P : 0 < (\sum_i Rpower (d i) p) / n%:R by have := mean_gt0 p (s := values d); rewrite size_values sum_values; apply.
have : Rpower (Rpower ((\sum_i Rpower (d i) p) / n%:R)%R (1 / p)%R) p = Rpower 1 p by rewrite H.
rewrite Rpower_mult -RmultE mulfVK // Rpower_1; last exact/RltP.
by rewrite Rpower1 => /(congr1 (fun x => x * n%:R)); rewrite mulfVK // mul1r.
Qed.

Lemma mean_low n (d : 'I_n -> R) p : (0 < n)%N -> (forall i, 0 < d i) ->
  (if (p < 0) || (1 <= p) then \sum_i phi p (d i) <= phi p 1 * n%:R
   else phi p 1 * n%:R <= \sum_i phi p (d i)) ->
  if 1 <= p then power_mean (values d) p <= 1 else 1 <= power_mean (values d) p.
Proof.
move=> Hn Hd. have Hn0 : 0 < n%:R :> R by rewrite ltr0n.
rewrite phi1 /power_mean /phi size_values sum_values. case: eqP => [->|/eqP Np].
  rewrite ltxx lt_geF ?ltr01 //= mul0r -sum_values -ln_prod; last exact: values_pos.
  have P := prod_pos (values_pos Hd). move=> H. rewrite -[X in X <= _](Rpower1 (1 / n%:R)%R).
  apply: Rpower_le; rewrite ?divr_gt0 ?ltr01 //. move: H P; set z := \prod_(x <- _) x => /RleP H /RltP P.
  apply/RleP. rewrite -(exp_ln z) // -exp_0. case: (Req_dec (ln z) 0) => [-> |Hne]; first by right.
  by left; apply: exp_increasing; move: H Hne; toR; lra.
have P : 0 < (\sum_i Rpower (d i) p) / n%:R by have := mean_gt0 p (s := values d); rewrite size_values sum_values; apply.
rewrite mul1r. case: (leP 1 p) => [H1|H1]; rewrite ?orbT ?orbF.
  move=> H. rewrite -[X in _ <= X](Rpower1 (1 / p)%R).
  by apply: Rpower_le => //; rewrite ?ler_pdivr_mulr ?mul1r // ?invr_gt0 (lt_le_trans ltr01).
case: ltP => H0 H; rewrite -[X in X <= _](Rpower1 (1 / p)%R).
  apply: Rpower_le_neg => //; first by rewrite ler_pdivr_mulr ?mul1r.
  by rewrite mul1r invr_lt0.
apply: Rpower_le; rewrite ?ltr01 //; first by rewrite ler_pdivl_mulr ?mul1r.
by rewrite mul1r invr_gt0 lt_def Np.
Qed.

(** The sum of two lists of means *)
Lemma means_sum n p (V W : 'M[R]_n) (a b c : 'I_n -> R) : (0 < n)%N ->
  (forall i j, 0 <= V i j) -> (forall i, \sum_j V i j = 1) -> (forall j, \sum_i V i j = 1) ->
  (forall i j, 0 <= W i j) -> (forall i, \sum_j W i j = 1) -> (forall j, \sum_i W i j = 1) ->
  (forall i, 0 < a i) -> (forall i, 0 < b i) -> (forall i, 0 < c i) ->
  (forall i, c i = \sum_j V i j * a j + \sum_j W i j * b j) ->
  let m d := power_mean (values d) p in
  if 1 <= p then m c <= m a + m b else m a + m b <= m c.
Proof.
move=> Hn V0 Vr Vc W0 Wr Wc Ha Hb Hc Ec. lazy zeta.
pose m d := power_mean (@values n d) p. rewrite -/(m a) -/(m b) -/(m c).
have Ma : 0 < m a by apply: power_mean_gt0. have Mb : 0 < m b by apply: power_mean_gt0.
have Mab : 0 < m a + m b by apply: addr_gt0.
have scaled (d : 'I_n -> R) (k : R) : (forall i, 0 < d i) -> 0 < k -> m (fun i => k * d i) = k * m d.
  move=> Hd Hk. have -> : m (fun i => k * d i) = power_mean [seq k * x | x <- values d] p.
    by rewrite /m /values -[in RHS]map_comp.
  by rewrite power_mean_scale ?size_values //; apply: values_pos.
have one (d : 'I_n -> R) : (forall i, 0 < d i) -> m (fun i => (m d)^-1 * d i) = 1.
  have Md : 0 < m d by apply: power_mean_gt0.
  by move=> Hd; rewrite scaled ?invr_gt0 // mulVf ?gt_eqF.
have pos (d : 'I_n -> R) (k : R) : (forall i, 0 < d i) -> 0 < k -> forall i : 'I_n, 0 < k^-1 * d i.
  by move=> Hd Hk i; rewrite mulr_gt0 ?invr_gt0.
set c' := fun i => (m a + m b)^-1 * c i.
have Hc' i : 0 < c' i by apply: pos.
have Ea := mean_one Hn (pos _ _ Ha Ma) (one _ Ha). have Eb := mean_one Hn (pos _ _ Hb Mb) (one _ Hb).
set th := m a / (m a + m b). set et := m b / (m a + m b).
have t0 : 0 <= th by rewrite divr_ge0 // ltW. have e0 : 0 <= et by rewrite divr_ge0 // ltW.
have te : th + et = 1 by rewrite -mulrDl divff ?gt_eqF.
have Em i : c' i = th * (\sum_j V i j * ((m a)^-1 * a j)) + et * (\sum_j W i j * ((m b)^-1 * b j)).
  rewrite /c' Ec mulrDr. congr (_ + _).
    under [in RHS]eq_bigr do rewrite mulrCA. rewrite -mulr_sumr mulrA; congr (_ * _).
    by rewrite /th mulrAC divff ?gt_eqF // mul1r.
  under [in RHS]eq_bigr do rewrite mulrCA. rewrite -mulr_sumr mulrA; congr (_ * _).
  by rewrite /et mulrAC divff ?gt_eqF // mul1r.
have key : if (p < 0) || (1 <= p) then \sum_i phi p (c' i) <= phi p 1 * n%:R
           else phi p 1 * n%:R <= \sum_i phi p (c' i).
  case: ifP => Hp.
    have := jensen_two (f := phi p) (g := slope p) (fun x y Hx Hy => tangent_below Hx Hy Hp)
      V0 Vr Vc W0 Wr Wc (pos _ _ Ha Ma) (pos _ _ Hb Mb) Hc' t0 e0 te Em.
    by rewrite Ea Eb -mulrDl te mul1r.
  have Hp' : 0 <= p < 1 by move: Hp => /negbT; rewrite negb_or -leNgt -ltNge.
  have T x y : 0 < x -> 0 < y -> - phi p y + - slope p y * (x - y) <= - phi p x.
    by move=> Hx Hy; rewrite mulNr -opprD ler_opp2; apply: tangent_above.
  have := jensen_two (f := fun x => - phi p x) (g := fun x => - slope p x) T
      V0 Vr Vc W0 Wr Wc (pos _ _ Ha Ma) (pos _ _ Hb Mb) Hc' t0 e0 te Em.
  by rewrite !sumrN Ea Eb !mulrN -opprD -mulrDl te mul1r ler_opp2.
have := mean_low Hn Hc' key. rewrite -/(m c') scaled ?invr_gt0 //.
by case: ifP => _; rewrite mulrC ?ler_pdivr_mulr ?ler_pdivl_mulr ?mul1r.
Qed.

(** ** Matrices *)
Section Matrices.
Variable n : nat.

Lemma spectral_spectrum (A P : 'M[R]_n) d : spectral A P d -> spectrum A (values (d 0)).
Proof.
case=> HP HA. have HP' : P^T \in unitmx by case: (mulmx1_unit HP).
have E : P^T *m A = diag_mx d *m P^T by rewrite HA !mulmxA HP mul1mx.
rewrite /spectrum (char_poly_similar HP' E) char_poly_trig ?diag_mx_is_trig // big_map big_enum /=.
by apply: eq_bigr => i _; rewrite mxE eqxx.
Qed.

(** The squares of the entries of an orthogonal matrix *)
Definition squares (Q : 'M[R]_n) : 'M[R]_n := \matrix_(i, j) Q i j ^+ 2.

Lemma squares_rows (Q : 'M[R]_n) : Q *m Q^T = 1%:M -> forall i, \sum_j squares Q i j = 1.
Proof.
move=> H i. have := congr1 (fun M : 'M_n => M i i) H. rewrite !mxE eqxx => E.
by rewrite -[RHS]E; apply: eq_bigr => j _; rewrite !mxE.
Qed.

Lemma squares_columns (Q : 'M[R]_n) : Q^T *m Q = 1%:M -> forall j, \sum_i squares Q i j = 1.
Proof.
move=> H i. have := congr1 (fun M : 'M_n => M i i) H. rewrite !mxE eqxx => E.
by rewrite -[RHS]E; apply: eq_bigr => j _; rewrite !mxE.
Qed.

Lemma diagonal_means (A P Q : 'M[R]_n) d i : spectral A Q d ->
  (P^T *m A *m P) i i = \sum_j squares (P^T *m Q) i j * d 0 j.
Proof.
case=> _ ->. have -> : P^T *m (Q *m diag_mx d *m Q^T) *m P = (P^T *m Q) *m diag_mx d *m (P^T *m Q)^T.
  by rewrite trmx_mul trmxK !mulmxA.
rewrite mxE; apply: eq_bigr => j _. rewrite mul_mx_diag !mxE mulrAC. by rewrite -expr2.
Qed.

(** The norm of a sum *)
Lemma schatten_sum (A B : 'M[R]_n) p sA sB sC : (0 < n)%N -> posdef A -> posdef B ->
  spectrum A sA -> spectrum B sB -> spectrum (A + B) sC ->
  if 1 <= p then power_mean sC p <= power_mean sA p + power_mean sB p
  else power_mean sA p + power_mean sB p <= power_mean sC p.
Proof.
move=> Hn HA HB SA SB SC.
have HC : posdef (A + B).
  split; first by rewrite linearD /= (proj1 HA) (proj1 HB).
  by move=> x Hx; rewrite /qform mulmxDr mulmxDl mxE addr_gt0 ?(proj2 HA) ?(proj2 HB).
have perm (s s' : seq R) : perm_eq s s' -> power_mean s p = power_mean s' p.
  by move=> H; rewrite /power_mean (perm_big _ H) (perm_size H) (perm_big _ H).
have [PA [dA XA]] := spectral_theorem (proj1 HA).
have [PB [dB XB]] := spectral_theorem (proj1 HB).
have [PC [dC XC]] := spectral_theorem (proj1 HC).
have pos (M P : 'M[R]_n) d : posdef M -> spectral M P d -> forall i, 0 < d 0 i.
  move=> HM HX i. apply: (spectrum_posdef HM (spectral_spectrum HX)). by apply/mapP; exists i; rewrite ?mem_enum.
rewrite (perm _ _ (spectrum_perm SA (spectral_spectrum XA))) (perm _ _ (spectrum_perm SB (spectral_spectrum XB))).
rewrite (perm _ _ (spectrum_perm SC (spectral_spectrum XC))).
have orth (Q : 'M[R]_n) : orthonormal Q -> orthonormal (PC^T *m Q) /\ orthonormal (PC^T *m Q)^T.
  move=> HQ. have HQ' := mulmx1C HQ. have HC' : PC *m PC^T = 1%:M by apply: mulmx1C; case: XC.
  have HC0 : PC^T *m PC = 1%:M by case: XC.
  split; rewrite /orthonormal; first by rewrite trmx_mul trmxK mulmxA -(mulmxA Q^T) HC' mulmx1.
  by rewrite trmxK trmx_mul trmxK mulmxA -(mulmxA PC^T) HQ' mulmx1.
have [[oA oA'] [oB oB']] := (orth _ (proj1 XA), orth _ (proj1 XB)).
rewrite /orthonormal !trmxK in oA' oB'.
have sq Q i j : 0 <= squares Q i j by rewrite mxE sqr_ge0.
apply: (@means_sum n p (squares (PC^T *m PA)) (squares (PC^T *m PB)) (dA 0) (dB 0) (dC 0)) => //.
- exact: squares_rows.
- exact: squares_columns.
- exact: squares_rows.
- exact: squares_columns.
- exact: pos XA.
- exact: pos XB.
- exact: pos XC.
move=> i. rewrite -(diagonal_means PC i XA) -(diagonal_means PC i XB).
have -> : (PC^T *m A *m PC) i i + (PC^T *m B *m PC) i i = (PC^T *m (A + B) *m PC) i i.
  by rewrite mulmxDr mulmxDl [in RHS]mxE.
have [HP ->] := XC. by rewrite !mulmxA HP mul1mx -mulmxA HP mulmx1 mxE eqxx.
Qed.
End Matrices.
