(** C65: the bounds of the interpolated functions, and kind='eig'. *)
Require Import Reals Lra.
From mathcomp Require Import all_ssreflect all_algebra zify.
From mathcomp.real_closed Require Import complex.
From Verif Require Import MatSpec CholMath RealField EigenMath EigenSpec EigenModel PropEigen.
From Verif Require Import SchattenSpec SchattenModel PropSchatten InterpModel PropMbf.
From Verif Require Import BoundMath BoundModel.
From Verif Require TraceModel CholModel.
Set Implicit Arguments.
Unset Strict Implicit.
Unset Printing Implicit Defensive.
Import Order.TTheory GRing.Theory Num.Theory.
Local Open Scope ring_scope.
Local Notation toC := (real_complex R).

(** The routine sch returns the norm of every positive-definite matrix: the
    power mean of its eigenvalues, with exponent v *)
Definition computes_norm n (sch : 'M[R]_n -> res R) (v : R) : Prop :=
  forall M s, posdef M -> spectrum M s -> sch M = Ok (power_mean s v).

(** ** Lemmas *)
Lemma posdef_add n (A B : 'M[R]_n) : posdef A -> posdef B -> posdef (A + B).
Proof.
move=> HA HB. split; first by rewrite linearD /= (proj1 HA) (proj1 HB).
by move=> x Hx; rewrite /qform mulmxDr mulmxDl mxE addr_gt0 ?(proj2 HA) ?(proj2 HB).
Qed.

Lemma posdef_scale n (A : 'M[R]_n) (c : R) : 0 < c -> posdef A -> posdef (c *: A).
Proof.
move=> Hc HA. split; first by rewrite linearZ /= (proj1 HA).
by move=> x Hx; rewrite /qform -scalemxAr -scalemxAl mxE mulr_gt0 // (proj2 HA).
Qed.

Lemma posdef_line n (A B : 'M[R]_n) (t : R) : 0 <= t -> posdef A -> posdef B -> posdef (A + t *: B).
Proof.
rewrite le_eqVlt => /orP [/eqP <-|Ht] HA HB; first by rewrite scale0r addr0.
by apply: posdef_add => //; apply: posdef_scale.
Qed.

Lemma power_mean_perm (s s' : seq R) p : perm_eq s s' -> power_mean s p = power_mean s' p.
Proof. by move=> H; rewrite /power_mean (perm_big _ H) (perm_size H) (perm_big _ H). Qed.

Lemma spectrum_one n : spectrum (1%:M : 'M[R]_n) (nseq n 1).
Proof.
have := spectrum_trig (scalar_mx_is_trig n (1 : R)).
have -> // : diagonal (1%:M : 'M[R]_n) = nseq n 1.
have /all_pred1P : all (pred1 1) (diagonal (1%:M : 'M[R]_n)).
  by rewrite /diagonal all_map; apply/allP => i _ /=; rewrite mxE eqxx.
by rewrite {2}/diagonal size_map size_enum_ord.
Qed.

Lemma matrix_B_posdef n (B : option 'M[R]_n) : (forall B', B = Some B' -> posdef B') -> posdef (matrix_B B).
Proof. by case: B => [B' /(_ _ erefl)|_] //; apply: one_posdef. Qed.

(** The norm of a matrix on the half line *)
Lemma norm_line n (A B C : 'M[R]_n) (t v : R) sA sB sC : (0 < n)%N -> posdef A -> posdef B -> 0 <= t ->
  C = A + t *: B -> spectrum A sA -> spectrum B sB -> spectrum C sC ->
  if 1 <= v then power_mean sC v <= power_mean sA v + t * power_mean sB v
  else power_mean sA v + t * power_mean sB v <= power_mean sC v.
Proof.
move=> Hn HA HB. rewrite le_eqVlt => /orP [/eqP <-|Ht] E SA SB.
  move: E. rewrite scale0r addr0 => -> SC. rewrite mul0r addr0.
  by rewrite (power_mean_perm _ (spectrum_perm SA SC)) lexx if_same.
rewrite E => SC. have := schatten_sum v Hn HA (posdef_scale Ht HB) SA (spectrum_scale t SB) SC.
by rewrite power_mean_scale // ?(spectrum_size SB) //; apply: spectrum_posdef HB SB.
Qed.

Lemma norm_BE n (sch : 'M[R]_n -> res R) (B : option 'M[R]_n) v sB : computes_norm sch v -> (0 < n)%N ->
  (forall B', B = Some B' -> posdef B') -> spectrum (matrix_B B) sB ->
  norm_B sch B = Ok (power_mean sB v).
Proof.
move=> HS Hn. case: B => [B' /(_ _ erefl) HB SB|_ SB] /=; first exact: HS.
by rewrite (power_mean_perm _ (spectrum_perm SB (spectrum_one n))) power_mean_const ?ltr01.
Qed.

Lemma boundE n (sch : 'M[R]_n -> res R) (A : 'M[R]_n) (B : option 'M[R]_n) v t sA sB : computes_norm sch v -> (0 < n)%N ->
  posdef A -> (forall B', B = Some B' -> posdef B') -> spectrum A sA -> spectrum (matrix_B B) sB ->
  bound sch A B t = Ok (power_mean sA v + t * power_mean sB v).
Proof.
move=> HS Hn HA HB SA SB. rewrite /bound (HS _ _ HA SA) /= (norm_BE HS Hn HB SB) /=.
rewrite /ndiv gt_eqF ?power_mean_gt0 //=. congr Ok. rewrite mulrDl divfK //.
by rewrite gt_eqF ?power_mean_gt0.
Qed.

(** ** C65: the bound of the norm *)
Section Bound.
Variables (n : nat) (sch : 'M[R]_n -> res R) (v : R).
Hypothesis norm : computes_norm sch v.
Hypothesis n0 : (0 < n)%N.
Variables (A : 'M[R]_n) (B : option 'M[R]_n).
Hypothesis HA : posdef A.
Hypothesis HB : forall B', B = Some B' -> posdef B'.

(** For t >= 0 the function lies above its bound if p < 1, and below it if
    p >= 1; they agree at t = 0. *)
Theorem C65_bound t : 0 <= t -> exists f g,
  [/\ eval sch A B t = Ok f, bound sch A B t = Ok g,
      v < 1 -> g <= f, 1 <= v -> f <= g & t = 0 -> f = g].
Proof.
move=> Ht. have HM := matrix_B_posdef HB. have HC := posdef_line Ht HA HM.
have [sA SA] := spectrum_sym (proj1 HA). have [sB SB] := spectrum_sym (proj1 HM).
have [sC SC] := spectrum_sym (proj1 HC).
exists (power_mean sC v), (power_mean sA v + t * power_mean sB v).
have K := norm_line v n0 HA HM Ht erefl SA SB SC.
split; rewrite ?(boundE t norm n0 HA HB SA SB) //; first exact: norm.
- by move=> Hv; move: K; rewrite lt_geF.
- by move=> Hv; move: K; rewrite Hv.
- move=> E; move: SC; rewrite E scale0r addr0 mul0r addr0 => SC.
  exact: power_mean_perm (spectrum_perm SC SA).
Qed.

(** One interpolation point, given as a number, is refused (the documentation
    allows it); the same point in a list is accepted. *)
Theorem C65_number_refuted t : 0 <= t ->
  base_of sch A B (Number t) = Raise TypeError /\
  exists P, base_of sch A B (Array [:: t]) = Ok P.
Proof.
move=> Ht. have HM := matrix_B_posdef HB. have HC := posdef_line Ht HA HM.
have [sA SA] := spectrum_sym (proj1 HA). have [sB SB] := spectrum_sym (proj1 HM).
have [sC SC] := spectrum_sym (proj1 HC).
rewrite /base_of /base (norm HA SA) /= (norm_BE norm n0 HB SB) /= /eval (norm HC SC) /=.
rewrite /ndiv /guard gt_eqF ?power_mean_gt0 //=. by split=> //; eexists.
Qed.

(** For t <= 0, as long as A + t B is positive definite, it is the other way
    round. *)
Theorem C65_bound_negative t : t <= 0 -> posdef (A + t *: matrix_B B) -> exists f g,
  [/\ eval sch A B t = Ok f, bound sch A B t = Ok g,
      v < 1 -> f <= g & 1 <= v -> g <= f].
Proof.
move=> Ht HC. have HM := matrix_B_posdef HB.
have [sA SA] := spectrum_sym (proj1 HA). have [sB SB] := spectrum_sym (proj1 HM).
have [sC SC] := spectrum_sym (proj1 HC).
exists (power_mean sC v), (power_mean sA v + t * power_mean sB v).
have Ht' : 0 <= - t by rewrite oppr_ge0.
have E : A = A + t *: matrix_B B + (- t) *: matrix_B B by rewrite scaleNr addrK.
have K := norm_line v n0 HC HM Ht' E SC SB SA.
split; rewrite ?(boundE t norm n0 HA HB SA SB) //; first exact: norm.
- by move=> Hv; move: K; rewrite lt_geF // mulNr ler_subl_addr.
- by move=> Hv; move: K; rewrite Hv mulNr ler_subr_addr.
Qed.
End Bound.

(** ** The bounds of the trace and of the log-determinant *)
Lemma sum_phi_mean (s : seq R) v : (0 < size s)%N -> v != 0 ->
  Rpower (power_mean s v) v * (size s)%:R = \sum_(x <- s) Rpower x v.
Proof.
move=> Hs Hv. have Hn0 : (size s)%:R != 0 :> R by rewrite pnatr_eq0 -lt0n.
rewrite /power_mean (negbTE Hv) Rpower_mult -RmultE mulfVK // Rpower_1; last first.
  by apply/RltP; apply: mean_gt0.
by rewrite mulfVK.
Qed.

Lemma ln_mean (s : seq R) : (0 < size s)%N -> (forall x, x \in s -> 0 < x) ->
  (size s)%:R * ln (power_mean s 0) = ln (\prod_(x <- s) x)%R.
Proof.
move=> Hs Hpos. have Hn0 : (size s)%:R != 0 :> R by rewrite pnatr_eq0 -lt0n.
rewrite /power_mean eqxx /Rpower ln_exp -RmultE mulrA mulrC mul1r mulrV ?unitfE // mulr1.
by [].
Qed.

Section Trace.
Variables (n : nat) (sch : 'M[R]_n -> res R) (p : TraceModel.pynum) (v : R).
Hypothesis norm : computes_norm sch v.
Hypothesis Hv : value p = Some v.
Hypothesis n0 : (0 < n)%N.
Variables (A : 'M[R]_n) (B : option 'M[R]_n).
Hypothesis HA : posdef A.
Hypothesis HB : forall B', B = Some B' -> posdef B'.

Lemma to_tracepE s : 0 < s -> schatten_to_tracep n p s = Ok (Rpower s v * n%:R).
Proof. by move=> Hs; rewrite /schatten_to_tracep Hv /= npow_pos. Qed.

(** InterpolateTrace.eval is the trace of the p-th power. *)
Theorem C65_trace_value t s : v != 0 -> posdef (A + t *: matrix_B B) -> spectrum (A + t *: matrix_B B) s ->
  trace_eval sch A B p t = Ok (\sum_(x <- s) Rpower x v).
Proof.
move=> Nv HC SC. rewrite /trace_eval /eval (norm HC SC) /= to_tracepE ?power_mean_gt0 //.
by rewrite -(spectrum_size SC) sum_phi_mean // (spectrum_size SC).
Qed.

(** upper_bound lies above it for p < 0 and for p >= 1, and below it for
    0 < p < 1. *)
Theorem C65_trace_upper_partial t : v != 0 -> 0 <= t -> exists f g,
  [/\ trace_eval sch A B p t = Ok f, trace_upper_bound sch A B p t = Ok g,
      (v < 0) || (1 <= v) -> f <= g & 0 < v < 1 -> g <= f].
Proof.
move=> Nv Ht. have [f [g [Ef Eg Hlow Hup _]]] := C65_bound norm n0 HA HB Ht.
have HM := matrix_B_posdef HB. have HC := posdef_line Ht HA HM.
have [sA SA] := spectrum_sym (proj1 HA). have [sB SB] := spectrum_sym (proj1 HM).
have [sC SC] := spectrum_sym (proj1 HC).
have f0 : 0 < f by move: Ef; rewrite /eval (norm HC SC) => -[<-]; apply: power_mean_gt0.
have g0 : 0 < g.
  move: Eg; rewrite (boundE t norm n0 HA HB SA SB) => -[<-].
  by rewrite ltr_paddr ?power_mean_gt0 // mulr_ge0 // ltW // power_mean_gt0.
exists (Rpower f v * n%:R), (Rpower g v * n%:R).
rewrite /trace_eval /trace_upper_bound Ef Eg /= !to_tracepE //. split=> //.
- move=> V. rewrite ler_wpmul2r ?ler0n //. case/orP: V => V.
    by apply: Rpower_le_neg => //; apply: Hlow; apply: lt_trans V _; apply: ltr01.
  by apply: Rpower_le => //; [apply: Hup|apply: lt_le_trans V; apply: ltr01].
- move=> /andP [V0 V1]. by rewrite ler_wpmul2r ?ler0n //; apply: Rpower_le => //; apply: Hlow.
Qed.
End Trace.

Lemma harmonic_arithmetic (s : seq R) : (0 < size s)%N -> (forall x, x \in s -> 0 < x) ->
  power_mean s (-1) <= (\sum_(x <- s) x) / (size s)%:R.
Proof.
move=> Hs Hpos. set m := (_ / _).
have N0 : 0 < (size s)%:R :> R by rewrite ltr0n.
have m0 : 0 < m.
  rewrite divr_gt0 //. case: s Hs Hpos {m N0} => // x s _ Hpos. rewrite big_cons.
  rewrite ltr_paddr ?Hpos ?mem_head // big_seq. apply: sumr_ge0 => y Hy. by rewrite ltW // Hpos // inE Hy orbT.
have H : phi (-1) m * (size s)%:R <= \sum_(x <- s) phi (-1) x.
  have -> : phi (-1) m * (size s)%:R = \sum_(x <- s) (phi (-1) m + slope (-1) m * (x - m)).
    rewrite big_split /= -mulr_sumr sumrB !big_const_seq !count_predT !iter_addr_0.
    by rewrite -(mulr_natr (phi _ _)) -(mulr_natr m) {3}/m mulfVK ?gt_eqF // subrr mulr0 addr0.
  rewrite !big_seq. apply: ler_sum => x /Hpos Hx. apply: tangent_below => //.
  by rewrite oppr_lt0 ltr01.
have N1 : (-1 == 0 :> R) = false by rewrite oppr_eq0 oner_eq0.
move: H. rewrite /phi /power_mean N1 -ler_pdivl_mulr // => H.
rewrite -[X in _ <= X](@RpowerK m (-1)) ?N1 //.
apply: Rpower_le_neg => //; first exact: Rpower_gt0. by rewrite mul1r invrN invr1 oppr_lt0 ltr01.
Qed.

Section Minus.
Variables (n : nat) (sch : 'M[R]_n -> res R) (p : TraceModel.pynum).
Hypothesis norm : computes_norm sch (-1).
Hypothesis Hp : value p = Some (-1).
Hypothesis n0 : (0 < n)%N.
Variables (A : 'M[R]_n) (B : option 'M[R]_n).

Lemma upper_boundE t : 0 < \tr (A + t *: matrix_B B) ->
  upper_bound false A B p t = Ok (\tr (A + t *: matrix_B B) / n%:R).
Proof.
move=> HT. have N0 : 0 < n%:R :> R by rewrite ltr0n.
have ET : \tr A + t * \tr (matrix_B B) = \tr (A + t *: matrix_B B) by rewrite linearD linearZ.
rewrite /upper_bound Hp eqxx /= ET /ndiv gt_eqF //= gt_eqF //=.
set T := \tr _ in HT *. have EX : n%:R ^+ 2 / T / n%:R = n%:R / T.
  by rewrite mulrAC expr2 mulfK // gt_eqF.
rewrite EX npow_pos ?divr_gt0 //=. congr Ok. rewrite mul1r invrN invr1.
by rewrite -[(-1)%R]/((-1)%:~R) Rpower_exprz ?divr_gt0 // -[(-1)%R]/(- 1%:Z) -exprnN expr1 invf_div.
Qed.

(** With p = -1, the arithmetic mean of the eigenvalues is an upper bound. *)
Theorem C65_upper_bound t : posdef (A + t *: matrix_B B) -> exists f g,
  [/\ eval sch A B t = Ok f, upper_bound false A B p t = Ok g & f <= g].
Proof.
move=> HC. have [sC SC] := spectrum_sym (proj1 HC). have Ez := spectrum_size SC.
have Hpos := spectrum_posdef HC SC.
have ET := trace_spectrumR SC.
exists (power_mean sC (-1)), (\tr (A + t *: matrix_B B) / n%:R).
have Hle : power_mean sC (-1) <= \tr (A + t *: matrix_B B) / n%:R.
  by rewrite ET -Ez; apply: harmonic_arithmetic; rewrite // Ez.
have H0 : 0 < \tr (A + t *: matrix_B B).
  have := lt_le_trans (power_mean_gt0 sC (-1)) Hle. by rewrite pmulr_lgt0 // invr_gt0 ltr0n.
by split=> //; [apply: norm|apply: upper_boundE].
Qed.

(** InterpolateTrace.lower_bound with p = -1: the trace of the inverse is at
    least n^2 / trace(A + t B). *)
Theorem C65_trace_lower t : posdef (A + t *: matrix_B B) ->
  trace_eval sch A B p t = Ok (\tr (invmx (A + t *: matrix_B B))) /\
  trace_lower_bound false A B p t = Ok (n%:R ^+ 2 / \tr (A + t *: matrix_B B)) /\
  n%:R ^+ 2 / \tr (A + t *: matrix_B B) <= \tr (invmx (A + t *: matrix_B B)).
Proof.
move=> HC. have [f [g [Ef Eg Hle]]] := C65_upper_bound HC.
have [sC SC] := spectrum_sym (proj1 HC). have Hpos := spectrum_posdef HC SC.
have N0 : 0 < n%:R :> R by rewrite ltr0n.
have P1 x : 0 < x -> Rpower x (-1)%R = x^-1.
  by move=> Hx; rewrite -[(-1)%R]/((-1)%:~R) Rpower_exprz // -[(-1)%R]/(- 1%:Z) -exprnN expr1.
have N1 : (-1 != 0 :> R) by rewrite oppr_eq0 oner_eq0.
have EI : \tr (invmx (A + t *: matrix_B B)) = \sum_(x <- sC) Rpower x (-1).
  have HU := posdef_unit HC. rewrite (trace_spectrumR (spectrum_invR HU SC)) big_map.
  by apply: eq_big_seq => x /Hpos Hx; rewrite P1.
have Ef' := C65_trace_value norm Hp n0 N1 HC SC. rewrite EI.
have f0 : 0 < f by move: Ef; rewrite /eval (norm HC SC) => -[<-]; apply: power_mean_gt0.
have g0 : 0 < g by apply: lt_le_trans Hle.
move: Eg. have T0 : 0 < \tr (A + t *: matrix_B B).
  rewrite (trace_spectrumR SC). have := spectrum_size SC. case: (sC) Hpos => [|x s] Hpos Ez.
    by move: n0; rewrite -Ez.
  rewrite big_cons ltr_paddr ?Hpos ?mem_head // big_seq. apply: sumr_ge0 => y Hy. by rewrite ltW // Hpos // inE Hy orbT.
rewrite upper_boundE // => -[Eg]. rewrite Ef' /trace_lower_bound upper_boundE //= Eg (to_tracepE _ Hp) //.
have -> : Rpower g (-1) * n%:R = n%:R ^+ 2 / \tr (A + t *: matrix_B B).
  by rewrite P1 // -Eg invf_div expr2 -[RHS]mulrAC.
split=> //; split=> //.
have -> : n%:R ^+ 2 / \tr (A + t *: matrix_B B) = Rpower g (-1) * n%:R.
  by rewrite P1 // -Eg invf_div expr2 -[RHS]mulrAC.
move: Ef. rewrite /eval (norm HC SC) => -[Ef].
rewrite -(sum_phi_mean _ N1) (spectrum_size SC) // Ef ler_wpmul2r ?ler0n //.
by apply: Rpower_le_neg => //; rewrite oppr_lt0 ltr01.
Qed.
End Minus.

(** ** InterpolateLogdet *)
Section Logdet.
Variables (n : nat) (sch : 'M[R]_n -> res R).
Hypothesis norm : computes_norm sch 0.
Hypothesis n0 : (0 < n)%N.
Variables (A : 'M[R]_n) (B : option 'M[R]_n).

Lemma to_logdetE s : 0 < s -> schatten_to_logdet n s = Ok (n%:R * ln s).
Proof. by move=> Hs; rewrite /schatten_to_logdet /nlog Hs. Qed.

Theorem C65_logdet_value t : posdef (A + t *: matrix_B B) ->
  logdet_eval sch A B t = Ok (ln (\det (A + t *: matrix_B B))).
Proof.
move=> HC. have [sC SC] := spectrum_sym (proj1 HC). have Hpos := spectrum_posdef HC SC.
rewrite /logdet_eval /eval (norm HC SC) /= to_logdetE ?power_mean_gt0 // (det_spectrum SC).
by rewrite -ln_mean ?(spectrum_size SC).
Qed.

(** The lower bound of the log-determinant for t >= 0 *)
Theorem C65_logdet_lower t : posdef A -> (forall B', B = Some B' -> posdef B') -> 0 <= t ->
  exists2 g, logdet_lower_bound sch A B t = Ok g & g <= ln (\det (A + t *: matrix_B B)).
Proof.
move=> HA HB Ht. have HM := matrix_B_posdef HB. have HC := posdef_line Ht HA HM.
have [f [g [Ef Eg Hlow _ _]]] := C65_bound norm n0 HA HB Ht.
have [sA SA] := spectrum_sym (proj1 HA). have [sB SB] := spectrum_sym (proj1 HM).
have [sC SC] := spectrum_sym (proj1 HC).
have g0 : 0 < g.
  move: Eg; rewrite (boundE t norm n0 HA HB SA SB) => -[<-].
  by rewrite ltr_paddr ?power_mean_gt0 // mulr_ge0 // ltW // power_mean_gt0.
exists (n%:R * ln g); first by rewrite /logdet_lower_bound Eg /= to_logdetE.
move: (C65_logdet_value HC). rewrite /logdet_eval Ef /= to_logdetE; last exact: lt_le_trans (Hlow ltr01).
move=> -[<-]. rewrite ler_wpmul2l ?ler0n //. have := Hlow ltr01. rewrite le_eqVlt => /orP [/eqP -> //|H].
by apply/ltW/RltP; apply: ln_increasing; apply/RltP.
Qed.
End Logdet.

(** ** The conversions are inverse to each other *)
Theorem C65_tracep_conversions n p v s : (0 < n)%N -> value p = Some v -> v != 0 -> 0 < s ->
  bind (schatten_to_tracep n p s) (tracep_to_schatten n p) = Ok s /\
  bind (tracep_to_schatten n p s) (schatten_to_tracep n p) = Ok s.
Proof.
move=> n0 Hv Nv Hs. have N0 : 0 < n%:R :> R by rewrite ltr0n.
rewrite (to_tracepE _ Hv) //= /tracep_to_schatten Hv /= /ndiv gt_eqF //= (negbTE Nv) /=.
rewrite mulfK ?gt_eqF // !npow_pos ?Rpower_gt0 ?divr_gt0 //= RpowerK //. split=> //.
rewrite (to_tracepE _ Hv) ?Rpower_gt0 //. congr Ok.
rewrite Rpower_mult -RmultE mulfVK // Rpower_1; last by apply/RltP; rewrite divr_gt0.
by rewrite mulfVK // gt_eqF.
Qed.

Theorem C65_logdet_conversions n (s l : R) : (0 < n)%N -> 0 < s ->
  bind (schatten_to_logdet n s) (logdet_to_schatten n) = Ok s /\
  bind (logdet_to_schatten n l) (schatten_to_logdet n) = Ok l.
Proof.
move=> n0 Hs. have N0 : n%:R != 0 :> R by rewrite pnatr_eq0 -lt0n.
rewrite to_logdetE //= /logdet_to_schatten /ndiv (negbTE N0) /=. split.
  by rewrite mulrC mulKf // exp_ln //; apply/RltP.
rewrite to_logdetE; last by apply/RltP/exp_pos. by rewrite ln_exp mulrC divfK.
Qed.

(** ** kind='eig' *)
Lemma spectrum_shift n (A : 'M[R]_n) s (t : R) : A^T = A -> spectrum A s ->
  spectrum (A + t *: 1%:M) [seq x + t | x <- s].
Proof.
move=> HA SA. have [P [d X]] := Spectral.spectral_theorem HA.
have Hd := spectrum_perm (spectral_spectrum X) SA.
apply: (perm_spectrum (s := values (fun i => d 0 i + t))).
  by have := perm_map (fun x => x + t) Hd; rewrite /values -map_comp.
have X' : LanczosSpec.spectral (A + t *: 1%:M) P (d + const_mx t).
  case: X => HP EA. split=> //. have HP' := mulmx1C HP.
  rewrite linearD /= mulmxDr mulmxDl -EA. congr (_ + _).
  by rewrite diag_const_mx mul_mx_scalar -scalemxAl HP'.
have := spectral_spectrum X'. congr (spectrum _ _). by apply: eq_map => i; rewrite !mxE.
Qed.

Lemma eig_interpolateE n p v (ev : seq R) (t : R) : (0 < n)%N -> size ev = n -> value p = Some v ->
  (forall x, x \in ev -> 0 < x + t) ->
  eig_interpolate n p ev t = Ok (power_mean [seq x + t | x <- ev] v).
Proof.
move=> n0 Hs Hv Hpos. have N0 : n%:R != 0 :> R by rewrite pnatr_eq0 -lt0n.
have EM : [seq x + t * 1 | x <- ev] = [seq x + t | x <- ev] by apply: eq_map => x; rewrite mulr1.
rewrite /eig_interpolate Hv /= EM /power_mean size_map Hs. set s := [seq _ | _ <- ev].
have Hs' x : x \in s -> 0 < x by move=> /mapP [y /Hpos Hy ->].
case: eqP => [_|/eqP Nv].
  rewrite (nsumP (g := ln)) => [|x /InP /Hs' Hx]; last by rewrite /nlog gtr0_norm // Hx.
  rewrite /= /ndiv (negbTE N0) /=. congr Ok. by rewrite -ln_prod // /Rpower -RmultE mulrC mul1r mulrC.
rewrite (nsumP (g := fun x => Rpower x v)) => [|x /InP /Hs' Hx]; last by rewrite npow_pos.
rewrite /= /ndiv (negbTE N0) /= (negbTE Nv) /= npow_pos //.
have := mean_gt0 v (s := s). by rewrite size_map Hs; apply.
Qed.

Section EigMethod.
Variable E : eig_routines.
Hypothesis EO : eig_routines_ok E.
Variables (n : nat) (sch : 'M[R]_n -> res R) (p : TraceModel.pynum) (v : R).
Hypothesis norm : computes_norm sch v.
Hypothesis Hv : value p = Some v.
Hypothesis n0 : (0 < n)%N.
Variable A : 'M[R]_n.
Hypothesis HA : A^T = A.

(** For a dense matrix the method is exact. *)
Theorem C65_eig_dense : exists I, eig_method E p A None None = Ok I /\
  forall t, posdef (A + t *: 1%:M) -> I t = eval sch A None t.
Proof.
exists (eig_interpolate n p (eigh E A)); split=> // t HC.
have SA := eigh_ok EO HA. have SC := spectrum_shift t HA SA.
rewrite /eval (norm HC SC) (eig_interpolateE n0 (spectrum_size SA) Hv) // => x Hx.
by apply: (spectrum_posdef HC SC); apply: map_f.
Qed.
End EigMethod.

Lemma sum_lt (f : R -> R) (u w : seq R) : size u = size w -> (0 < size u)%N ->
  (forall x y, x \in u -> y \in w -> f x < f y) -> \sum_(x <- u) f x < \sum_(y <- w) f y.
Proof.
move=> Es u0 H.
have Hle : forall u' w', size u' = size w' -> {subset u' <= u} -> {subset w' <= w} ->
    \sum_(x <- u') f x <= \sum_(y <- w') f y.
  elim=> [|x u' IH] [|y w'] //= [E] Su Sw. rewrite !big_cons ler_add //.
    by rewrite ltW // H ?Su ?Sw ?mem_head.
  by apply: IH => // z Hz; [apply: Su|apply: Sw]; rewrite inE Hz orbT.
case: u w Es u0 H Hle => [|x u] [|y w] //= [E] _ H Hle. rewrite !big_cons ltr_le_add ?H ?mem_head //.
by apply: Hle => // z Hz; rewrite inE Hz orbT.
Qed.

(** Larger values have a larger power mean. *)
Lemma power_mean_lt (e u w : seq R) p : (forall x, x \in e -> 0 < x) -> (forall x, x \in u -> 0 < x) ->
  size u = size w -> (0 < size u)%N -> (forall x y, x \in u -> y \in w -> x < y) ->
  power_mean (e ++ u) p < power_mean (e ++ w) p.
Proof.
move=> He Hu Es u0 H.
have Hw y : y \in w -> 0 < y.
  case: u Hu Es u0 H => // x u Hu Es _ H Hy. apply: lt_trans (H x y (mem_head _ _) Hy). by rewrite Hu ?mem_head.
have Rlt_pos (a b q : R) : 0 < a -> a < b -> 0 < q -> Rpower a q < Rpower b q.
  move=> /RltP a0 /RltP ab /RltP q0. apply/RltP. by apply: Rlt_Rpower_l.
have Rlt_neg (a b q : R) : 0 < a -> a < b -> q < 0 -> Rpower b q < Rpower a q.
  move=> a0 ab q0. have q1 : 0 < - q by rewrite oppr_gt0. have b0 := lt_trans a0 ab.
  rewrite -[q]opprK. move: (- q) q1 => {q0} {}q q1. rewrite !RoppE !Rpower_Ropp.
  have K := Rlt_pos _ _ _ a0 ab q1. apply/RltP. apply: Rinv_lt_contravar; last exact/RltP.
  by apply/RltP; rewrite -RmultE mulr_gt0 ?Rpower_gt0.
have N0 : 0 < (size (e ++ w))%:R :> R by rewrite ltr0n size_cat -Es addn_gt0 u0 orbT.
have Ez : size (e ++ u) = size (e ++ w) by rewrite !size_cat Es.
have cpos (z : seq R) : (forall y, y \in z -> 0 < y) -> forall y, y \in e ++ z -> 0 < y.
  by move=> Hz y; rewrite mem_cat => /orP [/He|/Hz].
have lnlt (a b : R) : 0 < a -> a < b -> ln a < ln b.
  by move=> a0 ab; apply/RltP; apply: ln_increasing; apply/RltP.
rewrite /power_mean Ez. case: eqP => [_|/eqP Np].
  apply: (Rlt_pos _ _ _); rewrite ?divr_gt0 ?ltr01 //; first exact: (prod_pos (cpos _ Hu)).
  have L : ln (\prod_(x <- e ++ u) x)%R < ln (\prod_(x <- e ++ w) x)%R.
    rewrite !ln_prod; try by apply: cpos. rewrite !big_cat /= ltr_add2l.
    by apply: sum_lt => // x y Hx Hy; rewrite lnlt ?Hu ?H.
  apply/RltP; apply: ln_lt_inv; try by apply/RltP; apply: prod_pos; apply: cpos.
  exact/RltP.
have M0 (z : seq R) : (0 < size z)%N -> 0 < \sum_(x <- z) Rpower x p.
  by move=> Hz; apply: sum_gt0 => // x; apply: Rpower_gt0.
have S0 : (0 < size (e ++ u))%N by rewrite size_cat addn_gt0 u0 orbT.
have S1 : (0 < size (e ++ w))%N by rewrite -Ez.
case: (ltP 0 p) => P0.
  apply: (Rlt_pos _ _ _); rewrite ?divr_gt0 ?M0 ?ltr01 //. rewrite ltr_pmul2r ?invr_gt0 // !big_cat /= ltr_add2l.
  apply: (sum_lt (f := fun x => Rpower x p)) => // x y Hx Hy.
  exact: Rlt_pos (Hu _ Hx) (H _ _ Hx Hy) P0.
have P1 : p < 0 by rewrite lt_neqAle Np.
apply: (Rlt_neg _ _ _); rewrite ?divr_gt0 ?M0 //; last by rewrite mul1r invr_lt0.
rewrite ltr_pmul2r ?invr_gt0 // !big_cat /= ltr_add2l.
apply: (sum_lt (f := fun x => Rpower x p)) => // [|y x Hy Hx]; first by rewrite -Es.
exact: Rlt_neg (Hu _ Hx) (H _ _ Hx Hy) P1.
Qed.

Section EigSparse.
Variable E : eig_routines.
Hypothesis EO : eig_routines_ok E.
Variables (n : nat) (sch : 'M[R]_n -> res R) (p : TraceModel.pynum) (v : R).
Hypothesis norm : computes_norm sch v.
Hypothesis Hv : value p = Some v.
Variable A : 'M[R]_n.
Hypothesis HA : posdef A.
Variable ratio : R.
Hypothesis Hk : (0 < num_none_zero_eig n ratio < n)%N.

(** For a sparse matrix the method is never exact for t > 0: the eigenvalues
    left out count as zero, and the result is too small. *)
Theorem C65_eig_sparse_refuted : exists I, eig_method E p A None (Some ratio) = Ok I /\
  forall t, 0 < t -> exists f g, [/\ eval sch A None t = Ok f, I t = Ok g & g < f].
Proof.
have HS := proj1 HA. rewrite /eig_method /A_eigenvalues Hk /=.
move: Hk; set k := num_none_zero_eig n ratio => Hk'.
have [rest [SA Ek _]] := eigsh_ok EO LM HS Hk'. set e := eigsh E A k LM in SA Ek *.
have Hpos := spectrum_posdef HA SA. have /andP [k0 kn] := Hk'.
have Er : size rest = (n - k)%N by have := spectrum_size SA; rewrite size_cat Ek => <-; rewrite addKn.
exists (eig_interpolate n p (e ++ nseq (n - k) 0)); split=> // t Ht.
have HC := posdef_line (ltW Ht) HA (one_posdef _ n). have SC := spectrum_shift t HS SA.
exists (power_mean [seq x + t | x <- e ++ rest] v), (power_mean [seq x + t | x <- e ++ nseq (n - k) 0] v).
split; first exact: norm.
  apply: eig_interpolateE => //; first exact: leq_ltn_trans kn.
    by rewrite size_cat Ek size_nseq subnKC // ltnW.
  move=> x. rewrite mem_cat => /orP [Hx|/nseqP [-> _]]; last by rewrite add0r.
  by rewrite addr_gt0 // Hpos // mem_cat Hx.
rewrite !map_cat. apply: power_mean_lt.
- by move=> x /mapP [y Hy ->]; rewrite addr_gt0 // Hpos // mem_cat Hy.
- by move=> x /mapP [y /nseqP [-> _] ->]; rewrite add0r.
- by rewrite !size_map size_nseq Er.
- by rewrite size_map size_nseq subn_gt0.
- move=> x y /mapP [x' /nseqP [-> _] ->] /mapP [y' Hy ->].
  by rewrite add0r ltr_addr Hpos // mem_cat Hy orbT.
Qed.
End EigSparse.

(** ** The refuted claims *)
(** upper_bound of InterpolateTrace is not an upper bound for p = 1/2: the
    matrix [[2,1],[1,2]] at t = 1, where the trace is 2 + sqrt 2. *)
Lemma Rpower_half (x : R) : 0 < x -> Rpower x (1 / 2%:R)%R = Num.sqrt x.
Proof.
move=> Hx. rewrite RsqrtE ?ltW // -Rpower_sqrt; last exact/RltP. congr (Rpower _ _).
by rewrite RdivE ?pnatr_eq0 // RnatE /=; toR; lra.
Qed.

Theorem C65_trace_upper_refuted (sch : 'M[R]_2 -> res R) : computes_norm sch (1 / 2%:R) ->
  exists f g, [/\ trace_eval sch two_one None (PyFloat (1 / 2%:R)) 1 = Ok f,
    trace_upper_bound sch two_one None (PyFloat (1 / 2%:R)) 1 = Ok g & g < f].
Proof.
move=> norm. have Hv : value (PyFloat (1 / 2%:R)) = Some (1 / 2%:R).
  by rewrite /value; congr Some; rewrite !mul1r fmorphV ratr_nat.
have HC : posdef (two_one + 1 *: matrix_B (None : option 'M[R]_2)) by apply: posdef_line; rewrite ?ler01 //; [apply: two_one_posdef|apply: one_posdef].
have SC := spectrum_shift 1 (proj1 two_one_posdef) two_one_spectrum.
have N2 : 1 / 2%:R != 0 :> R by rewrite mul1r invr_eq0 pnatr_eq0.
have S1 : spectrum (matrix_B (None : option 'M[R]_2)) (nseq 2 1) by apply: spectrum_one.
rewrite (C65_trace_value norm Hv isT N2 HC SC) /trace_upper_bound.
rewrite (boundE 1 norm isT two_one_posdef _ two_one_spectrum S1) //=.
rewrite (power_mean_const _ ltr01 (isT : (0 < 2)%N)) mulr1.
rewrite (to_tracepE _ Hv); last by rewrite addr_gt0 ?power_mean_gt0 ?ltr01.
do 2 eexists; split; [by []|by []|].
rewrite !big_cons big_nil addr0 /power_mean (negbTE N2) !big_cons big_nil addr0 Rpower1.
have P k : (0 < k)%N -> Rpower k%:R (1 / 2%:R)%R = Num.sqrt k%:R by move=> Hk; rewrite Rpower_half ?ltr0n.
have -> : 1 + 1 = 2%:R :> R by rewrite -(natrD _ 1 1). have -> : 3%:R + 1 = 4%:R :> R by rewrite -(natrD _ 3 1).
rewrite !P // /=. have -> : 1 / (1 / 2%:R) = 2%:R :> R by rewrite !mul1r invrK.
set r3 := Num.sqrt 3%:R. have r30 : 0 <= r3 by apply: sqrtr_ge0.
have a0 : 0 < (1 + r3) / 2%:R by rewrite divr_gt0 ?ltr0n // ltr_paddr ?ltr01.
rewrite Rpower_nat // Rpower_half; last by rewrite addr_gt0 ?exprn_gt0 ?ltr01.
have -> : Num.sqrt 4%:R = 2%:R :> R by rewrite (natrX _ 2 2) sqrtr_sqr gtr0_norm ?ltr0n.
set r2 := Num.sqrt 2%:R. have r20 : 0 <= r2 by apply: sqrtr_ge0.
have E2 : r2 ^+ 2 = 2%:R by rewrite sqr_sqrtr ?ler0n. have E3 : r3 ^+ 2 = 3%:R by rewrite sqr_sqrtr ?ler0n.
rewrite -ltr_sqr ?nnegrE ?mulr_ge0 ?addr_ge0 ?exprn_ge0 ?sqrtr_ge0 ?ler0n ?ler01 ?(ltW a0) //.
rewrite exprMn sqr_sqrtr; last by rewrite addr_ge0 ?exprn_ge0 ?ler01 ?ltW.
rewrite expr_div_n mulrDl mulfVK ?mul1r; last by rewrite expf_neq0 ?pnatr_eq0.
move: r2 r3 r20 r30 E2 E3 {a0} => r2 r3 /RleP r20 /RleP r30 E2 E3. apply/RltP.
move: r20 r30 E2 E3. toR. rewrite /= => r20 r30 E2 E3.
have H3 : Rlt r3 (IZR 2) by nra.
have H32 : Rlt (Rplus (IZR 1) r3) (Rmult (IZR 2) r2) by nra.
nra.
Qed.

(** With a sparse matrix, upper_bound fails (and so does lower_bound of
    InterpolateTrace), whatever the matrix. *)
Theorem C65_sparse_upper_refuted n (A : 'M[R]_n) B p t :
  upper_bound true A B p t = Raise ValueError.
Proof. by rewrite /upper_bound; case: eqP. Qed.

(** ** The deterministic methods compute the norm (C39) *)
Theorem C65_norm_met E F sym b inv m p v n : eig_routines_ok E -> CholModel.routines_ok F ->
  (0 < n)%N -> accepts m p -> value p = Some v ->
  computes_norm (n := n) (fun M => real_result (schatten E F sym b inv m M p)) v.
Proof.
move=> EO FO n0 Hm Hv M s HM SM. by rewrite (C39_power_mean EO FO sym b inv HM n0 Hm Hv SM) /= /guard eqxx.
Qed.

(** A case of the hypotheses: [[2,1],[1,2]], B = I, p = -1 and p = 2; at t = 1
    the harmonic mean of 2 and 4 is 8/3, above the bound 3/2 + 1. *)
Example C65_case E F sym b inv : eig_routines_ok E -> CholModel.routines_ok F ->
  let sch (M : 'M[R]_2) := real_result (schatten E F sym b inv Cholesky M (PyInt (- 1))) in
  exists f g u, [/\ eval sch two_one None 1 = Ok f, bound sch two_one None 1 = Ok g,
    upper_bound false two_one None (PyInt (- 1)) 1 = Ok u & g <= f <= u].
Proof.
move=> EO FO sch.
have Hv : value (PyInt (- 1)) = Some (-1 : R) by [].
have norm : computes_norm sch (-1) by refine (@C65_norm_met E F sym b inv Cholesky (PyInt (- 1)) (-1) 2 EO FO isT isT Hv).
have [|f [g [Ef Eg H _ _]]] := @C65_bound _ _ _ norm isT two_one None two_one_posdef (fun _ H => ltac:(by [])) 1.
  exact: ler01.
have HC : posdef (two_one + 1 *: matrix_B (None : option 'M[R]_2)).
  by apply: posdef_line; rewrite ?ler01 //; [apply: two_one_posdef|apply: one_posdef].
have [f' [u [Ef' Eu H']]] := C65_upper_bound norm Hv isT HC.
exists f, g, u; split=> //. move: Ef'; rewrite Ef => -[Eff]. rewrite -Eff in H'. rewrite H' andbT H //.
by rewrite (lt_trans (y := 0)) ?ltr01 // oppr_lt0 ltr01.
Qed.

Definition C65_assumptions := (@C65_bound, @C65_bound_negative, @C65_trace_value, @C65_trace_upper_partial,
  @C65_upper_bound, @C65_trace_lower, @C65_logdet_value, @C65_logdet_lower, @C65_tracep_conversions,
  @C65_logdet_conversions, @C65_eig_dense, @C65_eig_sparse_refuted, @C65_trace_upper_refuted,
  @C65_sparse_upper_refuted, @C65_norm_met, @C65_number_refuted).
Print Assumptions C65_assumptions.
