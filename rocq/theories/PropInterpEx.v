(** Cases that meet the hypotheses of the theorems of PropInterp, PropBuild,
    PropMbf and PropBasis. *)
Require Import Reals Lra.
From Coquelicot Require Import Coquelicot.
From mathcomp Require Import all_ssreflect all_algebra zify.
From Verif Require Import RealField InterpModel PropInterp PropBuild PropBasis.
From Verif Require PropMbf.
Set Implicit Arguments.
Unset Strict Implicit.
Unset Printing Implicit Defensive.
Import Order.TTheory GRing.Theory Num.Theory.
Local Open Scope ring_scope.

Local Notation guardP := (@guard_ok _ _ _ _ _).

(** schatten with p = 2 of a symmetric matrix, and a matrix with eigenvalues 0
    and 2 *)
Definition frob n (M : 'M[R]_n) : res R := Ok (Num.sqrt (\tr (M *m M^T) / n%:R)).
Definition A2 : 'M[R]_2 := const_mx 1.

(** Lookup in a table: a cubic spline and a radial basis function, as far as
    their values at the points go *)
Definition lookup (xi yi : seq R) (x : R) : R := yi`_(index x xi).
Definition table_spline (xi yi : seq R) : res (R -> R) :=
  guard (~~ ((1 < size xi)%N && sorted <%R xi)) ValueError (lookup xi yi).
Definition table_rbf (xi yi : seq R) : res (R -> R) :=
  guard (~~ uniq xi) LinAlgError (lookup xi yi).

Lemma table_splineP : interpolating table_spline.
Proof.
move=> xi yi s /guardP [/negbNE /andP [_ Hs] <-] _ k Hk.
by rewrite /lookup index_uniq // (sorted_uniq lt_trans (@ltxx _ _) Hs).
Qed.

Lemma table_spline_inc : needs_increasing table_spline.
Proof.
move=> xi yi _; split=> [[s /guardP [/negbNE /andP []]] //|[H1 H2]].
by exists (lookup xi yi); rewrite /table_spline guardF // H1 H2.
Qed.

Lemma table_rbfP : interpolating table_rbf.
Proof. by move=> xi yi s /guardP [/negbNE Hs <-] _ k Hk; rewrite /lookup index_uniq. Qed.

Lemma base_frob ti : exists P, base (@frob 2) A2 None ti = Ok P /\ 0 <= tau0 P.
Proof.
rewrite /base /= guardF ?oner_eq0 //=.
have [l ->] : exists l, mapM (eval (@frob 2) A2 None) ti = Ok l.
  by apply: mapM_total => t _; rewrite /eval /frob; eexists.
by eexists; split; [reflexivity|rewrite /= divr1 sqrtr_ge0].
Qed.

Definition three : seq R := [:: 1; 2%:R; 3%:R].
Lemma three_pos t : t \in three -> 0 < t.
Proof. by rewrite !inE => /or3P [] /eqP ->; rewrite ?ltr01 ?ltr0n. Qed.
Lemma three_sorted : sorted <%R three.
Proof. by rewrite /= -[X in X < 2%:R]/(1%:R) !ltr_nat. Qed.
Lemma three_uniq : uniq three.
Proof. exact: (sorted_uniq lt_trans (@ltxx _ _) three_sorted). Qed.

Example C47_ext_example : exists I, ext (@frob 2) A2 None = Ok I /\
  passes_through (eval (@frob 2) A2 None) I three.
Proof.
eexists; split; first by reflexivity.
by apply: C47_ext => // t _; rewrite /eval /frob; eexists.
Qed.

Example C47_mbf_example : exists I, mbf (@frob 2) A2 None [:: 1] = Ok I /\
  passes_through (eval (@frob 2) A2 None) I [:: 1].
Proof.
have [P [HP _]] := base_frob [:: 1].
have [I HI] : exists I, mbf (@frob 2) A2 None [:: 1] = Ok I by rewrite /mbf HP /=; eexists.
exists I; split=> //. apply: (C47_mbf _ _ HI) => [M v [<-]|t]; first exact: sqrtr_ge0.
by rewrite inE => /eqP ->; apply: oner_neq0.
Qed.

Example C47_imbf_example b : exists I, imbf (@frob 2) A2 None b three = Ok I /\
  passes_through (eval (@frob 2) A2 None) I three.
Proof.
have [P [HP _]] := base_frob three.
have [I HI] : exists I, imbf (@frob 2) A2 None b three = Ok I.
  by apply: (C58_imbf HP _ _ three_pos three_uniq); case: b.
by exists I; split=> //; apply: C47_imbf HI.
Qed.

Example C47_crf_example ft : exists I, crf (@frob 2) A2 None ft 1 three = Ok I /\
  passes_through (eval (@frob 2) A2 None) I three.
Proof.
have [P [HP H0]] := base_frob three.
have [I HI] : exists I, crf (@frob 2) A2 None ft 1 three = Ok I.
  by apply: (C58_crf ft HP H0 ltr01 isT three_pos three_uniq).
by exists I; split=> //; apply: C47_crf HI; apply: ltr01.
Qed.

Example C47_spl_example ft : exists I, spl (@frob 2) A2 None table_spline ft three = Ok I /\
  passes_through (eval (@frob 2) A2 None) I three.
Proof.
have [P [HP H0]] := base_frob three.
have [I HI] := C47_spl_builds table_spline_inc ft HP isT H0 three_pos three_sorted.
by exists I; split=> //; apply: C47_spl HI; apply: table_splineP.
Qed.

(** powers of ten *)
Lemma log10_power (k : R) : log10_pos (Rpower (IZR 10) k) = Ok k.
Proof.
have H : 0 < Rpower (IZR 10) k by apply/RltP/exp_pos.
rewrite /log10_pos guardF -?ltNge //; congr Ok.
rewrite /Rpower ln_exp -[Rmult _ _]/(k * ln (IZR 10)) -RdivE ?gt_eqF ?ln10_gt0 //.
by rewrite mulfK // gt_eqF // ln10_gt0.
Qed.

Definition decades (s : seq R) : seq R := [seq Rpower (IZR 10) k | k <- s].

Lemma decades_log s : mapM log10_pos (decades s) = Ok s.
Proof. by elim: s => [//|k s IH] /=; rewrite log10_power /= IH. Qed.

Lemma decades_pos s t : t \in decades s -> 0 < t.
Proof. by move=> /mapP [k _ ->]; apply/RltP/exp_pos. Qed.

Lemma decades_lt (j k : R) : (Rpower (IZR 10) j < Rpower (IZR 10) k) = (j < k).
Proof.
have mono x y : x < y -> Rpower (IZR 10) x < Rpower (IZR 10) y.
  move=> H; apply/RltP; apply: exp_increasing; apply: Rmult_lt_compat_r; last exact/RltP.
  exact/RltP/ln10_gt0.
apply/idP/idP => [|/mono //]. apply: contraTT; rewrite -!leNgt le_eqVlt => /orP [/eqP -> //|/mono /ltW //].
Qed.


Lemma table_rbf_distinct : accepts_distinct table_rbf.
Proof. by move=> xi yi _ Hu; exists (lookup xi yi); rewrite /table_rbf guardF // Hu. Qed.

Example C47_rbf_example ft : exists I, rbf (@frob 2) A2 None table_spline table_rbf ft three = Ok I /\
  passes_through (eval (@frob 2) A2 None) I three.
Proof.
have [P [HP H0]] := base_frob three.
have [I HI] := C58_rbf table_spline_inc table_rbf_distinct HP isT H0 three_pos three_sorted (fun _ : ft = Type1 => isT).
exists I; split=> //. exact: (C47_rbf table_splineP table_rbfP three_sorted HI).
Qed.

(** Numerical comparisons *)
Lemma inv2 : (2%:R)^-1 = Rinv (IZR 2) :> R. Proof. by rewrite RinvE ?pnatr_eq0 // RnatE INR_IZR_INZ. Qed.
Ltac num := rewrite ?inv2; match goal with
  | |- is_true (@Order.lt _ _ _ _) => apply/RltP
  | |- is_true (@Order.le _ _ _ _) => apply/RleP
  | |- is_true (~~ (@eq_op _ _ _)) => apply/eqP
  | |- _ => idtac end; toR; simpl INR; match goal with
  | |- ~ (@eq _ ?a ?b) => change (~ (@eq R a b)) | |- @eq _ ?a ?b => change (@eq R a b) | _ => idtac end; lra.

(** 1000, 10, 0.1 and 0.000001, in this order *)
Definition falling : seq R := [:: 3%:R; 1; -1; - 6%:R].

Lemma falling_step : mean_step falling = - 3%:R.
Proof.
rewrite /mean_step /falling /=. apply: (mulIf (x := 3%:R)); first by rewrite pnatr_eq0.
by rewrite divfK ?pnatr_eq0 //; num.
Qed.

Lemma falling_low : low_threshold falling = - 3%:R.
Proof.
rewrite /low_threshold falling_step. have -> : least falling = - 6%:R.
  rewrite /least /falling /=. rewrite minxx.
  have -> : Num.min 3%:R 1 = 1 :> R by apply/min_idPr; num.
  have -> : Num.min 1 (-1) = -1 :> R by apply/min_idPr; num.
  by apply/min_idPr; num.
rewrite ifT; num.
Qed.

Lemma falling_high : high_threshold falling = 7%:R / 2%:R.
Proof.
rewrite /high_threshold. have -> : largest falling = 3%:R.
  rewrite /largest /falling /= maxxx.
  have -> : Num.max 3%:R 1 = 3%:R :> R by apply/max_idPl; num.
  have -> : Num.max 3%:R (-1) = 3%:R :> R by apply/max_idPl; num.
  by apply/max_idPl; num.
by rewrite ifF //; apply/negbTE; rewrite -ltNge; num.
Qed.

Lemma falling_centres :
  uniq (linspace3 (low_threshold falling - mean_step falling) (low_threshold falling) ++ falling ++
        linspace3 (high_threshold falling) (high_threshold falling + mean_step falling)).
Proof.
rewrite falling_low falling_high falling_step /linspace3 /falling /= !inE !negb_or !andbT.
repeat (apply/andP; split); num.
Qed.

(** The affine function is not the Frobenius norm *)
Lemma frob_A2 (t : R) : eval (@frob 2) A2 None t = Ok (Num.sqrt ((1 + t) ^+ 2 + 1)).
Proof.
rewrite /eval /frob /matrix_B /mxtrace !big_ord_recl big_ord0 !mxE !big_ord_recl !big_ord0 !mxE /=.
rewrite !addr0 !mulr1 !mulr0 !addr0; congr (Ok (Num.sqrt _)).
apply: (mulIf (x := 2%:R)); first by rewrite pnatr_eq0.
rewrite divfK ?pnatr_eq0 //. Rring.
Qed.

Lemma frob_bend (t : R) : t != 0 -> eval (@frob 2) A2 None t <> Ok (Num.sqrt 2%:R + t * 1).
Proof.
move=> Nt; rewrite frob_A2 => [[E]].
have S2 : Num.sqrt 2%:R ^+ 2 = 2%:R :> R by rewrite sqr_sqrtr ?ler0n.
have := congr1 (fun x : R => x ^+ 2) E; rewrite sqr_sqrtr; last by rewrite addr_ge0 ?sqr_ge0 ?ler01.
rewrite [(_ + t * 1) ^+ 2]sqrrD S2 mulr1 => E2.
have /eqP : t * (Num.sqrt 2%:R - 1) *+ 2 = 0.
  rewrite mulr2n; move: E2; rewrite !mulr2n; toR; simpl INR; simpl pow => E2; lra.
rewrite mulrn_eq0 /= mulf_eq0 (negbTE Nt) /= subr_eq0 => /eqP E3.
by move: S2; rewrite E3 expr1n => /eqP; rewrite eq_sym -[X in _ == X]/(1%:R) eqr_nat.
Qed.

Lemma frob_A : frob A2 = Ok (Num.sqrt 2%:R).
Proof.
have := frob_A2 0; rewrite /eval scale0r addr0 addr0 expr1n => ->. by [].
Qed.

Lemma rbf_builds s : s != [::] ->
  uniq (linspace3 (low_threshold s - mean_step s) (low_threshold s) ++ s ++
        linspace3 (high_threshold s) (high_threshold s + mean_step s)) ->
  exists I, rbf (@frob 2) A2 None table_spline table_rbf Type2 (decades s) = Ok I.
Proof.
move=> Hne Hok. have [P [HP H0]] := base_frob (decades s).
have [sA HA [_ _ Et0 Eti [_ Es _]]] := base_ok HP.
rewrite /rbf. have -> : forall (r : res (R -> res R)), (if decades s is [::] then Raise ValueError else r) = r.
  by case: (s) Hne.
rewrite HP [bind _ _]/= decades_log [bind (Ok _) _]/=.
set ys := mapM _ _. have [yi ->] : exists yi, ys = Ok yi.
  apply: mapM_total => u Hu. have {Hu} : u.1 \in decades s.
    move: Hu; rewrite Eti. move: (tau_i P) => l. clear -u. elim: (decades s) l => [|t s' IH] [|x l] //=.
    by case=> [<-|/IH H]; rewrite inE ?eqxx // H orbT.
  move=> /decades_pos Hu; eexists; by rewrite /= guardF // gt_eqF // ltr_paddl.
by rewrite [bind (Ok _) _]/= /table_rbf guardF ?Hok //=; eexists.
Qed.

Example C47_rbf_decreasing_example : exists I,
  rbf (@frob 2) A2 None table_spline table_rbf Type2 (decades falling) = Ok I /\
  I (Rpower (IZR 10) (- 6%:R)) <> eval (@frob 2) A2 None (Rpower (IZR 10) (- 6%:R)).
Proof.
set t := Rpower (IZR 10) (- 6%:R).
have [I HI] := rbf_builds (s := falling) isT falling_centres.
exists I; split=> //.
have Ht : t \in decades falling by rewrite !inE eqxx !orbT.
have tpos := decades_pos Ht.
rewrite (C47_rbf_decreasing_refuted frob_A _ Ht _ _ _ HI (sB := 1)) //.
- by move=> /esym; apply: frob_bend; rewrite gt_eqF.
- move=> u /mapP [k Hk ->]; rewrite leNgt decades_lt -leNgt.
  by move: Hk; rewrite !inE => /or4P [] /eqP ->; num.
- rewrite /= decades_lt; num.
- have := log10_power (- 6%:R) => /log10_posE [_ <-]. num.
Qed.

(** Nine points *)
Definition nine : seq R := [seq k%:R | k <- iota 1 9].
Example C47_imbf_nine_example : imbf (@frob 2) A2 None Ortho nine = Raise IndexError.
Proof.
have [P [HP _]] := base_frob nine.
have Hge t : t \in nine -> 0 <= t by move=> /mapP [k _ ->]; apply: ler0n.
exact: (proj1 (C47_imbf_nine_refuted HP Hge)).
Qed.

Example C47_crf_negative_scale_example : exists I, crf (@frob 2) A2 None Type2 (- 1) [:: 2%:R] = Ok I /\
  I 2%:R <> eval (@frob 2) A2 None 2%:R.
Proof.
apply: (C47_crf_negative_scale_refuted frob_A (sB := 1) _ _ _ _ _ (frob_A2 _)).
- by [].
- exact: oner_neq0.
- exact: ltr01.
- by rewrite ltr0n.
- num.
- have := @frob_bend 2%:R; rewrite pnatr_eq0 => /(_ isT); rewrite frob_A2 => H.
  by apply/eqP => E; apply: H; rewrite E.
Qed.

Example C47_spl_unsorted_example ft : forall I,
  spl (@frob 2) A2 None table_spline ft [:: 2%:R; 1] <> Ok I.
Proof.
apply: (C47_spl_unsorted_refuted table_spline_inc).
  by move=> t; rewrite !inE => /orP [] /eqP ->; rewrite ?ler01 ?ler0n.
by rewrite /= -[X in _ < X]/(1%:R) ltr_nat.
Qed.

(** kind='rpf' for schatten with p = -1 of a matrix with eigenvalues 1 and 3,
    which is 2 det / tr, a rational function *)
Definition harmonic (M : 'M[R]_2) : res R := Ok (2%:R * \det M / \tr M).
Definition D2 : 'M[R]_2 := \matrix_(i, j) (if i == j then if i == 0 then 1 else 3%:R else 0).

(** numpy.roots, for the polynomial t + a *)
Definition pole1 (d : seq R) : bool := if d is [:: c; a] then (c != 1) || (a < 0) else true.
Lemma pole1P : finds_poles pole1.
Proof.
move=> d t Ht; case: d => [|c [|a [|? ?]]] // E; rewrite /pole1; apply/orP.
case: eqP => Ec; last by left. right. move: E; rewrite Ec /polyval /= mul0r add0r mul1r => E.
by move: E; rewrite addrC => /eqP; rewrite addr_eq0 => /eqP ->; rewrite oppr_lt0.
Qed.

Definition two : seq R := [:: 1; 2%:R].

Lemma harmonicE (t : R) : eval harmonic D2 None t = Ok (2%:R * ((1 + t) * (3%:R + t)) / (4%:R + t + t)).
Proof.
rewrite /eval /harmonic /matrix_B; congr Ok; congr (_ * _ / _).
  rewrite (expand_det_row _ 0) !big_ord_recl big_ord0 !mxE /= mulr1 mulr0 addr0 add0r mul0r addr0.
  by rewrite /cofactor /row' /col' !det_mx11 !mxE /= expr0 mul1r mulr1.
rewrite /mxtrace !big_ord_recl big_ord0 !mxE /= !mulr1. Rring.
Qed.

Lemma harmonic_base : exists P, base harmonic D2 None two = Ok P /\ t_i P = two /\
  tau0 P = 3%:R / 2%:R /\ tau_i P = [:: 8%:R / 3%:R; 15%:R / 4%:R].
Proof.
have M : mapM (eval harmonic D2 None) two =
  Ok [:: 2%:R * ((1 + 1) * (3%:R + 1)) / (4%:R + 1 + 1);
         2%:R * ((1 + 2%:R) * (3%:R + 2%:R)) / (4%:R + 2%:R + 2%:R)].
  by rewrite /two; cbn [mapM]; rewrite !harmonicE.
have [E] := harmonicE 0; rewrite scale0r !addr0 in E.
rewrite /base M /= guardF ?oner_eq0 //=.
eexists; split; first by reflexivity.
split=> //=. rewrite !divr1 E. split.
  apply/eqP; rewrite eqr_div ?pnatr_eq0 //. apply/eqP; Rring.
have N6 : 4%:R + 1 + 1 != 0 :> R by num. have N8 : 4%:R + 2%:R + 2%:R != 0 :> R by num.
congr [:: _; _]; apply/eqP; rewrite eqr_div ?pnatr_eq0 //; apply/eqP; Rring.
Qed.

Example C47_rpf_example : exists I, rpf harmonic D2 None pole1 two = Ok I /\
  forall t, t \in two -> exists v, eval harmonic D2 None t = Ok v /\ I t = Ok v.
Proof.
have [P [HP [Et [E0 Ei]]]] := harmonic_base.
have Hpos t : t \in two -> 0 < t by rewrite !inE => /orP [] /eqP ->; rewrite ?ltr01 ?ltr0n.
have [I HI] : exists I, rpf harmonic D2 None pole1 two = Ok I; last first.
  by exists I; split=> //; have [H _] := C47_rpf pole1P Hpos HI.
rewrite /rpf /two -/two HP [bind (Ok P) _]/= /fit_rational_poly Et [size two]/=.
rewrite [guard (odd 2) _ _]/= [bind (Ok tt) _]/= guardF; last first.
  by rewrite E0 mulf_neq0 ?invr_eq0 ?pnatr_eq0.
rewrite [bind (Ok tt) _]/=.
set C := (\matrix_(_, _) _). set r := (\col__ _).
pose x : 'cV[R]_2 := \col_i (if i == 0 then 3%:R else 4%:R).
have I3 : (3%:R)^-1 = Rinv (IZR 3) :> R by rewrite RinvE ?pnatr_eq0 // RnatE INR_IZR_INZ.
have I4 : (4%:R)^-1 = Rinv (IZR 4) :> R by rewrite RinvE ?pnatr_eq0 // RnatE INR_IZR_INZ.
have Cx : C *m x = r.
  apply/matrixP => i j; rewrite !mxE !big_ord_recl big_ord0 !mxE E0 Ei.
  case: i => [[|[|?]] Hi] //; rewrite /rpf_entry /rpf_rhs /= /bump /= !expr1 -[(2 %/ 2).+1]/2%N ?expr1n ?expr1 ?expr2;
  rewrite invf_div I3 ?I4; num.
have UC : C \in unitmx.
  rewrite unitmxE unitfE (expand_det_row _ 0) !big_ord_recl big_ord0 !mxE /= addr0.
  rewrite /cofactor /row' /col' !det_mx11 !mxE /= E0 Ei /rpf_entry /= /bump /= !expr1 expr0 invf_div I3 I4.
  num.
rewrite /solve UC -Cx mulKmx // [bind (Ok x) _]/=.
have -> : [seq x j 0 | j <- enum 'I_2] = [:: 3%:R; 4%:R].
  by rewrite enum_ordSl enum_ordSl enum_ord0 /= !mxE /=.
rewrite -[(2 %/ 2).+1]/2%N /= E0 guardF; first by rewrite /=; eexists.
by rewrite eqxx /= -leNgt divr_ge0 ?divr_ge0 ?ler0n.
Qed.

(** schatten with p = 2: exactness *)
Section Mbf.
Variables (E : EigenModel.eig_routines) (F : CholModel.routines R_rcfType).
Example C48_example sym b inv : exists I, mbf (@PropMbf.schatten2 E F sym b inv 2) A2 None [:: 3%:R] = Ok I /\
  forall t, exists v, eval (@PropMbf.schatten2 E F sym b inv 2) A2 None t = Ok v /\ I t = Ok v.
Proof.
apply: PropMbf.C48_exact_for_two => //; first by rewrite trmx_const.
by right; exists 3%:R => //; rewrite pnatr_eq0.
Qed.
End Mbf.

Example C49_example : integral_to_0 (fun t => basis Ortho 3 t * basis Ortho 7 t / t) 0 /\
  integral_to_0 (fun t => basis Ortho2 8 t * basis Ortho2 8 t / t) 1.
Proof. split; [exact: (@C49_orthonormal Ortho 3 7)|exact: (@C49_orthonormal Ortho2 8 8)]. Qed.

Definition C47_assumptions := (@C47_ext, @C47_mbf, @C47_imbf, @C47_rpf, @C47_crf, @C47_spl, @C47_rbf,
  @C47_imbf_nine_refuted, @C47_crf_negative_scale_refuted, @C47_rbf_decreasing_refuted,
  @C47_spl_unsorted_refuted, @C47_spl_builds).
Print Assumptions C47_assumptions.
Print Assumptions PropMbf.C48_exact_for_two.
Print Assumptions C49_orthonormal.
Definition C58_assumptions := (@C58_imbf, @C58_crf, @C58_rbf).
Print Assumptions C58_assumptions.
