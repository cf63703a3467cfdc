(** C58: the linear systems of kind='crf' and kind='imbf' can be solved for
    every choice of distinct positive interpolation points, so that these
    interpolators can always be built (and then pass through the data, C47). *)
Require Import Reals Lra.
From mathcomp Require Import all_ssreflect all_algebra zify.
From Verif Require Import RealField InterpModel PropInterp.
Set Implicit Arguments.
Unset Strict Implicit.
Unset Printing Implicit Defensive.
Import Order.TTheory GRing.Theory Num.Theory.
Local Open Scope ring_scope.

(** ** A matrix whose kernel is trivial *)
Lemma unitmx_kernel m (C : 'M[R]_m) :
  (forall v : 'I_m -> R, (forall i, \sum_j v j * C i j = 0) -> forall j, v j = 0) -> C \in unitmx.
Proof.
move=> H. rewrite -unitmx_tr unitmxE unitfE. apply/det0P => [[v Nv E]].
move/negP: Nv; apply; apply/eqP/rowP => j; rewrite mxE.
apply: (H (fun j => v 0 j)) => i. move/rowP/(_ i): E; rewrite !mxE => E'; rewrite -[RHS]E'.
by apply: eq_bigr => k _; rewrite mxE.
Qed.

(** The largest index of a coefficient that is not zero *)
Lemma last_nonzero m (v : 'I_m -> R) :
  (forall j, v j = 0) \/ exists2 j, v j != 0 & forall i : 'I_m, (j < i)%N -> v i = 0.
Proof.
have [/forallP H|/forallPn [j0 H0]] := boolP [forall j, v j == 0]; first by left=> j; apply/eqP.
right. have [j Hj Hmax] := @arg_maxnP _ j0 (fun j => v j != 0) (fun j : 'I_m => j : nat) H0.
exists j => // i Hi. apply/eqP; apply: contraTT Hi => Hv. rewrite -leqNgt. exact: Hmax.
Qed.

(** ** The Chebyshev polynomials *)
Fixpoint cheb_polys (k : nat) : {poly R} * {poly R} :=
  if k is k'.+1 then let: (a, b) := cheb_polys k' in (b, 2%:R%:P * 'X * b - a) else (1, 'X).
Definition chebP (k : nat) : {poly R} := (cheb_polys k).1.

Lemma cheb_polysE k x :
  (eval_chebyt k x, (cheb_pair k x).2) = ((cheb_polys k).1.[x], (cheb_polys k).2.[x]).
Proof.
elim: k => [|k] /=; first by rewrite /eval_chebyt /= hornerC hornerX.
rewrite /eval_chebyt /=. case: (cheb_pair k x) => a b. case: (cheb_polys k) => p q /= [-> ->].
by rewrite hornerD hornerN !hornerM hornerC hornerX.
Qed.

Lemma chebPE k x : eval_chebyt k x = (chebP k).[x].
Proof. by have := cheb_polysE k x => [[]]. Qed.

Lemma size_cheb k : size (cheb_polys k).1 = k.+1 /\ size (cheb_polys k).2 = k.+2.
Proof.
elim: k => [|k] /=; first by rewrite size_poly1 size_polyX.
case: (cheb_polys k) => p q /= [Hp Hq]; split=> //.
have Nq : q != 0 by rewrite -size_poly_gt0 Hq.
have E : size (2%:R%:P * 'X * q) = k.+3.
  rewrite -mulrA size_Cmul ?pnatr_eq0 // mulrC size_mulX // Hq //.
by rewrite size_addl ?E // size_opp Hp.
Qed.

Lemma size_chebP k : size (chebP k) = k.+1.
Proof. by case: (size_cheb k). Qed.

Lemma chebP1 k : (chebP k).[1] = 1.
Proof.
suff: (cheb_polys k).1.[1] = 1 /\ (cheb_polys k).2.[1] = 1 by case.
elim: k => [|k] /=; first by rewrite hornerC hornerX.
case: (cheb_polys k) => p q /= [Hp Hq]; split=> //.
rewrite hornerD hornerN !hornerM hornerC hornerX Hp Hq. Rring.
Qed.

Lemma cheb_system (xi : seq R) : uniq xi -> 1 \notin xi ->
  (\matrix_(i < size xi, j < size xi) cheb_basis j xi`_i) \in unitmx.
Proof.
move=> Hu H1. set m := size xi. apply: unitmx_kernel => v Hv.
pose p : {poly R} := \sum_(j < m) (v j / 2%:R) *: (1 - chebP j.+1).
have pE x : p.[x] = \sum_(j < m) v j * cheb_basis j x.
  rewrite horner_sum; apply: eq_bigr => j _.
  by rewrite hornerZ hornerD hornerN hornerC -chebPE /cheb_basis mulrA.
have Sp : (size p <= m.+1)%N.
  apply: (leq_trans (size_sum _ _ _)). apply/bigmax_leqP => j _.
  apply: leq_trans (size_scale_leq _ _) _. apply: leq_trans (size_add _ _) _.
  by rewrite size_opp size_chebP size_poly1 geq_max /= ltnS.
have p0 : p = 0.
  apply: (@roots_geq_poly_eq0 _ p (1 :: xi)) => //=; last by rewrite H1.
  rewrite rootE pE big1 ?eqxx /=; last first.
    by move=> j _; rewrite /cheb_basis chebPE chebP1 subrr !mulr0.
  apply/allP => x /(nthP 0) [i Hi <-]. rewrite rootE pE. apply/eqP.
  rewrite -[RHS](Hv (Ordinal Hi)). by apply: eq_bigr => j _; rewrite mxE.
case: (last_nonzero v) => // [[j Nj Hj]].
have : p`_j.+1 = 0 by rewrite p0 coef0.
rewrite coef_sum (bigD1 j) //= big1 ?addr0; last first.
  move=> i Ni. rewrite coefZ coefB coef1 /=. have [/Hj -> |Hi] := ltnP j i; first by rewrite !mul0r.
  rewrite nth_default ?subrr ?mulr0 // size_chebP ltnS ltn_neqAle Hi andbT; exact: Ni.
rewrite coefZ coefB coef1 /= sub0r mulrN => /eqP; rewrite oppr_eq0 !mulf_eq0 (negbTE Nj) /=.
rewrite invr_eq0 pnatr_eq0 /=. have <- : lead_coef (chebP j.+1) = (chebP j.+1)`_j.+1.
  by rewrite lead_coefE size_chebP.
by rewrite lead_coef_eq0 -size_poly_eq0 size_chebP.
Qed.

(** ** Sums of real powers: with k distinct exponents and k positive zeros, all
    coefficients are zero *)
Definition power_sum (l : seq (R * R)) (t : R) : R := \sum_(u <- l) u.1 * Rpower t u.2.
Definition shift (e : R) (l : seq (R * R)) := [seq (u.1, u.2 - e) | u <- l].
Definition deriv (l : seq (R * R)) := [seq (u.1 * u.2, u.2 - 1) | u <- l].

Lemma Rpower0 (t : R) : Rpower t (0 : R) = (1 : R).
Proof. by rewrite -[LHS]/(Rpower t (IZR 0)) /Rpower Rmult_0_l exp_0. Qed.

Lemma power_sum_shift e l t : power_sum (shift e l) t = power_sum l t * Rpower t (- e).
Proof.
rewrite /power_sum /shift big_map big_distrl; apply: eq_bigr => u _ /=.
by rewrite -mulrA Rpower_plus.
Qed.

Lemma power_sum_derive l t : 0 < t -> derivable_pt_lim (power_sum l) t (power_sum (deriv l) t).
Proof.
move=> /RltP Ht. elim: l => [|u l IH].
  have -> : power_sum [::] = fct_cte 0.
    by apply: FunctionalExtensionality.functional_extensionality => x; rewrite /power_sum big_nil.
  exact: derivable_pt_lim_const.
have -> : power_sum (u :: l) = plus_fct (mult_real_fct u.1 (fun x => Rpower x u.2)) (power_sum l).
  by apply: FunctionalExtensionality.functional_extensionality => x; rewrite /power_sum big_cons.
rewrite {2}/power_sum /= big_cons /=. apply: derivable_pt_lim_plus => //.
rewrite -mulrA. apply: derivable_pt_lim_scal. exact: derivable_pt_lim_power.
Qed.

Lemma rolle_list (g g' : R -> R) : (forall x, 0 < x -> derivable_pt_lim g x (g' x)) ->
  forall (z : seq R) (z0 : R), 0 < z0 -> path <%R z0 z -> (forall x, x \in z0 :: z -> g x = 0) ->
  exists z', [/\ size z' = size z, path <%R z0 z' & forall x, x \in z' -> g' x = 0].
Proof.
move=> Hd; elim=> [|z1 z IH] z0 H0 /=; first by exists [::].
move=> /andP [H01 Hp] Hz. have H1 := lt_trans H0 H01.
have [z' [Ez Pz Zz]] := IH z1 H1 Hp (fun x Hx => Hz x (mem_behead (s := z0 :: z1 :: z) Hx)).
have [c [Ec [/RltP Hc0 /RltP Hc1]]] : exists c, (Rminus (g z1) (g z0) = Rmult (g' c) (Rminus z1 z0) /\
   Rlt z0 c /\ Rlt c z1)%R.
  have [|c [E H]] := MVT_cor2 g g' z0 z1 (elimT (RltP _ _) H01); last by exists c; split.
  move=> x [/RleP Hx _]. by apply: Hd; apply: lt_le_trans Hx.
exists (c :: z'); split=> /=; first by rewrite Ez.
  rewrite Hc0 /=. case: z' Pz {Ez Zz} => //= y z' /andP [Hy ->]; rewrite andbT. exact: lt_trans Hy.
move=> x; rewrite inE => /orP [/eqP ->|/Zz //].
move: Ec. rewrite !Hz ?mem_head //; last by rewrite !inE eqxx orbT.
move=> E. have {}E : g' c * (z1 - z0) = 0 by rewrite -[LHS]/(Rmult (g' c) (Rminus z1 z0)) -E; Rring.
by move/eqP: E; rewrite mulf_eq0 subr_eq0 [z1 == _]gt_eqF // orbF => /eqP.
Qed.

Theorem power_sum_zeros (l : seq (R * R)) (z : seq R) : uniq [seq u.2 | u <- l] -> sorted <%R z ->
  (forall x, x \in z -> 0 < x) -> (size l <= size z)%N -> (forall x, x \in z -> power_sum l x = 0) ->
  forall u, u \in l -> u.1 = 0.
Proof.
have [k] := ubnP (size l). elim: k l z => // k IH [|[c0 e0] l] z // Hsz Hu Hs Hpos Hle Hz u.
case: z Hs Hpos Hle Hz => // z0 z Hs Hpos Hle Hz.
have Hz0 : 0 < z0 by apply: Hpos; rewrite mem_head.
pose g t := c0 + power_sum (shift e0 l) t.
have gE t : g t = power_sum ((c0, e0) :: l) t * Rpower t (- e0).
  rewrite -power_sum_shift /power_sum big_cons /= subrr. rewrite /g. congr (_ + _).
  by rewrite Rpower0 mulr1.
have gder x : 0 < x -> derivable_pt_lim g x (power_sum (deriv (shift e0 l)) x).
  move=> Hx. rewrite -[power_sum (deriv _) x]add0r.
  by apply: (derivable_pt_lim_plus (fct_cte c0)); [exact: derivable_pt_lim_const|exact: power_sum_derive].
have [|z' [Ez Pz Zz]] := rolle_list gder Hz0 Hs _.
  by move=> x Hx; rewrite gE Hz // mul0r.
have {}IH := IH (deriv (shift e0 l)) z' _ _ _ _ _ Zz.
have c_zero v : v \in l -> v.1 = 0.
  move=> Hv. have := IH _ _ _ _ _ (v.1 * (v.2 - e0), v.2 - e0 - 1).
  move=> /(_ _ _ _ _ _ _) H. have {}H : v.1 * (v.2 - e0) = 0.
    apply: H; rewrite ?size_map //.
    - move: Hu => /= /andP [_ Hu]. rewrite /deriv /shift -!map_comp.
      have -> : map (snd \o (fun u0 : R * R => (u0.1 * u0.2, u0.2 - 1)) \o (fun u0 => (u0.1, u0.2 - e0))) l =
                map (fun e => e - e0 - 1) (map snd l) by rewrite -map_comp.
      by rewrite map_inj_uniq // => a b /addIr /addIr.
    - exact: path_sorted Pz.
    - move=> x Hx. apply: lt_trans Hz0 _. move: Pz; rewrite (path_sortedE lt_trans) => /andP [/allP H _].
      exact: H.
    - by rewrite Ez.
    - apply/mapP; exists (v.1, v.2 - e0) => //. by apply/mapP; exists v.
  move/eqP: H; rewrite mulf_eq0 subr_eq0 => /orP [/eqP //|/eqP E].
  by move: Hu => /= /andP [/negP []]; rewrite -E; apply: map_f.
rewrite inE => /orP [/eqP -> /=|/c_zero //].
have := gE z0. rewrite Hz ?mem_head // mul0r /g => <-.
rewrite /power_sum /shift big_map big_seq big1 ?addr0 // => v Hv; by rewrite /= (c_zero v Hv) mul0r.
Qed.

Lemma solve_total q (C : 'M[R]_q) b : C \in unitmx -> exists w, solve C b = Ok w.
Proof. by rewrite /solve => ->; eexists. Qed.

Lemma base_total n (sch : 'M[R]_n -> res R) A B ti P : base sch A B ti = Ok P ->
  t_i P = ti /\ size (tau_i P) = size ti.
Proof. by move=> /base_ok [sA _ [_ _ _ -> [_ -> _]]]. Qed.

Lemma In_zip (T U : eqType) (s : seq T) (l : seq U) u : List.In u (zip s l) -> u.1 \in s.
Proof.
elim: s l => [|t s IH] [|x l] //= [<-|/IH H]; first by rewrite mem_head.
by rewrite inE H orbT.
Qed.

Lemma In_mem (T : eqType) (s : seq T) u : List.In u s -> u \in s.
Proof. by elim: s => //= t s IH [<-|/IH H]; rewrite inE ?eqxx // H orbT. Qed.

(** [P] is what the constructor computes before it sets up the system *)
Section C58.
Variables (n : nat) (sch : 'M[R]_n -> res R).
Variables (A : 'M[R]_n) (B : option 'M[R]_n).
Local Notation base := (base sch A B).

Lemma cayley_inj (s t u : R) : 0 < s -> 0 < t -> 0 < u ->
  (t / s - 1) / (t / s + 1) = (u / s - 1) / (u / s + 1) -> t = u.
Proof.
move=> Hs Ht Hu. have D (x : R) : 0 < x -> (x - 1) / (x + 1) = 1 - 2%:R / (x + 1).
  move=> Hx; have N : x + 1 != 0 by rewrite gt_eqF // addr_gt0 ?ltr01.
  have -> : x - 1 = (x + 1) - 2%:R by Rring. by rewrite mulrBl divff.
rewrite !D ?divr_gt0 // => /addrI /oppr_inj /mulfI.
rewrite pnatr_eq0 => /(_ isT) /invr_inj /addIr /mulIf. apply. by rewrite invr_eq0 gt_eqF.
Qed.

Theorem C58_crf ft s ti P : base ti = Ok P -> 0 <= tau0 P -> 0 < s -> ti != [::] ->
  (forall t, t \in ti -> 0 < t) -> uniq ti -> exists I, crf sch A B ft s ti = Ok I.
Proof.
move=> HP Ht0 Hs Hne Hgt Hu. rewrite /crf.
have -> : forall (r : res (R -> res R)), (if ti is [::] then Raise ValueError else r) = r.
  by case: (ti) Hne.
rewrite HP /=. have [Eti Es] := base_total HP.
have [yi Hyi] : exists yi, ratios ft P = Ok yi.
  apply: mapM_total => u; rewrite Eti => /In_zip /Hgt Hu'.
  by case: (ft) => /=; eexists; rewrite guardF // gt_eqF // ltr_paddl.
rewrite Hyi /= /linear_system (gtr0_norm Hs).
have IE (t : R) : 0 < t -> to_interval s t = Ok ((t / s - 1) / (t / s + 1)).
  move=> Ht. rewrite /to_interval guardF ?(gt_eqF Hs) //= guardF //.
  by rewrite gt_eqF // addr_gt0 ?divr_gt0 ?ltr01.
have [xs Hxs] : exists xs, mapM (to_interval s) ti = Ok xs.
  by apply: mapM_total => u /In_mem /Hgt /IE ->; eexists.
rewrite Hxs /=. have [Ex Hx] := mapM_ok 0 0 Hxs.
have xsE k : (k < size ti)%N -> xs`_k = (ti`_k / s - 1) / (ti`_k / s + 1).
  by move=> Hk; have := Hx _ Hk; rewrite IE ?Hgt ?mem_nth // => [[]].
have Huxs : uniq xs.
  apply/(uniqP 0) => i j; rewrite !inE Ex => Hi Hj; rewrite !xsE // => /cayley_inj E.
  by apply/eqP; rewrite -(nth_uniq 0 Hi Hj Hu); apply/eqP/E => //; apply/Hgt/mem_nth.
have bounds x : x \in xs -> -1 < x < 1.
  move=> /(nthP 0) [k]; rewrite Ex => Hk <-. rewrite xsE //.
  set z := ti`_k / s. have Hz : 0 < z by rewrite divr_gt0 // Hgt ?mem_nth.
  have Hz1 : 0 < z + 1 by rewrite addr_gt0 ?ltr01.
  rewrite ltr_pdivr_mulr // ltr_pdivl_mulr // mul1r mulN1r ltr_add2l opprD ltr_add2r.
  by rewrite -subr_gt0 opprK addr_gt0 //= -subr_gt0 opprK addr_gt0 ?ltr01.
set xi := if ft is Type1 then _ else _.
have [||w ->] := solve_total (\col_i (if ft is Type1 then 0 :: yi else yi)`_i) (cheb_system (xi := xi) _ _).
- rewrite /xi; case: (ft) => //=; rewrite Huxs andbT.
  by apply/negP => /bounds; rewrite ltxx.
- rewrite /xi; case: (ft); last by apply/negP => /bounds; rewrite ltxx andbF.
  rewrite inE negb_or; apply/andP; split; last by apply/negP => /bounds; rewrite ltxx andbF.
  by rewrite -subr_eq0 opprK gt_eqF // addr_gt0 ?ltr01.
by eexists.
Qed.

Lemma power_sum_zeros_uniq (l : seq (R * R)) (z : seq R) : uniq [seq u.2 | u <- l] -> uniq z ->
  (forall x, x \in z -> 0 < x) -> (size l <= size z)%N -> (forall x, x \in z -> power_sum l x = 0) ->
  forall u, u \in l -> u.1 = 0.
Proof.
move=> Hl Hz Hpos Hsz H. apply: (@power_sum_zeros l (sort <=%R z)) => //.
- by rewrite lt_sorted_uniq_le sort_uniq Hz sort_sorted //; apply: le_total.
- by move=> x; rewrite mem_sort; apply: Hpos.
- by rewrite size_sort.
- by move=> x; rewrite mem_sort; apply: H.
Qed.

Lemma phi_system k m (c : 'I_m -> R) (z : seq R) : (0 < k)%N -> uniq z -> (forall x, x \in z -> 0 < x) ->
  (m <= size z)%N -> (forall x, x \in z -> \sum_(i < m) c i * phi (i + k) x = 0) -> forall i, c i = 0.
Proof.
move=> Hk Hu Hpos Hm H i.
apply: (@power_sum_zeros_uniq [seq (c i, 1 / (i + k)%:R) | i <- enum 'I_m] z _ Hu Hpos _ _ (c i, 1 / (i + k)%:R)).
- rewrite -map_comp map_inj_uniq ?enum_uniq // => a b /= /(mulfI (oner_neq0 _)) /invr_inj /eqP.
  by rewrite eqr_nat eqn_add2r => /eqP /val_inj.
- by rewrite size_map size_enum_ord.
- move=> x Hx. rewrite -[RHS](H x Hx) /power_sum big_map big_enum /=. apply: eq_bigr => j _.
  rewrite /phi Hpos // -RdivE ?pnatr_eq0 ?addn_eq0 //; by case: (k) Hk.
- by apply/mapP; exists i; rewrite ?mem_enum.
Qed.

(** The tables are lower triangular, with diagonals that are not zero *)
Lemma table_upper b j i : (j < i)%N -> coef_a b j i = 0.
Proof.
move=> H. rewrite /coef_a nth_default //; apply: leq_trans H.
by case: b; do 9 (case: j => [//|j]); rewrite [nth _ _ _]nth_default //=; case: j.
Qed.

Lemma table_diag b j : b <> NonOrtho -> (j < num_basis)%N -> (alpha b)`_j * coef_a b j j != 0.
Proof.
move=> Hb Hj. apply: mulf_neq0.
  have Nroot k : (0 < k)%N -> root k != 0.
    by move=> Hk; rewrite gt_eqF // sqrtr_gt0 divr_gt0 ?ltr0n.
  by case: b Hb => // _; do 9 (case: j Hj => [_|j Hj]; [by rewrite /= ?oppr_eq0 Nroot|]).
have NZ (x : Z) : x <> Z0 -> IZR x != 0 by move=> Hx; apply/eqP/not_0_IZR.
by case: b Hb => // _; do 9 (case: j Hj => [_|j Hj]; [by rewrite /coef_a /= NZ|]).
Qed.

(** The combination of basis functions with coefficients [v] is a combination of
    the powers with the coefficients [expand v] *)
Definition expand b m (v : 'I_m -> R) (i : nat) : R := \sum_(j < m) v j * ((alpha b)`_j * coef_a b j i).

Lemma expand_zero b m (v : 'I_m -> R) : b <> NonOrtho -> (m <= num_basis)%N ->
  (forall i : 'I_m, expand b v i = 0) -> forall j, v j = 0.
Proof.
move=> Hb Hm H. case: (last_nonzero v) => // [[j Nj Hj]].
have := H j. rewrite /expand (bigD1 j) //= big1 ?addr0; last first.
  move=> i Ni. have [/Hj -> |Hi] := ltnP j i; first by rewrite mul0r.
  rewrite (@table_upper b i j) ?mulr0 // ltn_neqAle Hi andbT. exact: Ni.
move=> /eqP; rewrite mulf_eq0 (negbTE Nj) /= => /eqP E.
by have := table_diag Hb (leq_trans (ltn_ord j) Hm); rewrite E eqxx.
Qed.

Lemma expandE b m (v : 'I_m -> R) t : b <> NonOrtho -> (m <= num_basis)%N ->
  \sum_(j < m) v j * basis b j t =
  \sum_(i < m) expand b v i * phi (i + (if b is Ortho then 1 else 2)) t.
Proof.
move=> Hb Hm.
have bE j : basis b j t = \sum_(i < num_basis) (alpha b)`_j * coef_a b j i *
    phi (i + (if b is Ortho then 1 else 2)) t.
  by case: b Hb => //= _; apply: eq_bigr => i _; rewrite ?addn1 ?addn2.
move: bE. set k := (if b is Ortho then _ else _) => bE.
rewrite (big_ord_widen _ (fun i => expand b v i * phi (i + k) t) Hm).
rewrite [RHS]big_mkcond /=.
rewrite (eq_bigr (fun j => \sum_(i < num_basis) v j * ((alpha b)`_j * coef_a b j i) * phi (i + k) t)); last first.
  by move=> j _; rewrite bE big_distrr /=; apply: eq_bigr => i _; rewrite !mulrA.
rewrite exchange_big /=. apply: eq_bigr => i _. rewrite -big_distrl /= -/(expand b v i).
case: ifP => // /negbT; rewrite -leqNgt => Hi.
rewrite /expand big1 ?mul0r // => j _. by rewrite table_upper ?mulr0 // (leq_trans (ltn_ord j)).
Qed.

Lemma scale_gt0 ti : 0 < find_scale ti.
Proof.
case: ti => [|t s] /=; first exact: ltr01.
by case: ifP => H; rewrite ?ltr01 // (lt_trans ltr01 H).
Qed.

Lemma imbf_system b ti s : (forall t, t \in ti -> 0 < t) -> uniq ti -> 0 < s ->
  (size ti <= num_basis)%N ->
  (\matrix_(i < size ti, j < size ti) basis b j (ti`_i / s)) \in unitmx.
Proof.
move=> Hgt Hu Hs Hq. apply: unitmx_kernel => v Hv. pose z := [seq t / s | t <- ti].
have Hz : uniq z by rewrite map_inj_uniq // => x y /mulIf; apply; rewrite invr_eq0 gt_eqF.
have Pz x : x \in z -> 0 < x by move=> /mapP [t /Hgt Ht ->]; rewrite divr_gt0.
have Vz x : x \in z -> \sum_(j < size ti) v j * basis b j x = 0.
  move=> /mapP [t /(nthP 0) [i Hi <-] ->]. rewrite -[RHS](Hv (Ordinal Hi)).
  by apply: eq_bigr => j _; rewrite mxE.
have Hb : b = NonOrtho \/ b <> NonOrtho by case: (b); [left|right|right].
case: Hb => [Eb|Nb].
  apply: (@phi_system 2 _ v z) => //; first by rewrite size_map.
  by move=> x /Vz; rewrite Eb => E; rewrite -[RHS]E; apply: eq_bigr => j _; rewrite addn2.
apply: (expand_zero Nb Hq) => i.
apply: (@phi_system (if b is Ortho then 1 else 2) _ (fun i => expand b v i) z) => //.
- by case: (b).
- by rewrite size_map.
- by move=> x /Vz; rewrite expandE.
Qed.

Lemma imbf_system_nonortho ti : (forall t, t \in ti -> 0 < t) -> uniq ti ->
  (\matrix_(i < size ti, j < size ti) basis NonOrtho j ti`_i) \in unitmx.
Proof.
move=> Hgt Hu. apply: unitmx_kernel => v Hv.
apply: (@phi_system 2 _ v ti) => // x /(nthP 0) [i Hi <-]. rewrite -[RHS](Hv (Ordinal Hi)).
by apply: eq_bigr => j _; rewrite mxE addn2.
Qed.

Lemma ortho_system ti s : (forall t, t \in ti -> 0 < t) -> uniq ti -> 0 < s ->
  (size ti < num_basis)%N ->
  (\matrix_(i < (size ti).+1, j < (size ti).+1)
     if (i < size ti)%N then basis Ortho j (ti`_i / s)
     else (alpha Ortho)`_j * coef_a Ortho j 0) \in unitmx.
Proof.
move=> Hgt Hu Hs Hq. apply: unitmx_kernel => v Hv. pose z := [seq t / s | t <- ti].
have Hz : uniq z by rewrite map_inj_uniq // => x y /mulIf; apply; rewrite invr_eq0 gt_eqF.
have Pz x : x \in z -> 0 < x by move=> /mapP [t /Hgt Ht ->]; rewrite divr_gt0.
have V0 : expand Ortho v 0 = 0.
  rewrite -[RHS](Hv ord_max). by apply: eq_bigr => j _; rewrite mxE /= ltnn.
have Vz x : x \in z -> \sum_(j < (size ti).+1) v j * basis Ortho j x = 0.
  move=> /mapP [t /(nthP 0) [i Hi <-] ->].
  have Hi' : (i < (size ti).+1)%N by apply: ltnW.
  rewrite -[RHS](Hv (Ordinal Hi')). by apply: eq_bigr => j _; rewrite mxE /= Hi.
apply: (@expand_zero Ortho) => //.
have H : forall i : 'I_(size ti), expand Ortho v i.+1 = 0.
  apply: (@phi_system 2 _ (fun i => expand Ortho v i.+1) z) => //; first by rewrite size_map.
  move=> x /Vz; rewrite expandE // big_ord_recl V0 mul0r add0r => E; rewrite -[RHS]E.
  by apply: eq_bigr => i _; rewrite /bump /= addn1 addn2.
case=> [[|i]] Hi /=; first exact: V0. exact: (H (Ordinal (Hi : (i < size ti)%N))).
Qed.

(** The number of points a basis allows *)
Definition room (b : basis_type) (q : nat) : bool :=
  match b with NonOrtho => true | Ortho => (q < num_basis)%N | Ortho2 => (q <= num_basis)%N end.

Theorem C58_imbf b ti P : base ti = Ok P -> ti != [::] -> room b (size ti) ->
  (forall t, t \in ti -> 0 < t) -> uniq ti -> exists I, imbf sch A B b ti = Ok I.
Proof.
move=> HP Hne Hroom Hgt Hu. rewrite /imbf.
have -> : forall (r : res (R -> res R)), (if ti is [::] then Raise ValueError else r) = r.
  by case: (ti) Hne.
have [sA _ [_ _ _ _ [Esc _ _]]] := base_ok HP. rewrite HP /=.
have -> : imbf_check b (size ti) = Ok tt.
  by case: b Hroom => //= H; rewrite guardF // -leqNgt // ltnW.
rewrite /= guardF /=; last first.
  by apply/negP => /hasP [x /Hgt Hx]; apply/negP; rewrite -leNgt ltW.
have Hs := scale_gt0 ti. rewrite Esc.
case: b Hroom => /= Hroom.
- have [w ->] := solve_total (\col_i ((tau_i P)`_i - tau0 P - ti`_i)) (imbf_system_nonortho Hgt Hu).
  by eexists.
- rewrite guardF -?ltnNge //=.
  have [w ->] := solve_total (\col_i if (i < size ti)%N then (tau_i P)`_i - tau0 P else 1) (ortho_system Hgt Hu Hs Hroom).
  by eexists.
- have [w ->] := solve_total (\col_i ((tau_i P)`_i - tau0 P - ti`_i)) (imbf_system Ortho2 Hgt Hu Hs Hroom).
  by eexists.
Qed.
End C58.
