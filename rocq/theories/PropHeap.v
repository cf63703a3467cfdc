(** Memory released by a sample: C33. *)
From mathcomp Require Import all_ssreflect.
From mathcomp Require Import zify.
From Verif Require Import Mem HeapModel.
Set Implicit Arguments.
Unset Strict Implicit.
Unset Printing Implicit Defensive.

(** The blocks of the heap are exactly L, and new identifiers are fresh. *)
Definition owns (h : heap) (L : seq nat) : Prop :=
  perm_eq (live h) L /\ all (fun p => p < next h) (live h).

Lemma owns_new h L : owns h L -> owns (new h).1 ((new h).2 :: L).
Proof.
case=> H1 H2; split; rewrite /= ?perm_cons // ltnSn /=.
by apply: sub_all H2 => p Hp; apply: ltnW.
Qed.

Lemma owns_perm h L L' : owns h L -> perm_eq L L' -> owns h L'.
Proof. by case=> H1 H2 H; split=> //; apply: perm_trans H1 H. Qed.

Lemma owns_delete h L p : owns h (p :: L) -> exists2 h', delete h p = Some h' & owns h' L.
Proof.
case=> H1 H2; have Hp : p \in live h by rewrite (perm_mem H1) mem_head.
rewrite /delete Hp; eexists; first reflexivity.
split=> /=; last by apply/allP => x /mem_rem; apply: (allP H2).
by have := perm_to_rem Hp; rewrite (perm_sym _ (p :: _)) => H; rewrite -(perm_cons p); apply: perm_trans H H1.
Qed.

Lemma owns_scratch k h L : owns h L -> exists2 h', scratch k h = Some h' & owns h' L.
Proof.
elim: k h L => [|k IH] h L H /=; first by exists h.
have [h1 -> H1] := IH _ _ (owns_new H).
exact: owns_delete H1.
Qed.

Arguments scratch : simpl never.

Lemma new_rowsP q h L : owns h L ->
  exists r, [/\ new_rows q h = Some r, size r.2 = q & owns r.1 (r.2 ++ L)].
Proof.
move=> H.
pose I k (s : heap * seq nat) := size s.2 = k /\ owns s.1 (s.2 ++ L).
have B k s : 0 <= k < q -> I k s ->
    exists2 s', (let: (h, p) := new s.1 in Some (h, rcons s.2 p)) = Some s' & I k.+1 s'.
  move=> _ [E Hs]; eexists; first reflexivity.
  split=> /=; first by rewrite size_rcons E.
  apply: owns_perm (owns_new Hs) _.
  by rewrite cat_rcons -cat1s perm_catCA perm_refl.
have [s Es [E Hs]] := @for1_inv _ I 0 q _ (h, [::]) (leq0n q) (conj erefl H) B.
by exists s.
Qed.

Lemma delete_rowsP required rows h L : required <= size rows -> owns h (rows ++ L) ->
  exists2 h', delete_rows required rows h = Some h' & owns h' (drop required rows ++ L).
Proof.
move=> Hr H.
apply: (@for1_inv heap (fun k h => owns h (drop k rows ++ L))); rewrite ?drop0 //.
move=> k h1 /andP [_ Hk] H1; have Hk' : k < size rows by apply: leq_trans Hk Hr.
move: H1; rewrite (drop_nth 0 Hk') (rdE 0 Hk') /= => H1.
exact: owns_delete H1.
Qed.

Definition opt_seq (p : option nat) : seq nat := if p is Some p then [:: p] else [::].

Lemma owns_delete_opt h p L : owns h (opt_seq p ++ L) ->
  exists2 h', delete_opt h p = Some h' & owns h' L.
Proof. by case: p => [p|] /= H; [exact: owns_delete|exists h]. Qed.

Definition held (vs : vectors) : seq nat := opt_seq (eigvec vs) ++ opt_seq (lsv vs) ++ opt_seq (rsv vs).

(** The inquiries a sample iterates on. *)
Definition computed (q required : nat) (converged : seq bool) (k : nat) : nat :=
  count (fun j => ~~ (nth false converged j && (required == q))) (iota 0 k).

Lemma computedS q required converged k : computed q required converged k.+1 =
  computed q required converged k + ~~ (nth false converged k && (required == q)).
Proof. by rewrite /computed -addn1 iotaD count_cat add0n /= addn0. Qed.

Lemma iterationsP (gram : bool) q required converged h L :
  required <= size converged -> owns h L ->
  exists r lost,
    [/\ iterations gram q required converged h = Some r,
        owns r.1 (held r.2 ++ lost ++ L)
      & size lost = (if gram then 2 else 1) * (computed q required converged required).-1].
Proof.
move=> Hs H.
pose w := if gram then 2 else 1.
pose I k (s : heap * vectors) := exists lost,
     [/\ owns s.1 (held s.2 ++ lost ++ L),
         size lost = w * (computed q required converged k).-1,
         (0 < computed q required converged k -> size (held s.2) = w),
         (computed q required converged k = 0 -> held s.2 = [::])
       & if gram then eigvec s.2 = None else lsv s.2 = None /\ rsv s.2 = None].
have I0 : I 0 (h, Vectors None None None).
  by exists [::]; split=> //; [rewrite muln0|case: (gram)].
rewrite /iterations; set f := (f in for_ 0 required 1 f _).
have B k s : 0 <= k < required -> I k s -> exists2 s', f k s = Some s' & I k.+1 s'.
  move=> /andP [_ Hk] [lost [H1 H2 H3 H4 H5]].
  have Hk' : k < size converged by apply: leq_trans Hk Hs.
  rewrite /f (rdE false Hk') [obind _ _]/= {f}.
  case Ec: (nth false converged k && (required == q)).
    by exists s => //; exists lost; rewrite computedS Ec addn0.
  have Hc : computed q required converged k.+1 = (computed q required converged k).+1.
    by rewrite computedS Ec addn1.
  have Hl : size (held s.2 ++ lost) = w * computed q required converged k.
    rewrite size_cat H2; case Ek: (computed _ _ _ k) => [|c].
      by rewrite H4 ?Ek ?muln0.
    by rewrite H3 ?Ek //= mulnS.
  clear H2 H3 H4; rewrite /I; move: Hl; rewrite /w => Hl; clear I I0 w; case: (gram) H5 Hl => H5 Hl.
    have [h1 -> O1] := owns_scratch 2 H1.
    have /= O2 := owns_new (owns_new O1); rewrite [obind _ _]/=.
    have [h4 -> {}O3] := owns_scratch 2 O2.
    rewrite [obind _ _]/=; eexists; first reflexivity.
    exists (held s.2 ++ lost); rewrite Hc /=; split=> //; last by rewrite /held H5.
    rewrite /held /= H5 /=; apply: owns_perm O3 _.
    by apply/permP => x; rewrite /held H5 /= !count_cat; lia.
  have [h1 -> O1] := owns_scratch 2 H1.
  have /= O2 := owns_new O1; rewrite [obind _ _]/=.
  have [h4 -> O3] := owns_scratch 1 O2.
  rewrite [obind _ _]/=; eexists; first reflexivity.
  case: H5 => E1 E2; exists (held s.2 ++ lost); rewrite Hc /=; split=> //.
    apply: owns_perm O3 _; apply/permP => x.
    by rewrite /held /= !count_cat E1 E2 /=; lia.
  by rewrite /held /= E1 E2.
have [s Es [lost [H1 H2 _ _ _]]] := @for1_inv _ I 0 required f _ (leq0n _) I0 B.
by exists s, lost.
Qed.

(** What a sample leaves behind: exactly the given blocks plus a number of lost
    ones; no block is released twice and none that was not allocated. *)
Theorem C33_lost_memory (known gram : bool) q converged h L :
  owns h L -> 0 < q -> size converged = q ->
  exists h' lost,
    [/\ sample_memory known gram q converged h = Some h',
        owns h' (lost ++ L)
      & size lost = if known then 2 * q.-1
                    else (if gram then 2 else 1) * (count (fun c => ~~ c) converged).-1].
Proof.
move=> H0 q0 Hs.
rewrite /sample_memory.
have O1 := owns_new H0; case: (new h) O1 => h1 alpha O1; rewrite /= in O1.
have O2 := owns_new O1; case: (new h1) O2 => h2 beta O2; rewrite /= in O2.
have O3 := owns_new O2; case: (new h2) O3 => h3 theta O3; rewrite /= in O3.
set required := if known then 1 else q.
have Hr : required <= q by rewrite /required; case: (known).
have [[h4 thetas] [-> S4 O4]] := new_rowsP q O3; rewrite [obind _ _]/=; rewrite /= in O4.
have /= O5 := owns_new O4; pose tau := next h4.
have [[h6 taus] [-> S6 O6]] := new_rowsP q O5; rewrite [obind _ _]/=; rewrite /= in O6.
have /= O7 := owns_new O6; pose ls := next h6; rewrite -/tau in O7 *; rewrite -/ls in O7 *.
have [|[h8 vs] [lost [-> O8 S8]]] := iterationsP gram q (required := required) (converged := converged) _ O7.
  by rewrite Hs.
rewrite [obind _ _]/=; rewrite /= in O8 S8 S6 S4.
set D1 := drop required thetas; set D2 := drop required taus.
have [h9 -> O9] : exists2 h', delete h8 alpha = Some h' &
    owns h' (held vs ++ lost ++ ls :: taus ++ tau :: thetas ++ theta :: beta :: L).
  apply: owns_delete; apply: owns_perm O8 _.
  by apply/permP => x; do 6![rewrite ?count_cat /=]; lia.
rewrite [obind _ _]/=.
have [h10 -> O10] : exists2 h', delete h9 beta = Some h' &
    owns h' (held vs ++ lost ++ ls :: taus ++ tau :: thetas ++ theta :: L).
  apply: owns_delete; apply: owns_perm O9 _.
  by apply/permP => x; do 6![rewrite ?count_cat /=]; lia.
rewrite [obind _ _]/=.
have [h11 -> O11] : exists2 h', delete h10 ls = Some h' &
    owns h' (held vs ++ lost ++ taus ++ tau :: thetas ++ theta :: L).
  apply: owns_delete; apply: owns_perm O10 _.
  by apply/permP => x; do 6![rewrite ?count_cat /=]; lia.
rewrite [obind _ _]/=.
have [h12 -> O12] : exists2 h', delete_rows required thetas h11 = Some h' &
    owns h' (D1 ++ held vs ++ lost ++ taus ++ tau :: theta :: L).
  apply: delete_rowsP; rewrite ?S4 //; apply: owns_perm O11 _.
  by apply/permP => x; do 6![rewrite ?count_cat /=]; lia.
rewrite [obind _ _]/=.
have [h13 -> O13] : exists2 h', delete h12 theta = Some h' &
    owns h' (D1 ++ held vs ++ lost ++ taus ++ tau :: L).
  apply: owns_delete; apply: owns_perm O12 _.
  by apply/permP => x; do 6![rewrite ?count_cat /=]; lia.
rewrite [obind _ _]/=.
have [h14 -> O14] : exists2 h', delete_rows required taus h13 = Some h' &
    owns h' (D2 ++ D1 ++ held vs ++ lost ++ tau :: L).
  apply: delete_rowsP; rewrite ?S6 //; apply: owns_perm O13 _.
  by apply/permP => x; do 6![rewrite ?count_cat /=]; lia.
rewrite [obind _ _]/=.
have [h15 -> O15] : exists2 h', delete h14 tau = Some h' &
    owns h' (D2 ++ D1 ++ held vs ++ lost ++ L).
  apply: owns_delete; apply: owns_perm O14 _.
  by apply/permP => x; do 6![rewrite ?count_cat /=]; lia.
rewrite [obind _ _]/=.
have [h16 -> O16] : exists2 h', delete_opt h15 (eigvec vs) = Some h' &
    owns h' (opt_seq (lsv vs) ++ opt_seq (rsv vs) ++ D2 ++ D1 ++ lost ++ L).
  apply: owns_delete_opt; apply: owns_perm O15 _; rewrite /held.
  by apply/permP => x; rewrite !count_cat; lia.
rewrite [obind _ _]/=.
have [h17 -> O17] := owns_delete_opt O16; rewrite [obind _ _]/=.
have [h18 -> O18] := owns_delete_opt O17.
exists h18, (D2 ++ D1 ++ lost); split=> //; first by rewrite -!catA.
rewrite !size_cat !size_drop S4 S6 S8 /required /computed.
case: known {Hr S8 O8 O9 O10 O11 O12 O13 O14 O15 O16 O17 O18 D1 D2 required} => /=.
  by case: (_ && _); case: (gram); rewrite /= ?muln0; lia.
rewrite subnn !add0n; congr (_ * _.-1).
have -> : converged = [seq nth false converged j | j <- iota 0 q].
  by rewrite -Hs -[LHS](mkseq_nth false).
rewrite count_map; apply: eq_in_count => j; rewrite mem_iota add0n /= => Hj.
by rewrite eqxx andbT (nth_map 0) ?size_iota // nth_iota.
Qed.

(** Nothing is lost with a single inquiry. *)
Theorem C33_released_partial (known gram : bool) converged h L :
  owns h L -> size converged = 1 ->
  exists2 h', sample_memory known gram 1 converged h = Some h' & owns h' L.
Proof.
move=> H0 Hs; have [h' [lost [E O S]]] := C33_lost_memory known gram H0 (ltn0Sn 0) Hs.
exists h' => //; suff Hl : lost = [::] by rewrite Hl in O.
apply: size0nil; rewrite S; case: converged Hs {E S} => [|c []] // _.
by case: known; case: gram; case: c.
Qed.

(** The full statement fails for every number of inquiries above one: with a
    known eigenvalue relation two arrays per additional inquiry are lost in each
    sample, otherwise the vectors of all but the last iterated inquiry. *)
Theorem C33_lost_refuted (known gram : bool) q h L :
  owns h L -> 1 < q ->
  exists h' lost,
    [/\ sample_memory known gram q (nseq q false) h = Some h', owns h' (lost ++ L)
      & 0 < size lost].
Proof.
move=> H0 Hq; have [|h' [lost [E O S]]] :=
  C33_lost_memory known gram H0 (ltnW Hq) (converged := nseq q false).
  by rewrite size_nseq.
exists h', lost; split=> //; rewrite S count_nseq mul1n.
by case: (known); case: (gram); lia.
Qed.

Example C33_case : owns (Heap [::] 0) [::] /\
  omap live (sample_memory false true 3 [:: false; true; false] (Heap [::] 0))
    = Some [:: 14; 13] /\
  omap live (sample_memory false true 1 [:: false] (Heap [:: 7] 8)) = Some [:: 7].
Proof. by []. Qed.

Print Assumptions C33_lost_memory.
Print Assumptions C33_released_partial.
Print Assumptions C33_lost_refuted.
