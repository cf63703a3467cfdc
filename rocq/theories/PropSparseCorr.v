(** The parallel generation of sparse correlation matrices: C44. *)
From mathcomp Require Import all_ssreflect all_algebra.
From mathcomp Require Import zify.
From Verif Require Import SparseCorrModel.
Set Implicit Arguments.
Unset Strict Implicit.
Unset Printing Implicit Defensive.
Import GRing.Theory Num.Theory.

(** The correlation of points i and j, tapered at the threshold *)
Definition tapered (F : numDomainType) (K : nat -> nat -> F) (threshold : F) (i j : nat) : F :=
  let v := K (minn i j) (maxn i j) in if (threshold < v)%R then v else 0%R.

(** The number of entries above the threshold in the matrix with n rows *)
Definition num_entries (F : numDomainType) (K : nat -> nat -> F) (threshold : F) (n : nat) : nat :=
  count (fun p : 'I_n * 'I_n => threshold < K (minn p.1 p.2) (maxn p.1 p.2))%R (enum {: 'I_n * 'I_n}).

Section Run.
Variable F : numDomainType.
Variables (K : nat -> nat -> F) (threshold : F).
Variables (n threads max_nnz : nat).

Local Notation above := (above K threshold).
Local Notation step := (step K threshold n max_nnz).
Local Notation steps := (steps K threshold n threads max_nnz).
Local Notation reachable := (reachable K threshold n threads max_nnz).
Local Notation finished := (@finished F threads).
Local Notation state := (state F).
Local Notation entry := (entry F).

(** What row i writes for column j, for columns before j, and for all columns *)
Definition ent (i j : nat) : seq entry :=
  if above i j then (i, j, K i j) :: (if i == j then [::] else [:: (j, i, K i j)]) else [::].
Definition upto (i j : nat) : seq entry := flatten [seq ent i k | k <- iota i (j - i)].
Definition row (i : nat) : seq entry := upto i n.

(** What the thread's row has written so far *)
Definition contrib (p : pc) : seq entry :=
  match p with
  | Col i j | Store i j => upto i j
  | Mirror i j => rcons (upto i j) (i, j, K i j)
  | _ => [::]
  end.
Definition held (p : pc) : option nat :=
  match p with
  | Idle => None
  | Test i | Col i _ | Full i | Store i _ | Mirror i _ => Some i
  end.
Definition pend (p : pc) : nat :=
  match p with Store _ _ => 2 | Mirror _ _ => 1 | _ => 0 end.
Definition is_full (p : pc) : bool := if p is Full _ then true else false.

Definition tot (f : pc -> nat) (s : state) : nat := \sum_(t < threads) f (pcs s t).

Lemma tot_upd f (s s' : state) t p : t < threads -> pcs s' = upd (pcs s) t p ->
  tot f s' + f (pcs s t) = tot f s + f p.
Proof.
move=> Ht Es. rewrite /tot (bigD1 (Ordinal Ht)) //= (bigD1 (Ordinal Ht) (F := fun t => f (pcs s t))) //=.
rewrite Es /upd eqxx [X in _ + X + _](eq_bigr (fun t : 'I_threads => f (pcs s t))); first by lia.
by move=> k Hk; rewrite -(inj_eq val_inj) /= in Hk; rewrite (negbTE Hk).
Qed.

Lemma tot_le f s (c : nat) : (forall p, f p <= c) -> tot f s <= threads * c.
Proof.
move=> H. apply: (leq_trans (n := \sum_(t < threads) c)); first exact: leq_sum.
by rewrite sum_nat_const card_ord.
Qed.

Lemma uptoS i j : i <= j -> upto i j.+1 = upto i j ++ ent i j.
Proof.
by move=> H; rewrite /upto subSn // -[(j - i).+1]addn1 iotaD map_cat flatten_cat /= cats0 subnKC.
Qed.

Lemma upto0 i : upto i i = [::].
Proof. by rewrite /upto subnn. Qed.

(** At most 2 T - 1 entries are written outside the arrays by T threads *)
Lemma bound_step t s s' : t < threads -> step t s s' ->
  size (buf s) + tot pend s < max_nnz + 2 * threads ->
  size (buf s') + tot pend s' < max_nnz + 2 * threads.
Proof.
move=> Ht H.
have T2 s0 : tot pend s0 <= threads * 2 by apply: tot_le; case.
have U p s0 : pcs s0 = upd (pcs s) t p -> tot pend s0 + pend (pcs s t) = tot pend s + pend p by apply: tot_upd.
case: H => [i|i|i|i j|i j|i j|i|i|i j|i j|i] E; rewrite E in U; move=> *;
match goal with |- context [tot pend ?s1] => have := U _ s1 erefl; have := T2 s1 end;
rewrite /= ?size_rcons; lia.
Qed.

Theorem C44_overflow_bound_partial s : reachable s -> 0 < threads ->
  size (buf s) <= max_nnz + (2 * threads).-1.
Proof.
move=> H HT. have : size (buf s) + tot pend s < max_nnz + 2 * threads; last by lia.
have : size (buf (init F n)) + tot pend (init F n) < max_nnz + 2 * threads.
  by rewrite /= /tot big1 //; lia.
move: H; rewrite /SparseCorrModel.reachable. elim=> // s1 t s2 s3 Ht H _ IH /(bound_step Ht H). exact: IH.
Qed.

(** Positions of the threads *)
Definition ok (p : pc) : bool :=
  match p with
  | Idle => true
  | Test i | Full i => i < n
  | Col i j => (i < n) && (i <= j <= n)
  | Store i j => above i j && (i <= j < n)
  | Mirror i j => above i j && (i < j < n)
  end.

Record inv (s : state) : Prop := Inv {
  inv_ok : forall t, t < threads -> ok (pcs s t);
  inv_todo : forall i, i \in todo s -> i < n;
  inv_rows : exists done,
    (forall i, count_mem i (todo s) + tot (fun p => held p == Some i) s + count_mem i done = (i < n)) /\
    (success s -> tot is_full s = 0 -> forall e,
      count_mem e (buf s) = \sum_(i <- done) count_mem e (row i) + tot (fun p => count_mem e (contrib p)) s) }.

Lemma inv_init : inv (init F n).
Proof.
split=> //=; first by move=> i; rewrite mem_iota.
exists [::]. split=> [i|_ _ e].
  by rewrite /tot big1 //= !addn0 count_uniq_mem ?iota_uniq // mem_iota add0n.
by rewrite big_nil /tot big1.
Qed.

(** A step of thread t to the position p, after which the rows d are done *)
Lemma inv_upd s s' t p (d : seq nat) : t < threads -> inv s -> pcs s' = upd (pcs s) t p -> ok p ->
  {subset todo s' <= todo s} ->
  (forall k, count_mem k (todo s') + (held p == Some k) + count_mem k d =
             count_mem k (todo s) + (held (pcs s t) == Some k)) ->
  (success s' -> ~~ is_full p -> [/\ success s, ~~ is_full (pcs s t) & forall e,
     count_mem e (buf s') + count_mem e (contrib (pcs s t)) =
     count_mem e (buf s) + \sum_(i <- d) count_mem e (row i) + count_mem e (contrib p)]) ->
  inv s'.
Proof.
move=> Ht [Hok Htodo [done [Hrows Hcont]]] E Hp Hsub Hr Hc.
have U f : tot f s' + f (pcs s t) = tot f s + f p by apply: tot_upd.
split.
- by move=> t0 Ht0; rewrite E /upd; case: eqP => // _; apply: Hok.
- by move=> k /Hsub; apply: Htodo.
exists (d ++ done). split=> [k|S Z e].
  have := U (fun p => held p == Some k). have := Hrows k. have := Hr k. rewrite count_cat /=. lia.
have UF := U (fun p => is_full p). have Fp : ~~ is_full p.
  apply/negP => Fp. have T0 : pcs s' t = p by rewrite E /upd eqxx.
  move: Z; rewrite /tot (bigD1 (Ordinal Ht)) //= T0 Fp. lia.
have [S0 F0 C] := Hc S Fp. have := Hcont S0 _ e. have := U (fun p => count_mem e (contrib p)).
have := C e. rewrite big_cat /=. move=> C1 C2 C3. rewrite Z (negbTE Fp) (negbTE F0) in UF.
rewrite C3 in C1; lia.
Qed.

Lemma count_ent e i j : above i j -> i <> j ->
  count_mem e (ent i j) = ((i, j, K i j) == e) + ((j, i, K i j) == e).
Proof. by rewrite /ent => -> /eqP /negbTE -> /=; rewrite addn0. Qed.

Lemma inv_step t s s' : t < threads -> step t s s' -> inv s -> inv s'.
Proof.
move=> Ht H Hs. have Okt := inv_ok Hs Ht.
case: H => [i|i|i|i j|i j|i j|i|i|i j|i j|i] E; rewrite E in Okt.
- move=> Hi. apply: (@inv_upd s _ t (Test i) [::]) => //=; first exact: (inv_todo Hs).
  + by move=> k /mem_rem.
  + by move=> k; rewrite E (permP (perm_to_rem Hi)) /= (inj_eq Some_inj); lia.
  + by move=> S _; rewrite E; split=> // e; rewrite big_nil addn0.
- move=> HS. apply: (@inv_upd s _ t Idle [:: i]) => //=.
  + by move=> k; rewrite E /= (inj_eq Some_inj); lia.
  + by move=> S; rewrite S in HS.
- move=> HS. apply: (@inv_upd s _ t (Col i i) [::]) => //=; first by move: Okt => /= Okt; rewrite Okt leqnn ltnW.
  + by move=> k; rewrite E /= addn0.
  + by move=> S _; rewrite E; split=> // e; rewrite big_nil /= upto0 /= !addn0.
- move=> Hj Ha. apply: (@inv_upd s _ t (Col i j.+1) [::]) => //=; first by move: Okt => /=; lia.
  + by move=> k; rewrite E /= addn0.
  + move=> S _; rewrite E; split=> // e. rewrite big_nil /= uptoS; last by move: Okt => /=; lia.
    by rewrite /ent (negbTE Ha) cats0 addn0.
- move=> Hj Ha Hm. apply: (@inv_upd s _ t (Full i) [::]) => //=; first by move: Okt => /=; lia.
  by move=> k; rewrite E /= addn0.
- move=> Hj Ha Hm. apply: (@inv_upd s _ t (Store i j) [::]) => //=; first by move: Okt => /=; rewrite Ha; lia.
  + by move=> k; rewrite E /= addn0.
  + by move=> S _; rewrite E; split=> // e; rewrite big_nil addn0.
- move=> Hl. apply: (@inv_upd s _ t Idle [:: i]) => //=.
  by move=> k; rewrite E /= (inj_eq Some_inj); lia.
- move=> Hl. apply: (@inv_upd s _ t (Col i i.+1) [::]) => //=; first by move: Okt => /=; lia.
  + by move=> k; rewrite E /= addn0.
  + move: Okt => /= /andP [Ha Hi]. move=> S _; rewrite E; split=> // e. rewrite big_nil /= uptoS //.
    by rewrite -cats1 !count_cat /ent Ha eqxx /=; lia.
- move=> Hl Hij. apply: (@inv_upd s _ t (Mirror i j) [::]) => //=.
  + by move: Okt => /= /andP [-> Hi]; lia.
  + by move=> k; rewrite E /= addn0.
  + by move=> S _; rewrite E; split=> // e; rewrite big_nil /= -!cats1 !count_cat; lia.
- move: Okt => /= /andP [Ha Hi]. apply: (@inv_upd s _ t (Col i j.+1) [::]) => //=; first by lia.
  + by move=> k; rewrite E /= addn0.
  + move=> S _; rewrite E; split=> // e. rewrite big_nil /= uptoS; last by lia.
    rewrite -!cats1 !count_cat count_ent //=; lia.
- apply: (@inv_upd s _ t Idle [:: i]) => //=.
  + by move=> k; rewrite E /= (inj_eq Some_inj); lia.
  + by move=> S _; rewrite E; split=> // e; rewrite big_seq1 /= /row; lia.
Qed.

Lemma inv_reachable s : reachable s -> inv s.
Proof.
move=> H. have := inv_init. move: H; rewrite /SparseCorrModel.reachable.
elim=> // s1 t s2 s3 Ht H _ IH /(inv_step Ht H). exact: IH.
Qed.

(** The rows, split by who has them *)
Definition held_rows (s : state) : seq nat := pmap (fun t => held (pcs s t)) (iota 0 threads).

Lemma big_held (g : nat -> nat) s : \sum_(i <- held_rows s) g i = tot (fun p => oapp g 0 (held p)) s.
Proof. by rewrite /held_rows big_pmap /tot -(big_mkord xpredT (fun t => oapp g 0 (held (pcs s t)))) /index_iota subn0. Qed.

Lemma count_sum (l : seq nat) i : count_mem i l = \sum_(x <- l) (x == i).
Proof. by rewrite -sum1_count big_mkcond. Qed.

Lemma rows_perm s done :
  (forall i, count_mem i (todo s) + tot (fun p => held p == Some i) s + count_mem i done = (i < n)) ->
  perm_eq (todo s ++ held_rows s ++ done) (iota 0 n).
Proof.
move=> H. apply/allP => i _. apply/eqP. rewrite !count_cat [RHS]count_uniq_mem ?iota_uniq // mem_iota add0n /= -H addnA.
congr (_ + _ + _). rewrite count_sum big_held. apply: eq_bigr => t _.
by case: (held _) => //= x; rewrite (inj_eq Some_inj).
Qed.

Lemma buf_perm s (done : seq nat) : (forall e, count_mem e (buf s) =
    \sum_(i <- done) count_mem e (row i) + tot (fun p => count_mem e (contrib p)) s) ->
  perm_eq (buf s) (flatten [seq row i | i <- done] ++ flatten [seq contrib (pcs s t) | t <- iota 0 threads]).
Proof.
move=> H. apply/allP => e _. apply/eqP. rewrite /= H count_cat !count_flatten !sumnE !big_map.
congr (_ + _). by rewrite /tot -(big_mkord xpredT (fun t => count_mem e (contrib (pcs s t)))) /index_iota subn0.
Qed.

(** All the entries *)
Definition all_entries : seq entry := flatten [seq row i | i <- iota 0 n].

Lemma finished_perm s : inv s -> finished s -> success s -> perm_eq (buf s) all_entries.
Proof.
move=> [_ _ [done [/rows_perm Hr Hc]]] [Ht Hp] S.
have Z f : f Idle = 0 -> tot f s = 0 by move=> H0; rewrite /tot big1 // => t _; rewrite Hp.
have /buf_perm P := Hc S (Z _ erefl). apply: (perm_trans P).
have -> : flatten [seq contrib (pcs s t) | t <- iota 0 threads] = [::].
  rewrite -[RHS](_ : flatten (nseq threads [::]) = _); last by elim: (threads).
  congr flatten. apply: (@eq_from_nth _ [::]); first by rewrite size_map size_iota size_nseq.
  move=> t. rewrite size_map size_iota => Ht'. rewrite (nth_map 0) ?size_iota // nth_iota // add0n Hp //.
  by rewrite nth_nseq Ht'.
rewrite cats0. apply: perm_flatten. apply: perm_map.
have E0 : held_rows s = [::].
  rewrite /held_rows. apply: size0nil. rewrite size_pmap. apply/eqP. rewrite -leqn0 leqNgt -has_count -all_predC.
  by apply/allP => t; rewrite mem_iota add0n => /andP [_ /Hp E]; rewrite /= E.
by rewrite Ht E0 in Hr.
Qed.

Lemma ent_sum i j a b : i < n -> j < n -> a <= b ->
  (\sum_(e <- ent a b | e.1 == (i, j)) e.2)%R =
  (if (a == minn i j) && (b == maxn i j) then tapered K threshold i j else 0)%R.
Proof.
move=> Hi Hj Hab. rewrite /ent /tapered. case: (altP (a =P minn i j)) => [Ea|Na] /=; last first.
  case: ifP => _; last by rewrite big_nil.
  rewrite big_cons /= xpair_eqE.
  have -> : (a == i) && (b == j) = false by apply/negbTE; move: Na Hab; lia.
  case: eqP => _; rewrite ?big_nil // big_cons /= xpair_eqE big_nil.
  by have -> : (b == i) && (a == j) = false by apply/negbTE; move: Na Hab; lia.
case: (altP (b =P maxn i j)) => [Eb|Nb] /=; last first.
  case: ifP => _; last by rewrite big_nil.
  rewrite big_cons /= xpair_eqE.
  have -> : (a == i) && (b == j) = false by apply/negbTE; move: Nb Hab; lia.
  case: eqP => _; rewrite ?big_nil // big_cons /= xpair_eqE big_nil.
  by have -> : (b == i) && (a == j) = false by apply/negbTE; move: Nb Hab; lia.
rewrite -Ea -Eb /SparseCorrModel.above /=. case: ifP => _; last by rewrite big_nil.
rewrite big_cons /= xpair_eqE.
case: (altP (a =P b)) => Nab.
  have -> : (a == i) && (b == j) by lia. by rewrite big_nil addr0.
rewrite big_cons /= xpair_eqE big_nil.
case: (leqP i j) => Hij.
  have -> : (a == i) && (b == j) by lia.
  have -> : (b == i) && (a == j) = false by apply/negbTE; lia. by rewrite addr0.
have -> : (a == i) && (b == j) = false by apply/negbTE; lia.
have -> : (b == i) && (a == j) by lia. by rewrite addr0.
Qed.

Lemma sum_entries i j : i < n -> j < n ->
  (\sum_(e <- all_entries | e.1 == (i, j)) e.2)%R = tapered K threshold i j.
Proof.
move=> Hi Hj. rewrite /all_entries big_flatten /= big_map.
rewrite (bigD1_seq (minn i j)) ?iota_uniq ?mem_iota //=; last by lia.
rewrite [X in (_ + X)%R]big1_seq ?addr0; last first.
  move=> a /andP [Na _]. rewrite /row /upto big_flatten /= big_map big1_seq // => b.
  by rewrite mem_iota => /andP [_ Hb]; rewrite ent_sum ?(negbTE Na) //; lia.
rewrite /row /upto big_flatten /= big_map.
rewrite (bigD1_seq (maxn i j)) ?iota_uniq ?mem_iota //=; last by lia.
rewrite ent_sum ?eqxx ?big1_seq ?addr0 //; last by lia.
move=> b /andP [Nb]. rewrite mem_iota => /andP [Hb _]. by rewrite ent_sum // (negbTE Nb) andbF.
Qed.

(** A successful run that stayed inside the arrays returns the correlations
    above the threshold *)
Theorem C44_correct_partial s i j : reachable s -> finished s -> success s ->
  size (buf s) <= max_nnz -> i < n -> j < n -> result max_nnz s i j = tapered K threshold i j.
Proof.
move=> /inv_reachable H Hf S Hm Hi Hj.
by rewrite /result take_oversize // (perm_big _ (finished_perm H Hf S)) sum_entries.
Qed.

(** The number of entries, as a sum over the rows *)
Lemma size_ent i j : size (ent i j) = above i j * (1 + (i != j)).
Proof. by rewrite /ent; case: above; case: eqP. Qed.

Lemma size_row i : i < n -> size (row i) = \sum_(j < n) (above i j * ((i <= j) + (i < j))).
Proof.
move=> Hi. rewrite /row /upto size_flatten /shape sumnE !big_map.
rewrite -(big_mkord xpredT (fun j => above i j * ((i <= j) + (i < j)))) [RHS](@big_cat_nat _ _ _ i) ?(ltnW Hi) //=.
rewrite [X in _ = X + _]big_nat_cond [X in _ = X + _]big1 ?add0n; last first.
  by move=> j; rewrite andbT => /andP [_ H]; rewrite ltnNge (ltnW H) leqNgt H muln0.
apply: eq_big_seq => j. rewrite mem_iota => /andP [H _]. rewrite size_ent H. by congr (_ * (_ + _)); lia.
Qed.

Lemma size_all : size all_entries = num_entries K threshold n.
Proof.
rewrite /num_entries -sum1_count big_enum_cond /= big_mkcond /=.
rewrite -(pair_bigA _ (fun i j : 'I_n => if (threshold < K (minn i j) (maxn i j))%R then 1 else 0)) /=.
pose g (i j : 'I_n) := nat_of_bool (above i j).
rewrite (eq_bigr (fun i : 'I_n => \sum_(j < n) (g i j * (i <= j)) + \sum_(j < n) (g j i * (j < i)))); last first.
  move=> i _. rewrite -big_split /=. apply: eq_bigr => j _.
  rewrite /g /SparseCorrModel.above. case: (ltngtP i j) => [H|H|/val_inj ->].
  - by rewrite muln0 muln1 addn0; case: ifP.
  - by rewrite muln0 muln1 add0n; case: ifP.
  - by rewrite muln0 muln1 addn0; case: ifP.
rewrite big_split /= [X in _ + X]exchange_big /= -big_split /=.
rewrite /all_entries size_flatten /shape sumnE !big_map -/(index_iota 0 n) -{1}[n]subn0 -/(index_iota 0 n).
rewrite big_mkord. apply: eq_bigr => i _. rewrite size_row // -big_split /=.
by apply: eq_bigr => j _; rewrite mulnDr.
Qed.

Lemma size_upto_le i j : ok (Col i j) -> size (upto i j) <= size (row i).
Proof.
move=> /= /andP [_ /andP [H1 H2]]. rewrite /row. rewrite -(subnKC H2). elim: (n - j) => [|k IH]; first by rewrite addn0.
by rewrite addnS uptoS ?size_cat; lia.
Qed.

Lemma size_upto_lt i j : i <= j < n -> above i j -> size (upto i j) < size (row i).
Proof.
move=> /andP [H1 H2] Ha. have H := @size_upto_le i j.+1. have : size (upto i j.+1) <= size (row i) by apply: H => /=; lia.
by rewrite uptoS // size_cat size_ent Ha; case: eqP => _ /=; lia.
Qed.

Definition weight (p : pc) : nat := oapp (fun i => size (row i)) 0 (held p).

Lemma contrib_le p : ok p -> size (contrib p) <= weight p.
Proof.
case: p => [|i|i j|i|i j|i j] //=; rewrite /weight /= => H.
- exact: size_upto_le.
- by apply: size_upto_le => /=; lia.
- by rewrite size_rcons; apply: size_upto_lt; [lia|case/andP: H].
Qed.

Lemma sum_rows s done :
  (forall i, count_mem i (todo s) + tot (fun p => held p == Some i) s + count_mem i done = (i < n)) ->
  \sum_(i <- todo s) size (row i) + tot weight s +
  \sum_(i <- done) size (row i) = size all_entries.
Proof.
move=> /rows_perm P. rewrite /weight -big_held -addnA -!big_cat /= (perm_big _ P) /=.
by rewrite /all_entries size_flatten /shape sumnE !big_map.
Qed.

Lemma tot_leq f g s : (forall t, t < threads -> f (pcs s t) <= g (pcs s t)) -> tot f s <= tot g s.
Proof. by move=> H; apply: leq_sum => t _; apply: H. Qed.

(** As long as the run is successful nothing but entries of the matrix is written *)
Lemma size_buf s t p : inv s -> success s -> tot is_full s = 0 -> t < threads -> pcs s t = p ->
  size (buf s) + weight p <= size all_entries + size (contrib p).
Proof.
move=> H S Z Ht Ep. have [done [Hr Hc]] := inv_rows H. have /buf_perm/perm_size := Hc S Z.
rewrite -(sum_rows Hr) size_cat !size_flatten /shape !sumnE !big_map => ->.
have -> : \sum_(j <- iota 0 threads) size (contrib (pcs s j)) = tot (fun p => size (contrib p)) s.
  by rewrite /tot -(big_mkord xpredT (fun t => size (contrib (pcs s t)))) /index_iota subn0.
have : tot (fun p => size (contrib p)) s + weight p <=
  tot weight s + size (contrib p).
  rewrite /tot (bigD1 (Ordinal Ht)) //= [X in _ <= X + _](bigD1 (Ordinal Ht)) //= Ep.
  rewrite addnAC [X in _ <= X]addnAC [size _ + _]addnC leq_add2l.
  by apply: leq_sum => k _; apply/contrib_le/(inv_ok H).
move=> H1. apply: (leq_trans (n := \sum_(i <- done) size (row i) + (tot weight s + size (contrib p)))).
  by rewrite -addnA leq_add2l.
by rewrite addnA leq_add2r [X in X <= _]addnC leq_add2r leq_addl.
Qed.

(** Large enough arrays: every run succeeds, stays inside the arrays and returns
    the correlations above the threshold *)
Theorem C44_enough s : num_entries K threshold n <= max_nnz -> reachable s ->
  success s /\ size (buf s) <= max_nnz.
Proof.
move=> Hm H.
have G : inv s /\ success s /\ forall t, t < threads -> ~~ is_full (pcs s t).
  have : inv (init F n) /\ success (init F n) /\ forall t, t < threads -> ~~ is_full (pcs (init F n) t).
    by split; first exact: inv_init.
  move: H; rewrite /SparseCorrModel.reachable. elim=> // s1 t s2 s3 Ht H _ IH [H1 [S1 F1]]. apply: IH.
  split; first exact: inv_step H H1.
  have Z : tot is_full s1 = 0 by rewrite /tot big1 // => k _; rewrite (negbTE (F1 k _)).
  have UF p s0 : pcs s0 = upd (pcs s1) t p -> ~~ is_full p -> forall k, k < threads -> ~~ is_full (pcs s0 k).
    by move=> -> Hp k Hk; rewrite /upd; case: eqP => // _; apply: F1.
  case: H => [i|i|i|i j|i j|i j|i|i|i j|i j|i] E; [move=> *|move=> *|move=> *|move=> *|idtac|move=> *|move=> *|
    move=> *|move=> *|move=> *|move=> *]; try (by split; [by []|eapply UF; [reflexivity|by []]]).
    move=> Hj Ha Hfull. have := size_buf H1 S1 Z Ht E. rewrite /weight /= size_all.
    have Hij : i <= j < n by have := inv_ok H1 Ht; rewrite E /=; lia.
    have := size_upto_lt Hij Ha. lia.
  by have := F1 t Ht; rewrite E.
have [H1 [S1 F1]] := G. split=> //.
case: (posnP threads) => [T0|T0].
  have [done [Hr Hc]] := inv_rows H1. have Z0 f : tot f s = 0 by rewrite /tot T0 big_ord0.
  have /buf_perm/perm_size := Hc S1 (Z0 _). rewrite T0 /= cats0 => ->.
  have := sum_rows Hr. rewrite !Z0 size_all addn0 size_flatten /shape sumnE !big_map.
  move=> Es. apply: leq_trans Hm. rewrite -Es. exact: leq_addl.
have Z : tot is_full s = 0 by rewrite /tot big1 // => k _; rewrite (negbTE (F1 k _)).
have := size_buf H1 S1 Z T0 erefl. have := contrib_le (inv_ok H1 T0). rewrite size_all. lia.
Qed.

(** A run that reports failure has met more entries than fit *)
Theorem C44_fails_only_when_full s : reachable s -> ~~ success s -> max_nnz < num_entries K threshold n.
Proof. by move=> H S; rewrite ltnNge; apply: contra S => Hm; have [] := C44_enough Hm H. Qed.
(** The lock is held by a thread in the critical section *)
Definition lock_ok (s : state) : Prop :=
  if lock s is Some t then t < threads /\ (exists i j, pcs s t = Mirror i j) else True.

Lemma lock_reachable s : reachable s -> lock_ok s.
Proof.
have : lock_ok (init F n) by []. move=> H0 H. move: H H0; rewrite /SparseCorrModel.reachable.
elim=> // s1 t s2 s3 Ht H _ IH L. apply: IH.
have G p s0 : pcs s0 = upd (pcs s1) t p -> lock s0 = lock s1 ->
    (if pcs s1 t is Mirror _ _ then False else True) -> lock_ok s0.
  rewrite /lock_ok => E -> N. move: L; rewrite /lock_ok. case: (lock s1) => [t0|] // [Ht0 [i [j E0]]].
  split=> //. exists i, j. rewrite E /upd. case: eqP => // Et. by rewrite -Et E0 in N.
case: H => [i|i|i|i j|i j|i j|i|i|i j|i j|i] E; move=> *; try (by eapply G; [reflexivity|by []|rewrite E]);
  try by [].
by split=> //; exists i, j; rewrite /= /upd eqxx.
Qed.

(** A run that is not over can go on (with at least one thread) *)
Theorem C44_progress s : reachable s -> 0 < threads ->
  finished s \/ exists t s', t < threads /\ step t s s'.
Proof.
move=> Hr T0. have Hi := inv_reachable Hr. have L := lock_reachable Hr.
case El : (lock s) => [t|].
  move: L; rewrite /lock_ok El => [[Ht [i [j E]]]]. right. exists t; eexists; split=> //. exact: st_mirror E.
case: (pickP (fun t : 'I_threads => if pcs s t is Idle then false else true)) => [t|H].
  have := inv_ok Hi (ltn_ord t).
  case E : (pcs s t) => [|i|i j|i|i j|i j] //= Ho _; right; exists (val t).
  - case S : (success s); eexists; (split; first exact: ltn_ord).
      exact: st_start E S.
    by apply: st_skip E _; rewrite S.
  - case: (ltnP j n) => Hj; last first.
      have En : j = n by lia. rewrite En in E. eexists; split; first exact: ltn_ord. exact: st_end E.
    case Ha : (above i j); last first.
      eexists; split; first exact: ltn_ord. by apply: st_below E Hj _; rewrite Ha.
    case: (ltnP (size (buf s)) max_nnz) => Hm; eexists; (split; first exact: ltn_ord).
      exact: st_room E Hj Ha Hm.
    exact: st_full E Hj Ha Hm.
  - eexists; split; first exact: ltn_ord. exact: st_fail E El.
  - case: (altP (i =P j)) => Hij.
      rewrite -Hij in E. eexists; split; first exact: ltn_ord. exact: st_store E El.
    eexists; split; first exact: ltn_ord. exact: st_store_off E El Hij.
  - eexists; split; first exact: ltn_ord. exact: st_mirror E.
have Id t : t < threads -> pcs s t = Idle by move=> Ht; have := H (Ordinal Ht) => /=; case: (pcs s t).
case Et : (todo s) => [|i l]; first by left.
right. exists 0; eexists; split=> //. apply: (@st_take _ _ _ _ _ _ _ i); first exact: Id.
by rewrite Et mem_head.
Qed.

(** The steps that are left for a thread, and for the run *)
Definition left (p : pc) : nat :=
  match p with
  | Idle => 0
  | Test _ => 3 * n + 3
  | Col _ j => 3 * (n - j) + 2
  | Full _ => 1
  | Store _ j => 3 * (n - j) + 1
  | Mirror _ j => 3 * (n - j)
  end.
Definition work (s : state) : nat := size (todo s) * (3 * n + 4) + tot left s.

Lemma work_step t s s' : t < threads -> inv s -> step t s s' -> work s' < work s.
Proof.
move=> Ht Hi H. have := inv_ok Hi Ht.
have U p s0 : pcs s0 = upd (pcs s) t p -> tot left s0 + left (pcs s t) = tot left s + left p by apply: tot_upd.
case: H => [i|i|i|i j|i j|i j|i|i|i j|i j|i] E; rewrite E in U *; rewrite /work /=;
  [move=> Hin Ho|..];
  match goal with |- context [tot left ?s1] => have := U _ s1 erefl | _ => idtac end; rewrite /=.
1: { rewrite size_rem //. case: (todo s) Hin => [//|x l] _ /=. rewrite mulSn. lia. }
all: move=> HU *; rewrite ltn_add2l; lia.
Qed.

(** Runs counted by their steps *)
Inductive run_of_length : nat -> state -> state -> Prop :=
  | run_0 s : run_of_length 0 s s
  | run_S k s1 t s2 s3 : t < threads -> step t s1 s2 -> run_of_length k s2 s3 ->
      run_of_length k.+1 s1 s3.

(** Every run ends: it has no more than n (3 n + 4) steps *)
Theorem C44_terminates k s : run_of_length k (init F n) s -> k <= n * (3 * n + 4).
Proof.
have G k0 s1 s2 : run_of_length k0 s1 s2 -> inv s1 -> k0 + work s2 <= work s1.
  elim=> [s0|k1 s0 t s3 s4 Ht H _ IH] // Hi.
  have := IH (inv_step Ht H Hi). have := work_step Ht Hi H. lia.
move=> /G /(_ inv_init). rewrite {2}/work /= size_iota /tot [X in _ <= _ + X]big1 // addn0. lia.
Qed.

(** and it can be completed, whatever has happened so far *)
Theorem C44_completes s : reachable s -> 0 < threads -> exists2 s', steps s s' & finished s'.
Proof.
move=> Hr T0. have [w] := ubnP (work s). elim: w s Hr => // w IH s Hr Hw.
have [Hf|[t [s1 [Ht H]]]] := C44_progress Hr T0; first by exists s => //; exact: steps_refl.
have Hr1 : reachable s1.
  move: Hr H; rewrite /SparseCorrModel.reachable; elim=> [s0 H|s0 t0 s2 s3 Ht0 H0 _ IH0 H].
    exact: steps_more Ht H (steps_refl _ _ _ _ _ _).
  exact: steps_more Ht0 H0 (IH0 H).
have [|s' H1 H2] := IH s1 Hr1; first by have := work_step Ht (inv_reachable Hr) H; lia.
by exists s' => //; exact: steps_more Ht H H1.
Qed.
End Run.

Section Result.
Variable F : numDomainType.
Variables (K : nat -> nat -> F) (threshold : F) (n threads : nat).

Lemma tapered_sym i j : tapered K threshold i j = tapered K threshold j i.
Proof. by rewrite /tapered minnC maxnC. Qed.

(** The function returns the tapered correlation matrix, which is symmetric, in
    every schedule, if the arrays are large enough for all entries *)
Theorem C44_generates max_nnz M i j : num_entries K threshold n <= max_nnz ->
  generates K threshold n threads max_nnz M -> i < n -> j < n ->
  M i j = tapered K threshold i j /\ M i j = M j i.
Proof.
move=> Hm H Hi Hj. case: H Hm => [m s R Fs S Hm|m s M' R Fs S _ Hm].
  have [_ Hb] := C44_enough Hm R.
  by rewrite (C44_correct_partial R Fs S Hb Hi Hj) (C44_correct_partial R Fs S Hb Hj Hi) tapered_sym.
by have [S' _] := C44_enough Hm R; rewrite S' in S.
Qed.
End Result.

(** Refutations: two points with correlation 1 and threshold 0 *)
Tactic Notation "by_step" constr(t) uconstr(c) :=
  apply: (steps_more (t := t)); [by []|eapply c; by []|].

Section Refuted.
Let K (i j : nat) : rat := 1%R.


(** One thread and arrays for two entries: a third entry is written *)
Theorem C44_overflow_refuted : exists s, reachable K 0%R 2 1 2 s /\ 2 < size (buf s).
Proof.
eexists; split; last first; last first.
  by_step 0 (st_take K 0%R 2 2 (i := 0)).
  by_step 0 (st_start K 0%R 2 2 (i := 0)).
  by_step 0 (st_room (i := 0) (j := 0)).
  by_step 0 (st_store K 0%R 2 2 (i := 0)).
  by_step 0 (st_room (i := 0) (j := 1)).
  by_step 0 (st_store_off K 0%R 2 2 (i := 0) (j := 1)).
  by_step 0 (st_mirror K 0%R 2 2 (i := 0) (j := 1)).
  exact: steps_refl.
by [].
Qed.

(** Two threads, one for each row, and arrays for three of the four entries: the
    run is successful and the matrix is not symmetric *)
Theorem C44_asymmetric_refuted : exists2 M, generates K 0%R 2 2 3 M & M 0 1 != M 1 0.
Proof.
have [s [Hr Hf S Hn]] : exists s, [/\ reachable K 0%R 2 2 3 s, finished 2 s, success s &
    result 3 s 0 1 != result 3 s 1 0].
  eexists; split; last first; last first.
  - by_step 0 (st_take K 0%R 2 3 (i := 0)).
    by_step 1 (st_take K 0%R 2 3 (i := 1)).
    by_step 0 (st_start K 0%R 2 3 (i := 0)).
    by_step 1 (st_start K 0%R 2 3 (i := 1)).
    by_step 1 (st_room (i := 1) (j := 1)).
    by_step 1 (st_store K 0%R 2 3 (i := 1)).
    by_step 1 (st_end K 0%R 3 (i := 1)).
    by_step 0 (st_room (i := 0) (j := 0)).
    by_step 0 (st_store K 0%R 2 3 (i := 0)).
    by_step 0 (st_room (i := 0) (j := 1)).
    by_step 0 (st_store_off K 0%R 2 3 (i := 0) (j := 1)).
    by_step 0 (st_mirror K 0%R 2 3 (i := 0) (j := 1)).
    by_step 0 (st_end K 0%R 3 (i := 0)).
    exact: steps_refl.
  - by split=> // [[|[|t]]].
  - by [].
  - by rewrite /result /= unlock.
exists (result 3 s) => //. exact: gen_success.
Qed.
End Refuted.

(** A case: the hypotheses of C44_generates hold for a run over two points *)
Section Case.
Let K (i j : nat) : rat := 1%R.

Example C44_case : exists2 M, generates K 0%R 2 1 4 M &
  num_entries K 0%R 2 <= 4.
Proof.
have A i j : above K 0%R i j by [].
eexists.
  apply: gen_success; last first; last first.
    by_step 0 (st_take K 0%R 2 4 (i := 0)).
    by_step 0 (st_start K 0%R 2 4 (i := 0)).
    by_step 0 (st_room (i := 0) (j := 0)).
    by_step 0 (st_store K 0%R 2 4 (i := 0)).
    by_step 0 (st_room (i := 0) (j := 1)).
    by_step 0 (st_store_off K 0%R 2 4 (i := 0) (j := 1)).
    by_step 0 (st_mirror K 0%R 2 4 (i := 0) (j := 1)).
    by_step 0 (st_end K 0%R 4 (i := 0)).
    by_step 0 (st_take K 0%R 2 4 (i := 1)).
    by_step 0 (st_start K 0%R 2 4 (i := 1)).
    by_step 0 (st_room (i := 1) (j := 1)).
    by_step 0 (st_store K 0%R 2 4 (i := 1)).
    by_step 0 (st_end K 0%R 4 (i := 1)).
    exact: steps_refl.
  - by split=> // [[|t]].
  - by [].
by rewrite /num_entries (leq_trans (count_size _ _)) // -cardE card_prod !card_ord.
Qed.

End Case.

Definition C44_assumptions := (@C44_overflow_bound_partial, @C44_correct_partial, @C44_enough,
  @C44_fails_only_when_full, @C44_progress, @C44_terminates, @C44_completes, @C44_generates, @C44_overflow_refuted, @C44_asymmetric_refuted).
Print Assumptions C44_assumptions.
