(** Proofs about the operators built from numpy and scipy matrices. *)
Require Import ZArith.
From mathcomp Require Import all_ssreflect all_algebra.
From mathcomp Require Import zify.
From Verif Require Import Mem KernelModel KernelSpec KernelProofs OperatorModel OperatorSpec OperatorProofs.
From Verif Require Import WrapModel WrapSpec.
Set Implicit Arguments.
Unset Strict Implicit.
Unset Printing Implicit Defensive.
Import GRing.Theory.
Local Open Scope nat_scope.

Section Arrays.
Variables (T : Type) (x0 : T).

Lemma size_elems blocks a : size (elems x0 blocks a) = len a.
Proof. by rewrite size_map size_iota. Qed.

Lemma nth_elems (blocks : seq (seq T)) a k : k < len a ->
  nth x0 (elems x0 blocks a) k = nth x0 (nth [::] blocks (base a)) (pos1 a k).
Proof. move=> Hk. by rewrite (nth_map 0) ?size_iota // nth_iota. Qed.

Lemma pos1_contiguous a k : contiguous1 a -> k < len a -> pos1 a k = start a + k.
Proof. rewrite /pos1. case=> [->|H] Hk; first lia. have -> : k = 0 by lia. lia. Qed.

Lemma pos1_inj (blocks : seq (seq T)) a k l : inside1 blocks a -> distinct1 a ->
  k < len a -> l < len a -> pos1 a k = pos1 a l -> k = l.
Proof.
  move=> [_ H] D Hk Hl. have [Pk _] := H k Hk. have [Pl _] := H l Hl.
  rewrite /pos1 => E. have {}E := f_equal Z.of_nat E. rewrite !Z2Nat.id // in E.
  case: D => D; last by lia.
  have E2 : Z.mul (Z.of_nat k) (stride a) = Z.mul (Z.of_nat l) (stride a) by lia.
  have := Z.mul_reg_r _ _ _ D E2. lia.
Qed.

(** s' begins with s *)
Definition agree (s s' : seq T) : Prop :=
  size s <= size s' /\ forall k, k < size s -> nth x0 s' k = nth x0 s k.

Lemma agree_drop blocks a : inside1 blocks a -> contiguous1 a ->
  agree (elems x0 blocks a) (drop (start a) (nth [::] blocks (base a))).
Proof.
  move=> [_ H] C; split; rewrite size_elems.
  - rewrite size_drop. case E: (len a) => [|k] //.
    have Hk : k < len a by rewrite E. have [_] := H k Hk. rewrite pos1_contiguous //. lia.
  - move=> k Hk. by rewrite nth_drop nth_elems // pos1_contiguous.
Qed.

Lemma agree_refl s : agree s s. Proof. by []. Qed.

(** store *)
Lemma size_store block a xs : (forall k, k < size xs -> pos1 a k < size block) ->
  size (store x0 block a xs) = size block.
Proof.
  rewrite /store => H. have : all (fun k => k < size xs) (iota 0 (size xs)).
  { apply/allP => k. by rewrite mem_iota. }
  elim: (iota 0 (size xs)) block H => // k s IH block H /= /andP [Hk Hs].
  have E : size (set_nth x0 block (pos1 a k) (nth x0 xs k)) = size block.
  { rewrite size_set_nth. have := H k Hk. lia. }
  rewrite IH // => l Hl. by rewrite E; apply: H.
Qed.

Lemma nth_store_gen block a xs s q :
  nth x0 (foldl (fun b k => set_nth x0 b (pos1 a k) (nth x0 xs k)) block s) q =
  if has (fun k => pos1 a k == q) s
  then nth x0 xs (last 0 [seq k <- s | pos1 a k == q]) else nth x0 block q.
Proof.
  elim/last_ind: s => [|s k IH] //.
  rewrite -cats1 foldl_cat /= nth_set_nth /= IH has_cat filter_cat /= orbF.
  rewrite (eq_sym q). case: eqP => [E|_]; first by rewrite orbT last_cat.
  by rewrite orbF cats0.
Qed.

Lemma nth_store blocks a xs k : inside1 blocks a -> distinct1 a -> size xs <= len a ->
  k < size xs -> nth x0 (store x0 (nth [::] blocks (base a)) a xs) (pos1 a k) = nth x0 xs k.
Proof.
  move=> I D Hs Hk. rewrite /store nth_store_gen.
  have -> : has (fun k0 => pos1 a k0 == pos1 a k) (iota 0 (size xs)).
  { apply/hasP. exists k => //. by rewrite mem_iota. }
  suff -> : [seq k0 <- iota 0 (size xs) | pos1 a k0 == pos1 a k] = [:: k] by [].
  rewrite (@eq_in_filter _ _ (pred1 k)).
  - rewrite -(filter_pred1_uniq (iota_uniq 0 (size xs))) // mem_iota //.
  - move=> l. rewrite mem_iota add0n /= => Hl. apply/eqP/eqP => [E|-> //].
    apply: (pos1_inj I D _ _ E); lia.
Qed.

Lemma nth_store_keep blocks a xs k : inside1 blocks a -> distinct1 a -> size xs <= k < len a ->
  nth x0 (store x0 (nth [::] blocks (base a)) a xs) (pos1 a k) =
  nth x0 (nth [::] blocks (base a)) (pos1 a k).
Proof.
  move=> I D Hk. rewrite /store nth_store_gen. case: hasP => // - [l].
  rewrite mem_iota add0n /= => Hl /eqP E.
  have := pos1_inj I D _ _ E. lia.
Qed.

Lemma elems_store (blocks : seq (seq T)) a xs : inside1 blocks a -> distinct1 a -> size xs <= len a ->
  elems x0 (set_nth [::] blocks (base a) (store x0 (nth [::] blocks (base a)) a xs)) a =
  xs ++ drop (size xs) (elems x0 blocks a).
Proof.
  move=> I D Hs. apply: (@eq_from_nth _ x0).
  { rewrite size_cat size_drop !size_elems. lia. }
  move=> k. rewrite size_elems => Hk. rewrite nth_elems // nth_set_nth /= eqxx nth_cat.
  case: ltnP => H; first exact: nth_store.
  rewrite nth_drop subnKC // nth_elems // nth_store_keep // H. exact: Hk.
Qed.

Lemma inside_store (blocks : seq (seq T)) a xs b : inside1 blocks a -> size xs <= len a ->
  inside1 blocks b ->
  inside1 (set_nth [::] blocks (base a) (store x0 (nth [::] blocks (base a)) a xs)) b.
Proof.
  move=> [Ha Ia] Hs [Hb Ib]; split.
  { rewrite size_set_nth. lia. }
  move=> k Hk. have [H1 H2] := Ib k Hk. split => //. rewrite nth_set_nth /=.
  case: eqP => // E. rewrite size_store -?E // E => l Hl.
  by have [] := Ia l (leq_trans Hl Hs).
Qed.

Lemma elems_other (blocks : seq (seq T)) a b s : base b <> a ->
  elems x0 (set_nth [::] blocks a s) b = elems x0 blocks b.
Proof. move=> H. rewrite /elems nth_set_nth /=. by case: eqP H. Qed.

Lemma elems_rcons (blocks : seq (seq T)) a s : base a < size blocks ->
  elems x0 (rcons blocks s) a = elems x0 blocks a.
Proof. move=> H. by rewrite /elems nth_rcons H. Qed.

Lemma inside_rcons (blocks : seq (seq T)) a s : inside1 blocks a -> inside1 (rcons blocks s) a.
Proof.
  move=> [H I]; split; first by rewrite size_rcons; lia.
  move=> k Hk. by rewrite nth_rcons H; apply: I.
Qed.

Lemma elems_fresh (blocks : seq (seq T)) b s : nth [::] blocks b = s ->
  elems x0 blocks (fresh b (size s)) = s.
Proof.
  move=> E. apply: (@eq_from_nth _ x0); first by rewrite size_elems.
  move=> k. rewrite size_elems /= => Hk. rewrite nth_elems //= E. congr nth. rewrite /pos1 /=. lia.
Qed.

Lemma inside_fresh (blocks : seq (seq T)) b s : b < size blocks -> nth [::] blocks b = s ->
  inside1 blocks (fresh b (size s)).
Proof.
  move=> H E; split => //= k Hk. split; first lia. rewrite E /pos1 /=. lia.
Qed.

Lemma contiguous_fresh b n : contiguous1 (fresh b n). Proof. by left. Qed.
Lemma distinct_fresh b n : distinct1 (fresh b n). Proof. by left. Qed.

End Arrays.

Section Proofs.
Variable R : comRingType.
Implicit Types (mem : memory R) (A : object).

(** ** The C++ arrays and the matrix shown *)

Lemma compressed_agree L W (d d' : seq R) (i i' p p' : seq nat) :
  compressed_ok L W d i p -> agree 0%R d d' -> agree 0 i i' -> agree 0 p p' ->
  compressed_ok L W d' i' p'.
Proof.
  move=> [Hp H] [sd ad] [si ai] [sp ap]; split; first exact: leq_trans Hp sp.
  move=> l q Hl. rewrite !ap //; try lia. move=> Hq. have [H1 H2 H3] := H l q Hl Hq.
  split; [exact: leq_trans H1 sd|exact: leq_trans H2 si|by rewrite ai].
Qed.

Lemma csr_agree L W (d d' : seq R) (i i' p p' : seq nat) :
  compressed_ok L W d i p -> agree 0%R d d' -> agree 0 i i' -> agree 0 p p' ->
  csr_matrix L W d' i' p' = csr_matrix L W d i p.
Proof.
  move=> [Hp H] [sd ad] [si ai] [sp ap]. apply/matrixP => r c. rewrite !mxE.
  have Hr := ltn_ord r. rewrite !ap //; try lia.
  rewrite big_nat_cond [RHS]big_nat_cond. apply: eq_big => q.
  - case Hq: (_ <= q < _) => //=. have [H1 H2 H3] := H r q Hr Hq. by rewrite ai.
  - case/andP => Hq _. have [H1 H2 H3] := H r q Hr Hq. by rewrite ad.
Qed.

Lemma csc_agree L W (d d' : seq R) (i i' p p' : seq nat) :
  compressed_ok W L d i p -> agree 0%R d d' -> agree 0 i i' -> agree 0 p p' ->
  csc_matrix L W d' i' p' = csc_matrix L W d i p.
Proof.
  move=> [Hp H] [sd ad] [si ai] [sp ap]. apply/matrixP => r c. rewrite !mxE.
  have Hr := ltn_ord c. rewrite !ap //; try lia.
  rewrite big_nat_cond [RHS]big_nat_cond. apply: eq_big => q.
  - case Hq: (_ <= q < _) => //=. have [H1 H2 H3] := H c q Hr Hq. by rewrite ai.
  - case/andP => Hq _. have [H1 H2 H3] := H c q Hr Hq. by rewrite ad.
Qed.

Lemma dense_pos_row a i j : rows a != 0 -> cols a != 0 -> i < rows a -> j < cols a ->
  c_contiguous a -> pos2 a i j = start2 a + (i * cols a + j).
Proof.
  rewrite /c_contiguous => /negbTE -> /negbTE -> Hi Hj /= /andP [Hc Hr]. rewrite /pos2.
  have Ec : Z.mul (Z.of_nat j) (stride_col a) = Z.of_nat j.
  { case/orP: Hc => [/eqP E|/Z.eqb_spec ->]; last lia. have -> : j = 0 by lia. by []. }
  have Er : Z.mul (Z.of_nat i) (stride_row a) = Z.of_nat (i * cols a).
  { case/orP: Hr => [/eqP E|/Z.eqb_spec ->]; last lia. have -> : i = 0 by lia. by []. }
  rewrite Ec Er. lia.
Qed.

Lemma dense_pos_col a i j : rows a != 0 -> cols a != 0 -> i < rows a -> j < cols a ->
  f_contiguous a -> pos2 a i j = start2 a + (i + rows a * j).
Proof.
  rewrite /f_contiguous => /negbTE -> /negbTE -> Hi Hj /= /andP [Hr Hc]. rewrite /pos2.
  have Ec : Z.mul (Z.of_nat j) (stride_col a) = Z.of_nat (rows a * j).
  { case/orP: Hc => [/eqP E|/Z.eqb_spec ->]; last lia. have -> : j = 0 by lia. by rewrite muln0. }
  have Er : Z.mul (Z.of_nat i) (stride_row a) = Z.of_nat i.
  { case/orP: Hr => [/eqP E|/Z.eqb_spec ->]; last lia. have -> : i = 0 by lia. by []. }
  rewrite Ec Er. lia.
Qed.

Lemma dense_seen mem dt a m n rm : sound mem (DenseObject dt a) m n ->
  (if rm then c_contiguous a else f_contiguous a) ->
  let s := Dense rm (drop (start2 a) (nth [::] (reals mem) (base2 a))) in
  well_formed s m n /\ denotes s m n = value mem (DenseObject dt a) m n.
Proof.
  move=> [Em En Hb H] Hc /=.
  have P i j : i < m -> j < n ->
    pos2 a i j = start2 a + (if rm then i * n + j else i + m * j).
  { move=> Hi Hj. case: rm Hc => Hc.
    - rewrite dense_pos_row ?En //; lia.
    - rewrite dense_pos_col ?Em //; lia. }
  split.
  - rewrite size_drop. case Em': m => [|m'] //. case En': n => [|n']; first by rewrite muln0.
    have Hm : m' < m by lia. have Hn : n' < n by lia.
    have [_] := H m' n' Hm Hn. rewrite P //. rewrite -Em' -En'. case: (rm) => ?; nia.
  - apply/matrixP => i j. by rewrite !mxE nth_drop P.
Qed.

(** ** Sorting *)

Definition line_sum (ptr : seq nat) (s : seq (nat * R)) (l j : nat) : R :=
  (\sum_(nth 0%N ptr l <= q < nth 0%N ptr l.+1 | (nth (0%N, 0) s q).1 == j) (nth (0%N, 0) s q).2)%R.

Lemma sum_range (s : seq (nat * R)) a b (P : pred (nat * R)) : b <= size s ->
  (\sum_(a <= q < b | P (nth (0%N, 0) s q)) (nth (0%N, 0) s q).2 =
   \sum_(x <- drop a (take b s) | P x) x.2)%R.
Proof.
  move=> Hb. rewrite (big_nth (0%N, 0%R)) size_drop size_take_min (minn_idPl Hb).
  rewrite -{1}[a]add0n big_addn big_nat_cond [RHS]big_nat_cond. apply: eq_big => q.
  - case Hq: (_ <= q < _) => //=. rewrite nth_drop nth_take 1?addnC //; lia.
  - case/andP => Hq _. rewrite nth_drop nth_take 1?addnC //; lia.
Qed.

Lemma size_sort_line (s : seq (nat * R)) a b : b <= size s -> size (sort_line s a b) = size s.
Proof.
  move=> Hb. rewrite /sort_line. case: ltnP => // Hab.
  rewrite !size_cat size_sort !size_drop !size_take_min. lia.
Qed.

Lemma nth_sort_line_out (s : seq (nat * R)) a b q x : b <= size s -> q < a \/ b <= q ->
  nth x (sort_line s a b) q = nth x s q.
Proof.
  move=> Hb Hq. rewrite /sort_line. case: ltnP => // Hab.
  rewrite nth_cat size_take_min. case: ltnP => H1.
  { rewrite nth_take //; lia. }
  rewrite nth_cat size_sort size_drop size_take_min. case: ltnP => H2; first lia.
  rewrite nth_drop. congr nth. lia.
Qed.

Lemma range_sort_line (s : seq (nat * R)) a b : b <= size s -> a < b ->
  drop a (take b (sort_line s a b)) = sort (fun x y => x.1 <= y.1) (drop a (take b s)).
Proof.
  move=> Hb Hab. rewrite /sort_line Hab catA take_size_cat; last first.
  { rewrite size_cat size_sort size_drop !size_take_min. lia. }
  rewrite drop_size_cat // size_take_min. lia.
Qed.

(** What sorting leaves unchanged *)
Definition lines_ok (L W : nat) (ptr : seq nat) (s : seq (nat * R)) : Prop :=
  forall l q, l < L -> nth 0 ptr l <= q < nth 0 ptr l.+1 ->
    q < size s /\ (nth (0, 0%R) s q).1 < W.

Lemma mono_ptr L ptr i j : nondecreasing L ptr -> i <= j -> j <= L -> nth 0 ptr i <= nth 0 ptr j.
Proof.
  move=> H Hij. rewrite -(subnK Hij). elim: (j - i) => [|k IH] Hj //.
  apply: leq_trans (IH _) _; first lia. apply: H. lia.
Qed.

Lemma lines_end L W ptr (s : seq (nat * R)) l : lines_ok L W ptr s -> l < L -> nth 0 ptr l < nth 0 ptr l.+1 ->
  nth 0 ptr l.+1 <= size s.
Proof.
  move=> H Hl Hlt. have Hq : nth 0 ptr l <= (nth 0 ptr l.+1).-1 < nth 0 ptr l.+1 by lia.
  have [] := H l _ Hl Hq. lia.
Qed.

Lemma sort_line_keeps L W ptr (s : seq (nat * R)) l0 : nondecreasing L ptr -> lines_ok L W ptr s -> l0 < L ->
  let s' := sort_line s (nth 0 ptr l0) (nth 0 ptr l0.+1) in
  [/\ size s' = size s, lines_ok L W ptr s' &
      forall l j, l < L -> line_sum ptr s' l j = line_sum ptr s l j].
Proof.
  move=> Hm Hok Hl0 /=. set a := nth 0 ptr l0. set b := nth 0 ptr l0.+1.
  case: (ltnP a b) => Hab; last first.
  { rewrite /sort_line ltnNge Hab /=. by split. }
  have Hb : b <= size s by apply: lines_end Hok Hl0 Hab.
  have Hsz := size_sort_line a Hb.
  have Hout l q : l < L -> l <> l0 -> nth 0 ptr l <= q < nth 0 ptr l.+1 -> q < a \/ b <= q.
  { move=> Hl Hne Hq. case: (ltnP l l0) => Hc.
    - have := mono_ptr Hm Hc (ltnW Hl0). rewrite -/a. lia.
    - have Hc' : l0.+1 <= l by lia. have := mono_ptr Hm Hc' (ltnW Hl). rewrite -/b. lia. }
  split => //.
  - move=> l q Hl Hq. have [H1 H2] := Hok l q Hl Hq. rewrite Hsz. split => //.
    case: (altP (l =P l0)) => [El|/eqP Hne]; last by rewrite nth_sort_line_out //; apply: Hout Hl Hne Hq.
    have Hq' : a <= q < b by move: Hq; rewrite El.
    have -> : nth (0, 0%R) (sort_line s a b) q
            = nth (0, 0%R) (drop a (take b (sort_line s a b))) (q - a).
    { rewrite nth_drop nth_take ?subnKC //; lia. }
    rewrite range_sort_line //. set r := drop a (take b s).
    have Hr : size r = b - a by rewrite size_drop size_take_min (minn_idPl Hb).
    have Hin : nth (0, 0%R) (sort (fun x y => x.1 <= y.1) r) (q - a) \in r.
    { rewrite -(mem_sort (fun x y : nat * R => x.1 <= y.1)). apply: mem_nth. rewrite size_sort Hr. lia. }
    case/(nthP (0, 0%R)): Hin => k Hk <-. rewrite Hr in Hk.
    rewrite /r nth_drop nth_take; last lia.
    have Hk' : nth 0 ptr l0 <= a + k < nth 0 ptr l0.+1 by rewrite -/a -/b; lia.
    by have [] := Hok l0 (a + k) Hl0 Hk'.
  - move=> l j Hl. case: (altP (l =P l0)) => [->|/eqP Hne].
    + rewrite /line_sum -/a -/b !(@sum_range _ _ _ (fun x => x.1 == j)) ?Hsz // range_sort_line //.
      apply: perm_big. by rewrite perm_sort.
    + rewrite /line_sum big_nat_cond [RHS]big_nat_cond. apply: eq_big => q.
      * case Hq: (_ <= q < _) => //=. rewrite nth_sort_line_out //. exact: Hout Hl Hne Hq.
      * case/andP => Hq _. rewrite nth_sort_line_out //. exact: Hout Hl Hne Hq.
Qed.

Lemma sort_lines_keeps L W ptr (s : seq (nat * R)) : nondecreasing L ptr -> lines_ok L W ptr s ->
  let s' := sort_lines L ptr s in
  [/\ size s' = size s, lines_ok L W ptr s' &
      forall l j, l < L -> line_sum ptr s' l j = line_sum ptr s l j].
Proof.
  move=> Hm Hok. rewrite /sort_lines /=.
  have : all (fun l => l < L) (iota 0 L) by apply/allP => l; rewrite mem_iota.
  elim: (iota 0 L) s Hok => [|l0 t IH] s Hok /=; first by move=> _.
  case/andP => Hl0 Ht. have [E1 E2 E3] := sort_line_keeps Hm Hok Hl0.
  have [F1 F2 F3] := IH _ E2 Ht. split => //; first by rewrite F1 E1.
  move=> l j Hl. by rewrite F3 // E3.
Qed.

Lemma zip_line L W (d : seq R) i p : compressed_ok L W d i p ->
  lines_ok L W p (zip i d) /\
  (forall l q, l < L -> nth 0 p l <= q < nth 0 p l.+1 ->
     nth (0, 0%R) (zip i d) q = (nth 0 i q, nth 0%R d q)).
Proof.
  move=> [Hp H]. have E l q : l < L -> nth 0 p l <= q < nth 0 p l.+1 ->
     nth (0, 0%R) (zip i d) q = (nth 0 i q, nth 0%R d q).
  { move=> Hl Hq. have [H1 H2 H3] := H l q Hl Hq. by rewrite nth_zip_cond size_zip leq_min H2 H1. }
  split => // l q Hl Hq. have [H1 H2 H3] := H l q Hl Hq.
  by rewrite (E l) // size_zip leq_min H1 H2.
Qed.

Lemma csr_lineE L W (d : seq R) i p (s : seq (nat * R)) (r : 'I_L) (c : 'I_W) :
  (forall l q, l < L -> nth 0 p l <= q < nth 0 p l.+1 -> nth (0, 0%R) s q = (nth 0 i q, nth 0%R d q)) ->
  csr_matrix L W d i p r c = line_sum p s r c.
Proof.
  move=> E. rewrite mxE /line_sum big_nat_cond [RHS]big_nat_cond. apply: eq_big => q.
  - case Hq: (_ <= q < _) => //=. by rewrite (E r).
  - case/andP => Hq _. by rewrite (E r).
Qed.

Lemma csc_lineE L W (d : seq R) i p (s : seq (nat * R)) (r : 'I_L) (c : 'I_W) :
  (forall l q, l < W -> nth 0 p l <= q < nth 0 p l.+1 -> nth (0, 0%R) s q = (nth 0 i q, nth 0%R d q)) ->
  csc_matrix L W d i p r c = line_sum p s c r.
Proof.
  move=> E. rewrite mxE /line_sum big_nat_cond [RHS]big_nat_cond. apply: eq_big => q.
  - case Hq: (_ <= q < _) => //=. by rewrite (E c).
  - case/andP => Hq _. by rewrite (E c).
Qed.

Lemma sort_arrays L W (d : seq R) i p : compressed_ok L W d i p -> nondecreasing L p ->
  let s' := sort_lines L p (zip i d) in
  let i' := unzip1 s' ++ drop (size s') i in
  let d' := unzip2 s' ++ drop (size s') d in
  [/\ size s' = minn (size i) (size d), compressed_ok L W d' i' p,
      csr_matrix L W d' i' p = csr_matrix L W d i p
    & csc_matrix W L d' i' p = csc_matrix W L d i p].
Proof.
  move=> Hc Hm /=. have [Hok E] := zip_line Hc.
  have [] := sort_lines_keeps Hm Hok. set s' := sort_lines _ _ _.
  rewrite size_zip => Hs Hok' Hsum.
  have E' l q : l < L -> nth 0 p l <= q < nth 0 p l.+1 ->
    nth (0, 0%R) s' q = (nth 0 (unzip1 s' ++ drop (size s') i) q, nth 0%R (unzip2 s' ++ drop (size s') d) q).
  { move=> Hl Hq. have [H1 _] := Hok' l q Hl Hq.
    rewrite !nth_cat !size_map H1 (nth_map (0, 0%R)) // (nth_map (0, 0%R)) //.
    by case: (nth _ s' q). }
  split => //.
  - case: (Hc) => Hp H; split => // l q Hl Hq. have [H1 H2 H3] := H l q Hl Hq.
    have [H4 H5] := Hok' l q Hl Hq. rewrite (E' l q) //= in H5.
    rewrite !size_cat !size_drop !size_map. split => //; lia.
  - apply/matrixP => r c. by rewrite (csr_lineE r c E') (csr_lineE r c E) Hsum.
  - apply/matrixP => r c. by rewrite (csc_lineE r c E') (csc_lineE r c E) Hsum.
Qed.

(** The same arrays *)
Definition same_arrays (s s' : sparse) : Prop :=
  [/\ fmt s' = fmt s, srows s' = srows s, scols s' = scols s &
      [/\ data s' = data s, indices s' = indices s, indptr s' = indptr s
        & native_index s' = native_index s]].

Lemma sort_indices_ok mem dt (s : sparse) m n : compressed s -> sound mem (SparseObject dt s) m n ->
  let: (mem', s') := sort_indices mem s in
  [/\ sound mem' (SparseObject dt s') m n, same_arrays s s' &
      value mem' (SparseObject dt s') m n = value mem (SparseObject dt s) m n].
Proof.
  move=> Hf. rewrite /sound /sort_indices /value /=.
  set d := elems _ (reals mem) _. set i := elems _ _ (indices s). set p := elems _ _ (indptr s).
  move=> [Em En [Id Ii Ip] [Dd Di Ne] Hc].
  set s' := sort_lines _ _ _.
  have Hsz : size s' = minn (size i) (size d) /\
    match fmt s with
    | CSR => compressed_ok m n (unzip2 s' ++ drop (size s') d) (unzip1 s' ++ drop (size s') i) p
    | CSC => compressed_ok n m (unzip2 s' ++ drop (size s') d) (unzip1 s' ++ drop (size s') i) p
    | _ => True end /\
    match fmt s with
    | CSR => csr_matrix m n (unzip2 s' ++ drop (size s') d) (unzip1 s' ++ drop (size s') i) p
             = csr_matrix m n d i p
    | CSC => csc_matrix m n (unzip2 s' ++ drop (size s') d) (unzip1 s' ++ drop (size s') i) p
             = csc_matrix m n d i p
    | _ => True end.
  { move: Hc Hf. rewrite /compressed /s' /lines. case: (fmt s) => [||k] // [Hc Hm] _.
    - have [? ? ? ?] := sort_arrays Hc Hm. by rewrite Em.
    - have [? ? ? ?] := sort_arrays Hc Hm. by rewrite En. }
  case: Hsz => Hsz [Hc' Hv].
  have Ei : elems 0 (set_nth [::] (ints mem) (base (indices s))
      (store 0 (nth [::] (ints mem) (base (indices s))) (indices s) (unzip1 s'))) (indices s)
    = unzip1 s' ++ drop (size s') i.
  { rewrite elems_store // ?size_map //. rewrite Hsz !size_elems. lia. }
  have Ed : elems 0%R (set_nth [::] (reals mem) (base (data s))
      (store 0%R (nth [::] (reals mem) (base (data s))) (data s) (unzip2 s'))) (data s)
    = unzip2 s' ++ drop (size s') d.
  { rewrite elems_store // ?size_map //. rewrite Hsz !size_elems. lia. }
  have Ep : elems 0 (set_nth [::] (ints mem) (base (indices s))
      (store 0 (nth [::] (ints mem) (base (indices s))) (indices s) (unzip1 s'))) (indptr s) = p.
  { by rewrite elems_other // => E; apply: Ne. }
  rewrite Ei Ed Ep. split => //.
  - split => //.
    + split; apply: inside_store => //; rewrite size_map Hsz !size_elems; lia.
    + move: Hc Hc' Hf. rewrite /compressed. by case: (fmt s) => [||k] // [? ?].
  - move: Hf Hv. rewrite /compressed. by case: (fmt s).
Qed.

Lemma ensure_sorted_ok mem dt (s : sparse) m n : compressed s -> sound mem (SparseObject dt s) m n ->
  let: (mem', s') := ensure_sorted mem s in
  [/\ sound mem' (SparseObject dt s') m n, same_arrays s s' &
      value mem' (SparseObject dt s') m n = value mem (SparseObject dt s) m n].
Proof.
  move=> Hf Hs. rewrite /ensure_sorted. case: ifP => // _. exact: sort_indices_ok.
Qed.

(** Only the blocks of the two arrays change *)
Lemma ensure_sorted_frame mem dt (s : sparse) m n : sound mem (SparseObject dt s) m n ->
  let: (mem', s') := ensure_sorted mem s in
  [/\ forall b, b <> base (data s) -> nth [::] (reals mem') b = nth [::] (reals mem) b,
      forall b, b <> base (indices s) -> nth [::] (ints mem') b = nth [::] (ints mem) b,
      size (reals mem') = size (reals mem) & size (ints mem') = size (ints mem)].
Proof.
  move=> [_ _ [[I1 _] [I2 _] [I3 _]] _ _]. rewrite /ensure_sorted. case: ifP => // _ /=.
  split.
  - move=> b Hb. rewrite nth_set_nth /=. by case: eqP Hb.
  - move=> b Hb. rewrite nth_set_nth /=. by case: eqP Hb.
  - rewrite size_set_nth. lia.
  - rewrite size_set_nth. lia.
Qed.

Lemma sound_bounds mem A m n : sound mem A m n ->
  (forall b, b \in object_reals A -> b < size (reals mem)) /\
  (forall b, b \in object_ints A -> b < size (ints mem)).
Proof.
  case: A => // [dt a|dt s] /=.
  - move=> [_ _ H _]. split => // b. by rewrite inE => /eqP ->.
  - move=> [_ _ [[I1 _] [I2 _] [I3 _]] _ _].
    split => b; rewrite !inE; first by move/eqP ->. by case/orP => /eqP ->.
Qed.

(** ** The index arrays *)

Lemma astype_ok mem (native : bool) a : inside1 (ints mem) a -> (native -> contiguous1 a) ->
  let: (mem', a') := astype_index mem native a in
  [/\ reals mem' = reals mem, exists t, ints mem' = ints mem ++ t,
      inside1 (ints mem') a' /\ contiguous1 a',
      elems 0 (ints mem') a' = elems 0 (ints mem) a &
      if native then a' = a /\ mem' = mem else writeable a' /\ size (ints mem) <= base a'].
Proof.
  move=> I C. rewrite /astype_index. case: native C => C /=.
  { split => //; first by exists [::]; rewrite cats0. split => //. exact: C. }
  have E : nth [::] (rcons (ints mem) (elems 0 (ints mem) a)) (size (ints mem)) = elems 0 (ints mem) a.
  { by rewrite nth_rcons ltnn eqxx. }
  have Ef : fresh (size (ints mem)) (len a) = fresh (size (ints mem)) (size (elems 0 (ints mem) a)).
  { by rewrite size_elems. }
  rewrite Ef. split => //.
  - exists [:: elems 0 (ints mem) a]. by rewrite cats1.
  - split; last exact: contiguous_fresh. apply: inside_fresh => //. by rewrite size_rcons.
  - exact: elems_fresh.
Qed.

Lemma elems_cat (T : Type) (x0 : T) (blocks t : seq (seq T)) a : base a < size blocks ->
  elems x0 (blocks ++ t) a = elems x0 blocks a.
Proof. move=> H. by rewrite /elems nth_cat H. Qed.

Lemma inside_cat (T : Type) (blocks t : seq (seq T)) a : inside1 blocks a -> inside1 (blocks ++ t) a.
Proof.
  move=> [H I]; split; first by rewrite size_cat; lia.
  move=> k Hk. by rewrite nth_cat H; apply: I.
Qed.

(** The C++ object w points to the arrays of s, or to copies of its index arrays *)
Definition tied mem (s : sparse) (w : wrapper) : Prop :=
  [/\ w_rows w = srows s, w_cols w = scols s &
      exists idx ptr, [/\ A_indices_copy w = Some idx, A_index_pointer_copy w = Some ptr,
        w_pointers w = (if fmt s is CSC then PCsc else PCsr) (base (data s), start (data s))
                         (base idx, start idx) (base ptr, start ptr),
        [/\ inside1 (ints mem) idx, contiguous1 idx &
            elems 0 (ints mem) idx = elems 0 (ints mem) (indices s)] /\
        [/\ inside1 (ints mem) ptr, contiguous1 ptr &
            elems 0 (ints mem) ptr = elems 0 (ints mem) (indptr s)] &
        if native_index s then idx = indices s /\ ptr = indptr s else True]].

Lemma set_sparse_ok mem dt (s : sparse) m n kept : compressed s ->
  sound mem (SparseObject dt s) m n -> consecutive (SparseObject dt s) ->
  dt <> OtherType -> acceptable (SparseObject dt s) ->
  exists mem' w, [/\ set_sparse mem s kept = Ok (mem', w), reals mem' = reals mem,
    exists t, ints mem' = ints mem ++ t, tied mem' s w & A_csr w = kept].
Proof.
  move=> Hf [Em En [Id Ii Ip] [Dd Di Ne] Hc] Hcons Hdt Hacc.
  have {}Hcons : contiguous1 (data s) /\
    (native_index s -> contiguous1 (indices s) /\ contiguous1 (indptr s)).
  { move: Hcons Hf. rewrite /= /compressed. by case: (fmt s). }
  have {}Hacc : writeable (data s) &&
             (native_index s ==> (writeable (indices s) && writeable (indptr s))).
  { move: Hacc Hf. rewrite /= /compressed. by case: dt Hdt => //; case: (fmt s). }
  case: Hcons => Cd Cn. rewrite /set_sparse.
  have := @astype_ok mem (native_index s) _ Ii (fun b => proj1 (Cn b)).
  case: astype_index => mem1 idx [Er1 [t1 Et1] [Ii1 Ci1] Ee1 Hn1].
  have Ip1 : inside1 (ints mem1) (indptr s) by rewrite Et1; apply: inside_cat.
  have := @astype_ok mem1 (native_index s) _ Ip1 (fun b => proj2 (Cn b)).
  case: astype_index => mem2 ptr [Er2 [t2 Et2] [Ip2 Cp2] Ee2 Hn2].
  have -> : [&& writeable idx, writeable ptr & writeable (data s)].
  { move: Hacc Hn1 Hn2. case: (native_index s) => /= /andP [-> H].
    - by move=> [-> _] [-> _]; rewrite andbT.
    - by move=> [-> _] [-> _]. }
  rewrite /=. do 2 eexists. split; first by [].
  - by rewrite Er2 Er1.
  - exists (t1 ++ t2). by rewrite Et2 Et1 catA.
  - split => //=. exists idx, ptr. split => //.
    + split; split => //.
      * rewrite Et2. exact: inside_cat.
      * rewrite Et2 elems_cat ?Ee1 ?Et1; last by case: Ii1; rewrite Et1.
        rewrite -catA elems_cat //. by case: Ii.
      * rewrite Ee2 Et2 elems_cat //. by case: Ip1.
    + move: Hn1 Hn2. by case: (native_index s) => // - [-> _] [-> _].
  - by [].
Qed.

(** What the C++ object computes with *)
Lemma tied_seen mem dt (s : sparse) w m n : compressed s -> sound mem (SparseObject dt s) m n ->
  contiguous1 (data s) -> tied mem s w ->
  [/\ w_rows w = m, w_cols w = n, well_formed (wrapper_storage mem w) m n &
      denotes (wrapper_storage mem w) m n = value mem (SparseObject dt s) m n].
Proof.
  move=> Hf [Em En [Id Ii Ip] [Dd Di Ne] Hc] Cd
    [Er Ec [idx [ptr [_ _ Ew [[I1 C1 E1] [I2 C2 E2]] _]]]].
  split; rewrite ?Er ?Ec //; rewrite /wrapper_storage Ew /=.
  - have Ad := agree_drop 0%R Id Cd. have Ai := agree_drop 0 I1 C1. have Ap := agree_drop 0 I2 C2.
    rewrite E1 in Ai. rewrite E2 in Ap. move: Hc Hf. rewrite /compressed.
    case: (fmt s) => [||k] // [Hc Hm] _ /=; exact: compressed_agree Hc Ad Ai Ap.
  - have Ad := agree_drop 0%R Id Cd. have Ai := agree_drop 0 I1 C1. have Ap := agree_drop 0 I2 C2.
    rewrite E1 in Ai. rewrite E2 in Ap. move: Hc Hf. rewrite /compressed.
    case: (fmt s) => [||k] // [Hc Hm] _ /=; [exact: csr_agree Hc Ad Ai Ap|exact: csc_agree Hc Ad Ai Ap].
Qed.

(** ** Conversion *)

Section Convert.
Variable to_csr : nat -> nat -> seq (nat * nat * R) -> seq R * seq nat * seq nat.
Hypothesis Hto : to_csr_ok to_csr.

Lemma sum_nth_zip (t : seq (nat * nat * R)) (P : pred (nat * nat)) :
  (\sum_(x <- t | P x.1) x.2 =
   \sum_(q < size t | P (nth (0%N, 0%N, 0) t q).1) (nth (0%N, 0%N, 0) t q).2)%R.
Proof. by rewrite (big_nth (0%N, 0%N, 0%R)) big_mkord. Qed.

Lemma convert_ok mem dt (s : sparse) m n : ~~ compressed s -> sound mem (SparseObject dt s) m n ->
  let: (mem', c) := convert to_csr mem s in
  [/\ sound mem' (SparseObject dt c) m n /\
      value mem' (SparseObject dt c) m n = value mem (SparseObject dt s) m n,
      [/\ fmt c = CSR, native_index c, writeable (data c), writeable (indices c) & writeable (indptr c)],
      [/\ contiguous1 (data c), contiguous1 (indices c) & contiguous1 (indptr c)],
      [/\ base (data c) = size (reals mem), base (indices c) = size (ints mem)
        & base (indptr c) = (size (ints mem)).+1] &
      exists t1 t2, reals mem' = reals mem ++ t1 /\ ints mem' = ints mem ++ t2].
Proof.
  move=> Hf [Em En [Id Ii Ip] [Dd Di Ne] Hc]. rewrite /convert.
  set t := zip _ _.
  have {}Hc : [/\ len (indices s) = len (data s), len (indptr s) = len (data s) &
    forall q, q < len (data s) ->
      nth 0 (elems 0 (ints mem) (indices s)) q < m /\ nth 0 (elems 0 (ints mem) (indptr s)) q < n].
  { move: Hc Hf. rewrite /compressed. by case: (fmt s). }
  case: Hc => L1 L2 Hr.
  have St : size t = len (data s).
  { rewrite /t !size_zip !size_elems L1 L2. lia. }
  have Nt q : q < len (data s) -> nth (0, 0, 0%R) t q =
    (nth 0 (elems 0 (ints mem) (indices s)) q, nth 0 (elems 0 (ints mem) (indptr s)) q,
     nth 0%R (elems 0%R (reals mem) (data s)) q).
  { move=> Hq. rewrite /t nth_zip_cond size_zip size_elems size_zip !size_elems L1 L2 !minnn Hq /=.
    congr pair. by rewrite nth_zip ?size_elems ?L1 ?L2. }
  have Hall : all (fun x => (x.1.1 < m) && (x.1.2 < n)) t.
  { apply/(all_nthP (0, 0, 0%R)) => q. rewrite St => Hq. rewrite Nt //=.
    by have [-> ->] := Hr q Hq. }
  have := Hto Hall. rewrite Em En. case: (to_csr m n t) => [[d i] p] [Hok Hmo Hval] /=.
  have Er : nth [::] (rcons (reals mem) d) (size (reals mem)) = d by rewrite nth_rcons ltnn eqxx.
  have Ei : nth [::] (rcons (rcons (ints mem) i) p) (size (ints mem)) = i.
  { by rewrite !nth_rcons size_rcons ltnS leqnn ltnn eqxx. }
  have Ep : nth [::] (rcons (rcons (ints mem) i) p) (size (ints mem)).+1 = p.
  { by rewrite nth_rcons size_rcons ltnn eqxx. }
  split => //; first split.
  - split => //=.
    + split; apply: inside_fresh => //; rewrite !size_rcons; lia.
    + split; [by left|by left|lia].
    + by rewrite !elems_fresh.
  - rewrite /value /= !elems_fresh // Hval. move: Hf. rewrite /compressed. case: (fmt s) => // k _.
    apply/matrixP => r c. rewrite !mxE.
    rewrite (@sum_nth_zip t (fun x => (x.1 == r) && (x.2 == c))) St.
    apply: eq_big => q; rewrite Nt //.
  - by split; left.
  - exists [:: d], [:: i; p]. by rewrite cats1 -!cats1 -catA.
Qed.

End Convert.

(** ** Products *)

Section Histories.
Variable to_csr : nat -> nat -> seq (nat * nat * R) -> seq R * seq nat * seq nat.

Lemma product_ok (W : world R) w S m n (V : 'M[R]_(m, n)) t v c :
  storage_of W w = Some S -> w_rows w = m -> w_cols w = n -> well_formed S m n -> denotes S m n = V ->
  (if t then m else n) <= size v -> (if t then n else m) <= size c ->
  gives V t v c (Some (Product (product W w t v c))).
Proof.
  move=> ES Er Ec Hw HV Hv Hc. rewrite /product ES /= Er Ec /gives. case: t Hv Hc => Hv Hc.
  - have [c' [E H1 H2 H3]] := transpose_dot_ok Hw Hv Hc. exists c'. rewrite E. split => //.
    exists c'. by rewrite -HV.
  - have [c' [E H1 H2 H3]] := dot_ok Hw Hv Hc. exists c'. rewrite E. split => //.
    exists c'. by rewrite -HV.
Qed.

Lemma storage_tied (W : world R) w dt s : matrix W = SparseObject dt s -> wrap W = Some w ->
  tied (mem W) s w -> storage_of W w = Some (wrapper_storage (mem W) w).
Proof.
  move=> EA Ew [_ _ [idx [ptr [E1 E2 E3 _ _]]]].
  rewrite /storage_of /wrapper_storage E3 /deref /live_reals /live_ints EA Ew /= E1 E2.
  have Li b : b \in [:: base idx] ++ [:: base ptr] ->
    b \in [:: base (indices s), base (indptr s) &
             (if A_csr w is Some s0 then [:: base (indices s0); base (indptr s0)] else [::]) ++
             [:: base idx] ++ [:: base ptr]].
  { move=> H. by rewrite !inE mem_cat H !orbT. }
  case: (fmt s) => [||k] /=; by rewrite mem_head /= !Li //= !inE eqxx ?orbT.
Qed.

(** pokes *)
Lemma size_poke (T : Type) (blocks : seq (seq T)) b k x : size (poke blocks b k x) = size blocks.
Proof. rewrite /poke. case: ifP => // /andP [H _]. rewrite size_set_nth. lia. Qed.

Lemma size_poked (T : Type) (blocks : seq (seq T)) b k x b' :
  size (nth [::] (poke blocks b k x) b') = size (nth [::] blocks b').
Proof.
  rewrite /poke. case: ifP => // /andP [H H2]. rewrite nth_set_nth /=. case: eqP => // ->.
  rewrite size_set_nth. lia.
Qed.

Lemma nth_poke (T : Type) (blocks : seq (seq T)) b k x b' : b' <> b ->
  nth [::] (poke blocks b k x) b' = nth [::] blocks b'.
Proof. rewrite /poke. case: ifP => // _ H. rewrite nth_set_nth /=. by case: eqP H. Qed.

Lemma inside_poke (T : Type) (blocks : seq (seq T)) b k x a :
  inside1 blocks a -> inside1 (poke blocks b k x) a.
Proof.
  move=> [H I]; split; first by rewrite size_poke. move=> l Hl. by rewrite size_poked; apply: I.
Qed.

(** ** Dense matrices *)

Definition tied_dense (a : array2) (w : wrapper) : Prop :=
  [/\ w_rows w = rows a, w_cols w = cols a &
      exists rm : bool, w_pointers w = PDense rm (base2 a, start2 a) /\
        (if rm then c_contiguous a else f_contiguous a)].

Lemma set_dense_ok mem dt a : acceptable (DenseObject dt a) ->
  exists w, set_dense mem a = Ok (mem, w) /\ tied_dense a w.
Proof.
  move=> Hacc. have {Hacc} /andP [Hc Hw] : (c_contiguous a || f_contiguous a) && writeable2 a.
  { by case: dt Hacc. }
  rewrite /set_dense Hw /=. case: ifP => Hcc.
  - eexists. split => //. split => //. by exists true.
  - rewrite Hcc /= in Hc. rewrite Hc. eexists. split => //. split => //. by exists false.
Qed.

Lemma dense_product (W : world R) w dt a m n t v c :
  matrix W = DenseObject dt a -> sound (mem W) (matrix W) m n -> tied_dense a w ->
  (if t then m else n) <= size v -> (if t then n else m) <= size c ->
  gives (value (mem W) (matrix W) m n) t v c (Some (Product (product W w t v c))).
Proof.
  move=> EA Hs [Er Ec [rm [Ep Hrm]]] Hv Hc. rewrite EA in Hs *.
  have [Hw Hd] := dense_seen Hs Hrm. case: (Hs) => Em En _ _.
  apply: product_ok Hw Hd Hv Hc; rewrite ?Er ?Ec //.
  by rewrite /storage_of Ep /= /deref /live_reals EA /= mem_head.
Qed.

Definition dense_inv (A : object) (W : world R) : Prop :=
  matrix W = A /\ (if A is DenseObject _ a then if wrap W is Some w then tied_dense a w else True else False).

Lemma create_dense mem dt a : acceptable (DenseObject dt a) ->
  exists w, create to_csr mem (DenseObject dt a) = Ok (mem, DenseObject dt a, w) /\ tied_dense a w.
Proof.
  move=> Hacc. have [w [E Ht]] := set_dense_ok mem Hacc. exists w. split => //.
  case: dt Hacc => // _; by rewrite /= E.
Qed.

Lemma dense_step A W e : acceptable A -> dense_inv A W -> dense_inv A (step to_csr W e).1.
Proof.
  case: A => [|?|dt a|?? _ [_ []]] // Hacc [EA Hw]. case: e => [b k x|b k x|d i p|t v c] /=.
  - by case: ifP.
  - by case: ifP.
  - by rewrite EA; split.
  - move: Hw. case Ew: (wrap W) => [w|] //= Hw; first by split => //; rewrite Ew.
    rewrite EA. have [w [-> Ht]] := create_dense (mem W) Hacc. by split.
Qed.

Lemma dense_run A W h : acceptable A -> dense_inv A W -> dense_inv A (run to_csr W h).
Proof.
  move=> Hacc. elim: h W => [|e h IH] W Hi //=. apply: IH. exact: dense_step.
Qed.

Lemma dense_compute A W m n t v c : acceptable A -> dense_inv A W -> sound (mem W) (matrix W) m n ->
  (if t then m else n) <= size v -> (if t then n else m) <= size c ->
  gives (value (mem W) (matrix W) m n) t v c (step to_csr W (Compute t v c)).2.
Proof.
  case: A => [|?|dt a|?? _ [_ []]] // Hacc [EA Hw] Hs Hv Hc /=. move: Hw. case Ew: (wrap W) => [w|] Hw /=.
  - exact: dense_product EA Hs Hw Hv Hc.
  - rewrite EA. have [w [-> Ht]] := create_dense (mem W) Hacc. rewrite /=.
    rewrite EA in Hs.
    exact: (@dense_product (World (mem W) (DenseObject dt a) (others W) (Some w)) w dt a m n t v c).
Qed.

(** ** CSR and CSC matrices *)

Lemma same_arraysC s s' dt : same_arrays s s' ->
  [/\ acceptable (SparseObject dt s') = acceptable (SparseObject dt s),
      consecutive (SparseObject dt s') <-> consecutive (SparseObject dt s) &
      compressed s' = compressed s].
Proof.
  move=> [E1 E2 E3 [E4 E5 E6 E7]].
  by rewrite /acceptable /consecutive /compressed E1 E4 E5 E6 E7.
Qed.

Lemma same_arrays_trans s s' s'' : same_arrays s s' -> same_arrays s' s'' -> same_arrays s s''.
Proof.
  move=> [E1 E2 E3 [E4 E5 E6 E7]] [F1 F2 F3 [F4 F5 F6 F7]].
  by split; [rewrite F1|rewrite F2|rewrite F3|split; [rewrite F4|rewrite F5|rewrite F6|rewrite F7]].
Qed.

Lemma value_frame mem mem' A m n k l : sound mem A k l ->
  (forall b, b \in object_reals A -> nth [::] (reals mem') b = nth [::] (reals mem) b) ->
  (forall b, b \in object_ints A -> nth [::] (ints mem') b = nth [::] (ints mem) b) ->
  value mem' A m n = value mem A m n.
Proof.
  case: A => // [dt a|dt s] _ Hr Hi /=.
  - apply/matrixP => i j. by rewrite !mxE Hr // mem_head.
  - have -> : elems 0%R (reals mem') (data s) = elems 0%R (reals mem) (data s).
    { by rewrite /elems Hr // mem_head. }
    have -> : elems 0 (ints mem') (indices s) = elems 0 (ints mem) (indices s).
    { by rewrite /elems Hi // mem_head. }
    have -> // : elems 0 (ints mem') (indptr s) = elems 0 (ints mem) (indptr s).
    by rewrite /elems Hi // !inE eqxx orbT.
Qed.

Lemma create_sparse mem dt s m n : compressed s -> acceptable (SparseObject dt s) ->
  consecutive (SparseObject dt s) -> sound mem (SparseObject dt s) m n ->
  exists mem' s' w, [/\ create to_csr mem (SparseObject dt s) = Ok (mem', SparseObject dt s', w),
    sound mem' (SparseObject dt s') m n /\ same_arrays s s',
    value mem' (SparseObject dt s') m n = value mem (SparseObject dt s) m n,
    tied mem' s' w & A_csr w = None].
Proof.
  move=> Hf Hacc Hcons Hs.
  have Hdt : dt <> OtherType by move=> E; rewrite E in Hacc.
  have := ensure_sorted_ok Hf Hs. rewrite /create.
  have -> : (match dt with OtherType => Raise TypeError | _ =>
     if fmt s is OtherFormat _ then
        let (mem, c) := convert to_csr mem s in
        let (mem, c) := ensure_sorted mem c in
        match set_sparse mem c (Some c) with
        | Ok (mem, w) => Ok (mem, SparseObject dt s, w)
        | Raise e => Raise e
        end
      else
        let (mem, s) := ensure_sorted mem s in
        match set_sparse mem s None with
        | Ok (mem, w) => Ok (mem, SparseObject dt s, w)
        | Raise e => Raise e
        end end) =
        (let (mem, s) := ensure_sorted mem s in
        match set_sparse mem s None with
        | Ok (mem, w) => Ok (mem, SparseObject dt s, w)
        | Raise e => Raise e
        end).
  { move: Hf Hdt. rewrite /compressed. by case: (fmt s); case: dt Hacc Hcons Hs. }
  case: ensure_sorted => mem1 s1 [Hs1 Ha1 Hv1].
  have [Ea1 Ec1 Ef1] := same_arraysC dt Ha1.
  have Hf1 : compressed s1 by rewrite Ef1. have Hacc1 : acceptable (SparseObject dt s1) by rewrite Ea1.
  have Hcons1 : consecutive (SparseObject dt s1) by apply/Ec1.
  have [mem2 [w [E Er [tt Et] Ht Hk]]] := set_sparse_ok None Hf1 Hs1 Hcons1 Hdt Hacc1.
  rewrite E. exists mem2, s1, w.
  have Fr b : b \in object_reals (SparseObject dt s1) ->
    nth [::] (reals mem2) b = nth [::] (reals mem1) b by rewrite Er.
  have [_ _ [_ [Hi _] [Hp _]] _ _] := Hs1.
  have Fi b : b \in object_ints (SparseObject dt s1) ->
    nth [::] (ints mem2) b = nth [::] (ints mem1) b.
  { rewrite /= !inE Et nth_cat => /orP [] /eqP ->; by rewrite ?Hi ?Hp. }
  have Hs2 : sound mem2 (SparseObject dt s1) m n.
  { case: Hs1 => H1 H2 [H3 H4 H5] H6 H7. rewrite /sound /= Er Et.
    rewrite !elems_cat //. split => //. split => //; exact: inside_cat. }
  split => //. by rewrite (value_frame _ _ Hs1 Fr Fi).
Qed.

(** During a history without replacement *)
Definition sparse_inv dt (s0 : sparse) (W : world R) : Prop :=
  exists s, [/\ matrix W = SparseObject dt s, same_arrays s0 s &
    if wrap W is Some w then tied (mem W) s w /\ A_csr w = None else True].

Definition allowed (native : bool) (e : event R) : bool :=
  match e with Replace _ _ _ => false | PokeInt _ _ _ => native | _ => true end.

Lemma tied_ints mem mem' s w : ints mem' = ints mem -> tied mem s w -> tied mem' s w.
Proof. move=> E. by rewrite /tied E. Qed.

Lemma tied_poke mem mem' s w b k x : native_index s -> ints mem' = poke (ints mem) b k x ->
  tied mem s w -> tied mem' s w.
Proof.
  move=> Hn E [H1 H2 [idx [ptr [E1 E2 E3 [[I1 C1 _] [I2 C2 _]] Hn']]]].
  rewrite Hn in Hn'. case: Hn' => ? ?; subst idx ptr. split => //.
  exists (indices s), (indptr s). rewrite Hn E. split => //.
  split; split => //; exact: inside_poke.
Qed.

Lemma sparse_step dt s0 W e m n : compressed s0 -> acceptable (SparseObject dt s0) ->
  consecutive (SparseObject dt s0) -> sound (mem W) (matrix W) m n -> allowed (native_index s0) e ->
  sparse_inv dt s0 W -> sparse_inv dt s0 (step to_csr W e).1.
Proof.
  move=> Hf Hacc Hcons Hs Ha [s [EA Hsa Hw]].
  case: e Ha => [b k x|b k x|d i p|t v c] // Ha; rewrite [step _ _ _]/= [fst _]/=.
  - case: ifP => _; first by exists s.
    by exists s.
  - case: ifP => _; first by exists s.
    exists s. split => //. move: Hw. rewrite [wrap _]/=. case: (wrap W) => // w [Ht Hk]. split => //.
    have Hn : native_index s by case: Hsa => _ _ _ [_ _ _ ->].
    exact: tied_poke Hn _ Ht.
  - move: Hw; case Ew: (wrap W) => [w|] Hw /=; first by exists s; rewrite Ew.
    rewrite EA in Hs *. have [Ea1 Ec1 Ef1] := same_arraysC dt Hsa.
    have Hf1 : compressed s by rewrite Ef1. have Hacc1 : acceptable (SparseObject dt s) by rewrite Ea1.
    have Hcons1 : consecutive (SparseObject dt s) by apply/Ec1.
    have [mem' [s' [w [-> [Hs' Ha'] Hv' Ht' Hk']]]] := create_sparse Hf1 Hacc1 Hcons1 Hs.
    exists s'. split => //=. exact: same_arrays_trans Hsa Ha'.
Qed.

Lemma sparse_run dt s0 W h m n : compressed s0 -> acceptable (SparseObject dt s0) ->
  consecutive (SparseObject dt s0) ->
  (forall h1 h2, h = h1 ++ h2 -> let W1 := run to_csr W h1 in sound (mem W1) (matrix W1) m n) ->
  all (allowed (native_index s0)) h -> sparse_inv dt s0 W -> sparse_inv dt s0 (run to_csr W h).
Proof.
  move=> Hf Hacc Hcons. elim: h W => [|e h IH] W Hs //= /andP [He Hh] Hi. apply: IH => //.
  - move=> h1 h2 E. exact: (Hs (e :: h1) h2 (f_equal (cons e) E)).
  - exact: sparse_step Hf Hacc Hcons (Hs [::] (e :: h) erefl) He Hi.
Qed.

Lemma sparse_compute dt s0 W m n t v c : compressed s0 -> acceptable (SparseObject dt s0) ->
  consecutive (SparseObject dt s0) -> sparse_inv dt s0 W -> sound (mem W) (matrix W) m n ->
  (if t then m else n) <= size v -> (if t then n else m) <= size c ->
  gives (value (mem W) (matrix W) m n) t v c (step to_csr W (Compute t v c)).2.
Proof.
  move=> Hf Hacc Hcons [s [EA Hsa Hw]] Hs Hv Hc.
  have [Ea1 Ec1 Ef1] := same_arraysC dt Hsa.
  have Hf1 : compressed s by rewrite Ef1. have Hacc1 : acceptable (SparseObject dt s) by rewrite Ea1.
  have Hcons1 : consecutive (SparseObject dt s) by apply/Ec1.
  have Cd : contiguous1 (data s).
  { move: Hcons1 Hf1. rewrite /= /compressed. case: (fmt s) => [||k] //; by case. }
  rewrite [step _ _ _]/=. move: Hw; case Ew: (wrap W) => [w|] Hw; rewrite [snd _]/=.
  - case: Hw => Ht Hk. have ES := storage_tied EA Ew Ht. rewrite EA in Hs *.
    have [Er Ec Hwf Hd] := tied_seen Hf1 Hs Cd Ht. exact: product_ok ES Er Ec Hwf Hd Hv Hc.
  - rewrite EA in Hs *.
    have [mem' [s' [w [-> [Hs' Ha'] Hv' Ht' Hk']]]] := create_sparse Hf1 Hacc1 Hcons1 Hs.
    rewrite -Hv' [snd _]/=. set W' := World _ _ _ _.
    have ES := @storage_tied W' w dt s' erefl erefl Ht'.
    have [_ _ Ef2] := same_arraysC dt Ha'. have Hf2 : compressed s' by rewrite Ef2.
    have Cd' : contiguous1 (data s') by case: Ha' => _ _ _ [->].
    have [Er Ec Hwf Hd] := tied_seen Hf2 Hs' Cd' Ht'. exact: product_ok ES Er Ec Hwf Hd Hv Hc.
Qed.

(** ** Other formats *)

Hypothesis Hto : to_csr_ok to_csr.

(** The copy c is out of reach of the program *)
Definition copy_inv mem0 (c : sparse) (W : world R) : Prop :=
  exists w, [/\ wrap W = Some w, A_csr w = Some c, tied mem0 c w /\ native_index c,
    [/\ nth [::] (reals (mem W)) (base (data c)) = nth [::] (reals mem0) (base (data c)),
        nth [::] (ints (mem W)) (base (indices c)) = nth [::] (ints mem0) (base (indices c)) &
        nth [::] (ints (mem W)) (base (indptr c)) = nth [::] (ints mem0) (base (indptr c))] &
    [/\ base (data c) < size (reals (mem W)), base (indices c) < size (ints (mem W)),
        base (indptr c) < size (ints (mem W)),
        base (indices c) \notin object_ints (matrix W) & base (indptr c) \notin object_ints (matrix W)]].

Lemma copy_step mem0 c W e : copy_inv mem0 c W -> copy_inv mem0 c (step to_csr W e).1.
Proof.
  move=> [w [Ew Ec [Ht Hn] [E1 E2 E3] [H1 H2 H3 N1 N2]]].
  case: e => [b k x|b k x|d i p|t v z] /=.
  - case: ifP => Hb; first by exists w.
    have Hne : base (data c) <> b by move=> E; rewrite /private_reals Ew Ec -E mem_head in Hb.
    exists w. split => //=; split; rewrite ?size_poke ?nth_poke //.
  - case: ifP => Hb; first by exists w.
    have Hne b' : b' \in [:: base (indices c); base (indptr c)] -> b' \notin object_ints (matrix W) ->
      b' <> b.
    { move=> Hin Hni E. rewrite -E /private_ints Ew mem_filter Hni /= /live_ints Ew Ec in Hb.
      by rewrite !mem_cat Hin !orbT in Hb. }
    have X1 : base (indices c) <> b by apply: Hne => //; rewrite !inE eqxx.
    have X2 : base (indptr c) <> b by apply: Hne => //; rewrite !inE eqxx orbT.
    exists w. split => //=; split; rewrite ?size_poke ?nth_poke //.
  - case EA: (matrix W) N1 N2 => [|dt|dt a|dt s] N1 N2 //=; try by exists w; rewrite EA.
    have X2 : base (indices c) < (size (ints (mem W))).+1 by rewrite ltnS ltnW.
    have X3 : base (indptr c) < (size (ints (mem W))).+1 by rewrite ltnS ltnW.
    exists w. split => //=; split; rewrite ?inE ?nth_rcons ?size_rcons ?X2 ?X3 ?H1 ?H2 ?H3 //; lia.
  - rewrite Ew /=. by exists w.
Qed.

Lemma copy_run mem0 c W h : copy_inv mem0 c W -> copy_inv mem0 c (run to_csr W h).
Proof. elim: h W => [|e h IH] W Hi //=. apply: IH. exact: copy_step. Qed.

Lemma tied_frame mem0 mem' c w : native_index c ->
  nth [::] (ints mem') (base (indices c)) = nth [::] (ints mem0) (base (indices c)) ->
  nth [::] (ints mem') (base (indptr c)) = nth [::] (ints mem0) (base (indptr c)) ->
  base (indices c) < size (ints mem') -> base (indptr c) < size (ints mem') ->
  tied mem0 c w -> tied mem' c w.
Proof.
  move=> Hn E1 E2 H1 H2 [Er Ec [idx [ptr [F1 F2 F3 [[I1 C1 _] [I2 C2 _]] Hn']]]].
  rewrite Hn in Hn'. case: Hn' => ? ?; subst idx ptr. split => //.
  exists (indices c), (indptr c). rewrite Hn. split => //.
  case: I1 => _ I1. case: I2 => _ I2.
  split; split => //; split => // k Hk; rewrite ?E1 ?E2; [exact: I1|exact: I2].
Qed.

Lemma copy_compute mem0 dt c W m n t v z : compressed c -> contiguous1 (data c) ->
  sound mem0 (SparseObject dt c) m n -> copy_inv mem0 c W ->
  (if t then m else n) <= size v -> (if t then n else m) <= size z ->
  gives (value mem0 (SparseObject dt c) m n) t v z (step to_csr W (Compute t v z)).2.
Proof.
  move=> Hf Cd Hs [w [Ew Ec [Ht Hn] [E1 E2 E3] [H1 H2 H3 N1 N2]]] Hv Hz.
  rewrite [step _ _ _]/= Ew [snd _]/=.
  have Ht' : tied (mem W) c w by apply: tied_frame Ht.
  have Hs' : sound (mem W) (SparseObject dt c) m n.
  { case: Hs => S1 S2 [[B1 S3] [B2 S4] [B3 S5]] S6 S7. split => //.
    - split; split => // k Hk; rewrite ?E1 ?E2 ?E3; [exact: S3|exact: S4|exact: S5].
    - by rewrite /elems E1 E2 E3. }
  have Ev : value (mem W) (SparseObject dt c) m n = value mem0 (SparseObject dt c) m n.
  { apply: (value_frame _ _ Hs) => b /=; rewrite !inE; first by move/eqP ->.
    by case/orP => /eqP ->. }
  rewrite -Ev. have [Er Ecc Hwf Hd] := tied_seen Hf Hs' Cd Ht'.
  apply: product_ok Er Ecc Hwf Hd Hv Hz.
  case: (Ht') => _ _ [idx [ptr [F1 F2 F3 _ Hn']]]. rewrite Hn in Hn'. case: Hn' => ? ?; subst idx ptr.
  rewrite /storage_of /wrapper_storage F3 /deref /live_reals /live_ints Ew Ec F1 F2.
  case: (fmt c) => [||k] /=; by rewrite !mem_cat !inE !eqxx !orbT /=.
Qed.

Lemma create_other mem dt s m n : ~~ compressed s -> dt <> OtherType ->
  sound mem (SparseObject dt s) m n ->
  exists mem' c w, [/\ create to_csr mem (SparseObject dt s) = Ok (mem', SparseObject dt s, w),
    [/\ sound mem' (SparseObject dt c) m n, compressed c & contiguous1 (data c)],
    value mem' (SparseObject dt c) m n = value mem (SparseObject dt s) m n,
    (forall o, copy_inv mem' c (World mem' (SparseObject dt s) o (Some w))) &
    [/\ forall b, b < size (reals mem) -> nth [::] (reals mem') b = nth [::] (reals mem) b,
        forall b, b < size (ints mem) -> nth [::] (ints mem') b = nth [::] (ints mem) b,
        size (reals mem) <= size (reals mem') & size (ints mem) <= size (ints mem')]].
Proof.
  move=> Hf Hdt Hs.
  have := @convert_ok to_csr Hto mem dt s m n Hf Hs.
  have -> : create to_csr mem (SparseObject dt s) =
     (let (mem, c) := convert to_csr mem s in
        let (mem, c) := ensure_sorted mem c in
        match set_sparse mem c (Some c) with
        | Ok (mem, w) => Ok (mem, SparseObject dt s, w)
        | Raise e => Raise e
        end).
  { move: Hf Hdt. rewrite /create /compressed. by case: (fmt s); case: (dt). }
  case: convert => mem1 c1 [[Hs1 Hv1] [Ef1 Hn1 W1 W2 W3] [C1 C2 C3] [B1 B2 B3] [t1 [t2 [Er1 Ei1]]]].
  have Hf1 : compressed c1 by rewrite /compressed Ef1.
  have := ensure_sorted_ok Hf1 Hs1. have := ensure_sorted_frame Hs1.
  case: ensure_sorted => mem2 c2 [Fr Fi Zr Zi] [Hs2 Ha2 Hv2].
  have [Ea2 Ec2 Ef2] := same_arraysC dt Ha2.
  have Hf2 : compressed c2 by rewrite Ef2.
  have Hacc1 : acceptable (SparseObject dt c1).
  { rewrite /= Ef1 W1 W2 W3 /= implybT. by case: (dt) Hdt. }
  have Hcons1 : consecutive (SparseObject dt c1) by rewrite /= Ef1.
  have Hacc2 : acceptable (SparseObject dt c2) by rewrite Ea2.
  have Hcons2 : consecutive (SparseObject dt c2) by apply/Ec2.
  have [mem3 [w [E Er [tt Et] Ht Hk]]] := set_sparse_ok (Some c2) Hf2 Hs2 Hcons2 Hdt Hacc2.
  rewrite E. exists mem3, c2, w. case: (Ha2) => A1 A2 A3 [A4 A5 A6 A7].
  have [_ _ [[I1 _] [I2 _] [I3 _]] _ _] := Hs2. have [S1 S2] := sound_bounds Hs.
  have G b : b < size (ints mem) -> nth [::] (ints mem3) b = nth [::] (ints mem) b.
  { move=> Hb. have Hb1 : b < size (ints mem1) by rewrite Ei1 size_cat ltn_addr.
    rewrite Et nth_cat Zi Hb1 Fi; last by rewrite B2 => E'; rewrite E' ltnn in Hb. by rewrite Ei1 nth_cat Hb. }
  have Fr3 b : b \in object_reals (SparseObject dt c2) ->
    nth [::] (reals mem3) b = nth [::] (reals mem2) b by rewrite Er.
  have Fi3 b : b \in object_ints (SparseObject dt c2) ->
    nth [::] (ints mem3) b = nth [::] (ints mem2) b.
  { rewrite /= !inE Et nth_cat => /orP [] /eqP ->; by rewrite ?I2 ?I3. }
  split => //.
  - split => //; last by rewrite A4.
    case: Hs2 => H1 H2 [H3 H4 H5] H6 H7. rewrite /sound /= Er Et.
    rewrite !elems_cat //. split => //. split => //; exact: inside_cat.
  - by rewrite (value_frame _ _ Hs2 Fr3 Fi3) Hv2 Hv1.
  - move=> o. exists w. split => //=; first by rewrite A7.
    have S3 : base (indices s) < size (ints mem) by apply: S2; rewrite mem_head.
    have S4 : base (indptr s) < size (ints mem) by apply: S2; rewrite !inE eqxx orbT.
    have X1 : base (indices c2) < size (ints mem3) by rewrite Et size_cat ltn_addr.
    have X2 : base (indptr c2) < size (ints mem3) by rewrite Et size_cat ltn_addr.
    have X3 : base (data c2) < size (reals mem3) by rewrite Er.
    split => //.
    + rewrite !inE A5 B2 !gtn_eqF //.
    + rewrite !inE A6 B3 !gtn_eqF //; by rewrite ltnS ltnW.
  - split; [|exact: G|by rewrite Er Zr Er1 size_cat leq_addr|].
    2: { rewrite Et size_cat Zi Ei1 size_cat -addnA. exact: leq_addr. }
    move=> b Hb. have Hb1 : b < size (reals mem1) by rewrite Er1 size_cat ltn_addr.
    rewrite Er Fr; last by rewrite B1 => E'; rewrite E' ltnn in Hb. by rewrite Er1 nth_cat Hb.
Qed.

(** ** Affine matrix functions *)

Definition extends (mem mem' : memory R) : Prop :=
  exists t1 t2, reals mem' = reals mem ++ t1 /\ ints mem' = ints mem ++ t2.

Lemma extends_refl mem : extends mem mem.
Proof. exists [::], [::]. by rewrite !cats0. Qed.

(** The blocks of A are the same in both memories *)
Definition kept (mem mem' : memory R) (A : object) : Prop :=
  [/\ forall b, b \in object_reals A -> nth [::] (reals mem') b = nth [::] (reals mem) b,
      forall b, b \in object_ints A -> nth [::] (ints mem') b = nth [::] (ints mem) b,
      size (reals mem) <= size (reals mem') & size (ints mem) <= size (ints mem')].

Lemma extends_kept mem mem' A m n : sound mem A m n -> extends mem mem' -> kept mem mem' A.
Proof.
  move=> Hs [t1 [t2 [E1 E2]]]. have [S1 S2] := sound_bounds Hs.
  rewrite /kept E1 E2 !size_cat !leq_addr. split => // b Hb; by rewrite nth_cat ?S1 ?S2.
Qed.

Lemma kept_sound mem mem' A m n : sound mem A m n -> kept mem mem' A -> sound mem' A m n.
Proof.
  case: A => // [dt a|dt s].
  - move=> [E1 E2 E3 E4] [K1 K2 K3 K4]. have K := K1 _ (mem_head _ _).
    split => //; first exact: leq_trans E3 K3. by rewrite K.
  - move=> [E1 E2 [[I1 J1] [I2 J2] [I3 J3]] E4 E5] [K1 K2 K3 K4].
    have X1 := K1 _ (mem_head _ _).
    have X2 : nth [::] (ints mem') (base (indices s)) = nth [::] (ints mem) (base (indices s)).
    { apply: K2. by rewrite !inE eqxx. }
    have X3 : nth [::] (ints mem') (base (indptr s)) = nth [::] (ints mem) (base (indptr s)).
    { apply: K2. by rewrite !inE eqxx orbT. }
    rewrite /sound /elems X1 X2 X3. split => //.
    split; split; rewrite ?X1 ?X2 ?X3 //; [exact: leq_trans I1 K3|exact: leq_trans I2 K4|exact: leq_trans I3 K4].
Qed.

Lemma kept_value mem mem' A m n : sound mem A m n -> kept mem mem' A ->
  value mem' A m n = value mem A m n.
Proof. move=> Hs [K1 K2 _ _]. exact: (value_frame _ _ Hs). Qed.

(** A CSR or CSC matrix that can be set *)
Definition ready mem dt (s : sparse) m n (V : 'M[R]_(m, n)) : Prop :=
  [/\ sound mem (SparseObject dt s) m n, compressed s, acceptable (SparseObject dt s),
      consecutive (SparseObject dt s) & value mem (SparseObject dt s) m n = V].

Lemma ready_kept mem mem' dt s m n (V : 'M[R]_(m, n)) : ready mem dt s V ->
  kept mem mem' (SparseObject dt s) -> ready mem' dt s V.
Proof.
  move=> [H1 H2 H3 H4 H5] K. split => //; first exact: kept_sound K. by rewrite (kept_value H1 K).
Qed.

Definition conv mem (s : sparse) :=
  if fmt s is OtherFormat _ then convert to_csr mem s else (mem, s).

Lemma conv_ready mem dt (s : sparse) m n : sound mem (SparseObject dt s) m n ->
  acceptable (SparseObject dt s) -> consecutive (SparseObject dt s) ->
  let: (mem', c) := conv mem s in
  [/\ ready mem' dt c (value mem (SparseObject dt s) m n), extends mem mem' &
      if compressed s then mem' = mem /\ c = s
      else (forall b, b \in object_reals (SparseObject dt c) -> size (reals mem) <= b) /\
           (forall b, b \in object_ints (SparseObject dt c) -> size (ints mem) <= b)].
Proof.
  move=> Hs Ha Hc. case Hf: (compressed s).
  - have -> : conv mem s = (mem, s) by move: Hf; rewrite /conv /compressed; case: (fmt s).
    split => //. exact: extends_refl.
  - have -> : conv mem s = convert to_csr mem s by move: Hf; rewrite /conv /compressed; case: (fmt s).
    have Hdt : dt <> OtherType by move=> E; rewrite E in Ha.
    have := @convert_ok to_csr Hto mem dt s m n (negbT Hf) Hs.
    case: convert => mem' c [[Hs1 Hv1] [Ef1 Hn1 W1 W2 W3] [C1 C2 C3] [B1 B2 B3] He].
    split => //.
    + split => //; rewrite ?/compressed ?Ef1 //=.
      * rewrite Ef1 W1 W2 W3 /= implybT. by case: (dt) Hdt.
      * by rewrite Ef1.
    + split => b; rewrite /= !inE ?B1 ?B2 ?B3; first by move/eqP ->.
      by case/orP => /eqP ->.
Qed.

Lemma sort_ready mem dt (s : sparse) m n (V : 'M[R]_(m, n)) : ready mem dt s V ->
  let: (mem', s') := ensure_sorted mem s in
  [/\ ready mem' dt s' V, same_arrays s s' &
      forall B, separate (SparseObject dt s) B -> kept mem mem' B].
Proof.
  move=> [H1 H2 H3 H4 H5]. have := ensure_sorted_ok H2 H1. have := ensure_sorted_frame H1.
  case: ensure_sorted => mem' s' [F1 F2 F3 F4] [G1 G2 G3].
  have [Ea Ec Ef] := same_arraysC dt G2. split => //.
  - split => //; rewrite ?Ef ?Ea ?G3 //. by apply/Ec.
  - move=> B [S1 S2]. split; rewrite ?F3 ?F4 // => b Hb.
    + apply: F1 => E. by have := S1 b; rewrite /= inE E eqxx -E Hb => /(_ erefl).
    + apply: F2 => E. by have := S2 b; rewrite /= !inE E eqxx -E Hb => /(_ erefl).
Qed.

Lemma in_order_sorted mem s : has_sorted_indices mem s -> ensure_sorted mem s = (mem, s).
Proof. by rewrite /ensure_sorted => ->. Qed.

Lemma set_ready mem dt s m n (V : 'M[R]_(m, n)) : ready mem dt s V ->
  exists mem' w, [/\ set_object mem (SparseObject dt s) = Ok (mem', w), extends mem mem' & tied mem' s w].
Proof.
  move=> [H1 H2 H3 H4 H5]. have Hdt : dt <> OtherType by move=> E; rewrite E in H3.
  have [mem' [w [E Er [t Et] Ht Hk]]] := set_sparse_ok (Some s) H2 H1 H4 Hdt H3.
  exists mem', w. split => //. exists [::], t. by rewrite cats0.
Qed.

Lemma tied_extends mem mem' dt s w m n : sound mem (SparseObject dt s) m n -> tied mem s w ->
  extends mem mem' -> tied mem' s w.
Proof.
  move=> [_ _ [_ [B1 _] [B2 _]] _ _] [H1 H2 [idx [ptr [E1 E2 E3 [[I1 C1 V1] [I2 C2 V2]] Hn]]]] [t1 [t2 [_ Et]]].
  split => //. exists idx, ptr. rewrite Et. split => //.
  have J1 := I1; have J2 := I2. case: J1 => J1 _. case: J2 => J2 _.
  split; split => //; rewrite ?elems_cat //; exact: inside_cat.
Qed.

Lemma same_separate dt dt' s s' B : same_arrays s s' -> separate (SparseObject dt s) B ->
  separate (SparseObject dt' s') B.
Proof. by move=> [_ _ _ [E1 E2 E3 _]]; rewrite /separate /= E1 E2 E3. Qed.

Lemma separate_sym A B : separate A B -> separate B A.
Proof.
  by move=> [H1 H2]; split => b Hb; apply/negP => Hb'; [have := H1 b Hb'|have := H2 b Hb']; rewrite Hb.
Qed.

Lemma ready_seen mem dt s w m n (V : 'M[R]_(m, n)) : ready mem dt s V -> tied mem s w ->
  [/\ w_rows w = m, w_cols w = n, well_formed (wrapper_storage mem w) m n &
      denotes (wrapper_storage mem w) m n = V].
Proof.
  move=> [H1 H2 H3 H4 H5] Ht.
  have Cd : contiguous1 (data s).
  { move: H4 H2. rewrite /= /compressed. case: (fmt s) => [||k] //; by case. }
  have [? ? ? Hd] := tied_seen H2 H1 Cd Ht. split => //. by rewrite Hd.
Qed.

(** The pair is sorted, separate or not *)
Lemma sparse_affine mem dA a dB b m n :
  sound mem (SparseObject dA a) m n -> acceptable (SparseObject dA a) ->
  consecutive (SparseObject dA a) ->
  sound mem (SparseObject dB b) m n -> acceptable (SparseObject dB b) ->
  consecutive (SparseObject dB b) -> fmt a = fmt b ->
  separate_or_ordered mem (SparseObject dA a) (SparseObject dB b) ->
  let: (mem1, a1, b1) := (let (mem, a) := conv mem a in
          let (mem, b) := conv mem b in
          let (mem, a) := ensure_sorted mem a in
          let (mem, b) := ensure_sorted mem b in (mem, a, b)) in
  ready mem1 dA a1 (value mem (SparseObject dA a) m n) /\
  ready mem1 dB b1 (value mem (SparseObject dB b) m n).
Proof.
  move=> Sa Aa Ca Sb Ab Cb Ef Hsep.
  have := conv_ready Sa Aa Ca. case: conv => mem1 a1 [Ra Ea Fa].
  have Kb := extends_kept Sb Ea. have Sb1 := kept_sound Sb Kb.
  have := conv_ready Sb1 Ab Cb. rewrite (kept_value Sb Kb). case: conv => mem2 b1 [Rb Eb Fb].
  have Sa1 : sound mem1 (SparseObject dA a1) m n by case: Ra.
  have Ka := extends_kept Sa1 Eb. have Ra2 := ready_kept Ra Ka.
  have Efc : compressed a = compressed b by rewrite /compressed Ef.
  have Hs2 : separate (SparseObject dA a1) (SparseObject dB b1) \/
             (ensure_sorted mem2 a1 = (mem2, a1) /\ ensure_sorted mem2 b1 = (mem2, b1)).
  { case Hf: (compressed a) Fa => Fa.
    - rewrite -Efc Hf in Fb. case: Fa => ? ?; subst mem1 a1. case: Fb => ? ?; subst mem2 b1.
      case: Hsep => [/=|[Hsep|[O1 O2]]]; [by rewrite Hf|by left|right].
      by rewrite !in_order_sorted.
    - left. rewrite -Efc Hf in Fb. case: Fb => F3 F4.
      have [G1 G2] := sound_bounds Sa1.
      split => x Hx; apply/negP => Hy.
      + by have := F3 x Hy; rewrite leqNgt G1.
      + by have := F4 x Hy; rewrite leqNgt G2. }
  case: Hs2 => [Hs2|[-> ->]] //.
  have := sort_ready Ra2. case: ensure_sorted => mem3 a2 [Ra3 Qa Ka3].
  have Rb3 := ready_kept Rb (Ka3 _ Hs2).
  have := sort_ready Rb3. case: ensure_sorted => mem4 b2 [Rb4 Qb Kb4].
  split => //. apply: ready_kept Ra3 _. apply: Kb4.
  apply: separate_sym. exact: same_separate Qa Hs2.
Qed.

Lemma dense_wrapper mem dt a m n : sound mem (DenseObject dt a) m n -> acceptable (DenseObject dt a) ->
  exists w, [/\ set_object mem (DenseObject dt a) = Ok (mem, w), w_rows w = m, w_cols w = n,
    well_formed (wrapper_storage mem w) m n &
    denotes (wrapper_storage mem w) m n = value mem (DenseObject dt a) m n].
Proof.
  move=> Hs Hacc. have [w [E [Er Ec [rm [Ep Hrm]]]]] := set_dense_ok mem Hacc.
  case: (Hs) => E1 E2 _ _. exists w. rewrite Er Ec. have [H1 H2] := dense_seen Hs Hrm.
  split => //; by rewrite /wrapper_storage Ep.
Qed.

(** What the C++ object is built from *)
Lemma affine_storage mem A B m n :
  sound mem A m n -> acceptable A -> consecutive A ->
  (if B is Some B then [/\ sound mem B m n, acceptable B, consecutive B & separate_or_ordered mem A B]
   else True) ->
  check_affine A B = Ok tt ->
  exists mem' sA sB,
    [/\ create_affine to_csr mem A B = Ok (mem', new_affine sA sB m n),
        well_formed sA m n, denotes sA m n = value mem A m n &
        match B, sB with
        | None, None => True
        | Some B, Some s => well_formed s m n /\ denotes s m n = value mem B m n
        | _, _ => False
        end].
Proof.
  move=> Sa Aa Ca HB Ec. rewrite /create_affine Ec. case: A Sa Aa Ca HB Ec => // [dA a|dA a] Sa Aa Ca HB Ec.
  - have [wA [EA R1 R2 R3 R4]] := dense_wrapper Sa Aa.
    have -> : prepare_affine to_csr mem (DenseObject dA a) B = (mem, DenseObject dA a, B) by [].
    rewrite EA R1 R2. case: B HB Ec => [B|] HB Ec; last first.
    { by exists mem, (wrapper_storage mem wA), None. }
    case: HB => Sb Ab Cb _. case: B Sb Ab Cb Ec => // [dB b|dB b] Sb Ab Cb Ec; last first.
    { by move: Ec Aa => /=; case: (dA). }
    have [wB [EB T1 T2 T3 T4]] := dense_wrapper Sb Ab. rewrite EB.
    by exists mem, (wrapper_storage mem wA), (Some (wrapper_storage mem wB)).
  - rewrite [prepare_affine _ _ _ _]/=. rewrite -/(conv mem a).
    case: B HB Ec => [B|] HB Ec; last first.
    { have := conv_ready Sa Aa Ca. case: conv => mem1 a1 [Ra _ _].
      have := sort_ready Ra. case: ensure_sorted => mem2 a2 [Ra2 _ _].
      have [mem3 [w [E Ex Ht]]] := set_ready Ra2. rewrite E.
      have S2 : sound mem2 (SparseObject dA a2) m n by case: Ra2.
      have Ra3 := ready_kept Ra2 (extends_kept S2 Ex). have [R1 R2 R3 R4] := ready_seen Ra3 Ht.
      exists mem3, (wrapper_storage mem3 w), None. by rewrite R1 R2. }
    case: HB => Sb Ab Cb Hsep. case: B Sb Ab Cb Hsep Ec => // [dB b|dB b] Sb Ab Cb Hsep Ec.
    { by move: Ec Aa => /=; case: (dA) => //=; case: (fmt a). }
    have Ef : fmt a = fmt b.
    { move: Ec Aa => /=. case: (dA) => //=; case: (fmt a) (fmt b) => [||i] [||j] //=;
        by case: eqP => [->|]. }
    have := sparse_affine Sa Aa Ca Sb Ab Cb Ef Hsep.
    case: (conv mem a) => mem1 a1. rewrite -/(conv mem1 b). case: (conv mem1 b) => mem2 b1.
    case: ensure_sorted => mem3 a2. case: ensure_sorted => mem4 b2 [Ra Rb].
    have [mem5 [wA [EA XA TA]]] := set_ready Ra. rewrite EA.
    have Sb4 : sound mem4 (SparseObject dB b2) m n by case: Rb.
    have Sa4 : sound mem4 (SparseObject dA a2) m n by case: Ra.
    have Rb5 := ready_kept Rb (extends_kept Sb4 XA).
    have Ra5 := ready_kept Ra (extends_kept Sa4 XA).
    have [mem6 [wB [EB XB TB]]] := set_ready Rb5. rewrite EB.
    have Sb5 : sound mem5 (SparseObject dB b2) m n by case: Rb5.
    have Sa5 : sound mem5 (SparseObject dA a2) m n by case: Ra5.
    have Rb6 := ready_kept Rb5 (extends_kept Sb5 XB).
    have Ra6 := ready_kept Ra5 (extends_kept Sa5 XB).
    have TA6 := tied_extends Sa5 TA XB.
    have [R1 R2 R3 R4] := ready_seen Ra6 TA6. have [T1 T2 T3 T4] := ready_seen Rb6 TB.
    exists mem6, (wrapper_storage mem6 wA), (Some (wrapper_storage mem6 wB)). by rewrite R1 R2.
Qed.

End Histories.

End Proofs.
