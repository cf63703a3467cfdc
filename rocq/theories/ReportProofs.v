(** * Proofs about what the caller of the stochastic Lanczos quadrature gets *)
From mathcomp Require Import all_ssreflect all_algebra.
From mathcomp Require Import zify.
From Verif Require Import Mem ConvModel ConvSpec ConvProofs SlqRunModel SlqRunSpec HutchRunSpec HutchRunProofs
  ReportModel ReportSpec.
From Verif Require HutchRunModel.

Set Implicit Arguments.
Unset Strict Implicit.
Unset Printing Implicit Defensive.

Import Order.TTheory GRing.Theory Num.Theory.
Local Open Scope ring_scope.

Section Proofs.
Variable R : rcfType.
Notation num := (num R).
Notation F := (@Fin R).

(** ** Copying the samples *)
Definition at_ (m : seq (seq num)) (i j : nat) : num := nth NaN (nth [::] m i) j.
Definition grid (mx q : nat) (m : seq (seq num)) : Prop :=
  size m = mx /\ forall i, (i < mx)%N -> size (nth [::] m i) = q.

Lemma entry_at mx q (m : seq (seq num)) i j : grid mx q m -> (i < mx)%N -> (j < q)%N ->
  entry m i j = Some (at_ m i j).
Proof.
  move=> [S1 S2] Hi Hj. rewrite /entry (rdE [::]) ?S1 //=. by rewrite (rdE NaN) // S2.
Qed.

Lemma set_entry_ok mx q (m : seq (seq num)) i j x : grid mx q m -> (i < mx)%N -> (j < q)%N ->
  exists2 m', set_entry m i j x = Some m' &
    grid mx q m' /\ forall i' j', at_ m' i' j' = if (i' == i) && (j' == j) then x else at_ m i' j'.
Proof.
  move=> [S1 S2] Hi Hj. rewrite /set_entry (rdE [::]) ?S1 //=.
  case E1: (wr (nth [::] m i) j x) => [row|]; last by rewrite wrE ?S2 in E1.
  rewrite [obind _ _]/=. case E2: (wr m i row) => [m'|]; last by rewrite wrE ?S1 in E2.
  exists m' => //. split.
  - split; first by rewrite (size_wr E2).
    move=> i' Hi'. rewrite (nth_wr _ _ E2). case: eqP => [_|_]; last exact: S2.
    by rewrite (size_wr E1) S2.
  - move=> i' j'. rewrite /at_ (nth_wr _ _ E2). case: eqP => [->|//] /=.
    by rewrite (nth_wr _ _ E1).
Qed.

Lemma fresh_grid mx q : grid mx q (fresh_samples R mx q).
Proof. split; first by rewrite size_nseq. move=> i Hi. by rewrite nth_nseq Hi size_nseq. Qed.

Lemma fresh_at mx q i j : at_ (fresh_samples R mx q) i j = NaN.
Proof. rewrite /at_ nth_nseq. case: ifP => _; last by rewrite nth_nil. by rewrite nth_nseq if_same. Qed.

Lemma copy_samplesE mx q (c : seq (seq num)) order used : 
  (forall i j, (j < q)%N -> (i < nth 0%N used j)%N ->
     entry c (nth 0%N order i) j = Some (at_ c (nth 0%N order i) j)) ->
  (q <= size used)%N ->
  (forall j, (j < q)%N -> (nth 0%N used j <= size order)%N /\ (nth 0%N used j <= mx)%N) ->
  exists2 m, copy_samples mx q c order used = Some m & grid mx q m /\
    forall i j, (j < q)%N -> at_ m i j = if (i < nth 0%N used j)%N then at_ c (nth 0%N order i) j else NaN.
Proof.
  move=> Hc Hq Hu.
  pose I J (m : seq (seq num)) := grid mx q m /\ forall i j,
    at_ m i j = if (j < J)%N && (i < nth 0%N used j)%N then at_ c (nth 0%N order i) j else NaN.
  have [|||m E [G H]] := @for1_inv _ I 0 q
    (fun j samples => do k <- rd used j;
      for_ 0 k 1 (fun i samples => do o <- rd order i; do x <- entry c o j; set_entry samples i j x) samples)
    (fresh_samples R mx q) => //.
  - split; first exact: fresh_grid. by move=> i j; rewrite fresh_at.
  - move=> J m Hj [Gm Hm]. have HJ : (J < q)%N by lia. have [U1 U2] := Hu J HJ.
    rewrite (rdE 0%N); last by rewrite (leq_trans HJ).
    pose I2 K (m' : seq (seq num)) := grid mx q m' /\ forall i j,
      at_ m' i j = if ((j < J)%N && (i < nth 0%N used j)%N) || ((j == J) && (i < K)%N)
                   then at_ c (nth 0%N order i) j else NaN.
    have [|||m' E' [G' H']] := @for1_inv _ I2 0 (nth 0%N used J)
      (fun i samples => do o <- rd order i; do x <- entry c o J; set_entry samples i J x) m => //.
    + split=> // i j. by rewrite Hm andbF orbF.
    + move=> K m1 HK [G1 H1]. rewrite (rdE 0%N); last by lia. rewrite [obind _ _]/= Hc //=.
      have HKm : (K < mx)%N by lia.
      have [m2 -> [G2 H2]] := @set_entry_ok mx q m1 K J (at_ c (nth 0%N order K) J) G1 HKm HJ.
      eexists; first reflexivity. split=> // i j. rewrite H2 H1.
      case: (i =P K) => [->|HiK]; case: (j =P J) => [->|HjJ] //=.
      * by rewrite ltnSn orbT.
      * have -> : (i < K.+1)%N = (i < K)%N by lia. by [].
    + eexists; first exact: E'. split=> // i j. rewrite H'.
      have -> // : ((j < J)%N && (i < nth 0%N used j)%N || (j == J) && (i < nth 0%N used J)%N) =
                   ((j < J.+1)%N && (i < nth 0%N used j)%N).
      case: (ltngtP j J) => [Hj1|Hj1|->]; rewrite ?ltnSn ?(ltnW Hj1) ?orbF //=; [by rewrite ltnS (ltnW Hj1)|by rewrite ltnS leqNgt Hj1].
  - exists m; first exact: E. split=> // i j Hj. by rewrite H Hj.
Qed.

(** ** Columns *)
Lemma numbers_map (xs : seq R) n : numbers (map F xs ++ nseq n NaN) = xs.
Proof.
  rewrite /numbers map_cat flatten_cat -map_comp.
  have -> : flatten [seq ((fun x : num => if x is Fin r then [:: r] else [::]) \o F) i | i <- xs] = xs.
  { by elim: xs => //= x xs ->. }
  rewrite map_nseq /=. have -> : flatten (nseq n [::]) = [::] :> seq R by elim: n. exact: cats0.
Qed.

Lemma col_grid mx q (m : seq (seq num)) j : grid mx q m -> col m j = [seq at_ m i j | i <- iota 0 mx].
Proof.
  move=> [S _]. apply: (@eq_from_nth _ NaN); first by rewrite !size_map size_iota S.
  move=> i. rewrite size_map S => Hi. rewrite (nth_map [::]) ?S // (nth_map 0%N) ?size_iota //.
  by rewrite nth_iota // add0n.
Qed.

Lemma col_prefix mx q (m : seq (seq num)) j k (f : nat -> R) : grid mx q m -> (k <= mx)%N ->
  (forall i, (i < mx)%N -> at_ m i j = if (i < k)%N then Fin (f i) else NaN) ->
  col m j = map F [seq f i | i <- iota 0 k] ++ nseq (mx - k) NaN.
Proof.
  move=> G Hk H. rewrite (col_grid _ G). apply: (@eq_from_nth _ NaN).
  { by rewrite size_cat !size_map !size_iota size_nseq subnKC. }
  move=> i. rewrite size_map size_iota => Hi. rewrite (nth_map 0%N) ?size_iota // nth_iota // add0n H //.
  rewrite nth_cat !size_map size_iota. case: ltnP => Hik.
  - by rewrite (nth_map 0) ?size_map ?size_iota // (nth_map 0%N) ?size_iota // nth_iota.
  - by rewrite nth_nseq if_same.
Qed.

(** ** The plot *)
Definition clean (zo m s : num) (x : num) : num := if nlt (nmul zo s) (nabs (nsub x m)) then NaN else x.

Lemma select_comp (f : num -> num) (samples : seq num) idx xs :
  HutchRunModel.select samples idx = Some xs ->
  HutchRunModel.select (map f samples) idx = Some (map f xs).
Proof.
  elim: idx xs => [|i idx IH] xs /=; first by case=> <-.
  case E: (rd samples i) => [x|] //=. case E2: (HutchRunModel.select _ _) => [ys|] //= [<-].
  have Hi := rd_some E. rewrite (rdE (f x)) ?size_map // (nth_map x) //=.
  rewrite (rdE x Hi) in E. case: E => ->. by rewrite (IH _ E2).
Qed.

Lemma select_take (samples : seq num) idx xs n :
  HutchRunModel.select samples idx = Some xs ->
  HutchRunModel.select samples (take n idx) = Some (take n xs).
Proof.
  elim: idx n xs => [|i idx IH] [|n] xs //=; try by case=> <-.
  - by move=> _; rewrite take0.
  - case E: (rd samples i) => [x|] //=. case E2: (HutchRunModel.select _ _) => [ys|] //= [<-].
    by rewrite (IH _ _ E2).
Qed.

Lemma select_size (samples : seq num) idx (xs : seq num) : HutchRunModel.select samples idx = Some xs -> size xs = size idx.
Proof.
  elim: idx xs => [|i idx IH] xs /=; first by case=> <-.
  case: (rd samples i) => [x|] //=. case E2: (HutchRunModel.select _ _) => [ys|] //= [<-] /=.
  by rewrite (IH _ E2).
Qed.

Lemma not_nan_map (xs : seq R) : not_nan (map F xs) = map F xs.
Proof. by elim: xs => //= x xs ->. Qed.

Lemma clean_near zo (xs : seq R) x :
  clean (F zo) (F (mean xs)) (F (pop_std xs)) (F x) = if near zo xs x then F x else NaN.
Proof. by rewrite /clean /near leNgt if_neg. Qed.

Lemma not_nan_clean zo (xs ys : seq R) :
  not_nan [seq clean (F zo) (F (mean xs)) (F (pop_std xs)) x | x <- map F ys] =
  map F [seq y <- ys | near zo xs y].
Proof.
  rewrite /not_nan. elim: ys => //= y ys IH. rewrite clean_near. by case: (near zo xs y); rewrite /= IH.
Qed.

Lemma cumulatives_ok (z : num) samples order n i (f : nat -> num * num * num) :
  (forall l, (i <= l < i + n)%N -> cumulative z samples order l = Some (f l)) ->
  cumulatives z samples order n i = Some [seq f l | l <- iota i n].
Proof.
  elim: n i => [|n IH] i H //=. rewrite H /=; last by lia.
  rewrite IH // => l Hl. apply: H. lia.
Qed.

Definition point (z zo : R) (xs : seq R) (i : nat) : num * num * num :=
  let good := [seq x <- take i.+1 xs | near zo xs x] in
  let width := z * pop_std good / Num.sqrt i.+1%:R in
  if good is [::] then (NaN, NaN, NaN)
  else (F (mean good), F width, ndiv (F width) (nabs (F (mean good)))).

Lemma plot_columnE (z zo : R) samples order (xs : seq R) :
  (0 < size xs)%N -> 
  HutchRunModel.select samples (take (size xs) order) = Some (map F xs) ->
  plot_column (F z) (F zo) samples order (size xs) =
    Some ([seq if near zo xs x then F x else NaN | x <- xs], [seq point z zo xs i | i <- iota 0 (size xs)]).
Proof.
  move=> Hpos Hsel. have Hsz := select_size Hsel. rewrite size_map in Hsz.
  rewrite /plot_column /remove_outliers Hsel [obind _ _]/=.
  rewrite /nanmean /nanstd not_nan_map np_meanE // np_stdE //.
  set cl := map _ samples.
  have Ecl : cl = [seq clean (F zo) (F (mean xs)) (F (pop_std xs)) x | x <- samples] by [].
  have Ssel := select_comp (clean (F zo) (F (mean xs)) (F (pop_std xs))) Hsel.
  rewrite -Ecl in Ssel.
  rewrite (@cumulatives_ok _ _ _ _ _ (point z zo xs)); last first.
  { move=> l Hl. rewrite /cumulative.
    have -> : take l.+1 order = take l.+1 (take (size xs) order).
    { by rewrite take_take. }
    rewrite (select_take l.+1 Ssel) /obind /oapp -map_take -map_take not_nan_clean size_map /point.
    set good := [seq x <- take l.+1 xs | near zo xs x].
    case Eg: good => [|g gs] //. rewrite -Eg.
    have Hg : (0 < size good)%N by rewrite Eg.
    have -> : (size good == 0)%N = false by rewrite eqn0Ngt Hg.
    rewrite /nanmean /nanstd not_nan_map np_meanE // np_stdE // nsqrt_nint.
    by rewrite [ndiv (nmul _ _) _]/= sqrt_nint_eq0. }
  rewrite [obind _ _]/= Ssel [obind _ _]/=. congr (Some (_, _)).
  rewrite -map_comp. apply: eq_map => x. by rewrite /= clean_near.
Qed.

Lemma plot_column_shows (z zo : R) samples order (xs : seq R) :
  (0 < size xs)%N ->
  HutchRunModel.select samples (take (size xs) order) = Some (map F xs) ->
  exists2 drawn, plot_column (F z) (F zo) samples order (size xs) = Some drawn & shows z zo xs drawn.
Proof.
  move=> Hpos Hsel. eexists; first exact: plot_columnE Hsel.
  split; rewrite ?size_map ?size_iota // => i Hi good width. split.
  - by rewrite (nth_map 0).
  - rewrite (nth_map 0%N) ?size_iota // nth_iota // add0n /point -/good -/width.
    exists (ndiv (F width) (nabs (F (mean good)))). split=> //.
    move=> _ Hm /=. by rewrite normr_eq0 (negbTE Hm).
Qed.
End Proofs.
