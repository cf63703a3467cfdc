(** * Proofs about the run of the Hutchinson method *)
From mathcomp Require Import all_ssreflect all_algebra.
From mathcomp Require Import zify.
From Verif Require Import Mem ConvModel ConvSpec ConvProofs HutchRunModel HutchRunSpec.

Set Implicit Arguments.
Unset Strict Implicit.
Unset Printing Implicit Defensive.

Import Order.TTheory GRing.Theory Num.Theory.
Local Open Scope ring_scope.

Section Proofs.
Variable R : rcfType.
Notation num := (num R).
Notation F := (@Fin R).

Lemma wr_next (T : Type) (pre : seq T) n (d v : T) :
  wr (pre ++ nseq n.+1 d) (size pre) v = Some (rcons pre v ++ nseq n d).
Proof.
  rewrite wrE ?size_cat ?size_nseq; last by lia.
  congr Some. rewrite -cats1 -catA /=.
  by elim: pre => //= x pre ->.
Qed.

Lemma select_map (samples : seq num) d idx :
  all (fun i => (i < size samples)%N) idx ->
  select samples idx = Some [seq nth d samples i | i <- idx].
Proof.
  elim: idx => //= i idx IH /andP[Hi /IH ->]. by rewrite (rdE d Hi).
Qed.

(** The first [k] estimates. *)
Lemma np_meanE xs : (0 < size xs)%N -> np_mean (map F xs) = F (mean xs).
Proof. exact: column_meanE. Qed.

Lemma np_stdE xs : (0 < size xs)%N -> np_std (map F xs) = F (pop_std xs).
Proof.
  move=> H. rewrite /np_std np_meanE // dev_mapE size_map.
  by rewrite nsqrt_div // sum_sq_ge0.
Qed.

Lemma np_maxE (x y : R) : np_max (F x) (F y) = F (Num.max x y).
Proof. by rewrite /np_max nmaxE. Qed.

Lemma np_max_cases (a b : num) : np_max a b = NaN \/ np_max a b = nmax a b.
Proof. by case: a; case: b => /=; auto. Qed.

Lemma inf_error (z : R) (b : num) k : 0 <= z ->
  nlt (ndiv (nmul (F z) PInf) (nsqrt (nint R k))) b = false.
Proof.
  move=> Hz. rewrite nsqrt_nint /= /inf_times.
  case: (z =P 0) => [|/eqP Hz0] /=; first by [].
  rewrite lt0r Hz0 Hz /= ltNge sqrtr_ge0 /=. by case: b.
Qed.

Lemma checkE (z atol rtol : R) samples mn processed xs : 0 <= z ->
  (0 < size xs)%N ->
  select samples (take (size xs) processed) = Some (map F xs) ->
  check_convergence (F z) (F atol) (F rtol) samples mn processed (size xs) =
  Returns ((mn <= size xs)%N && small_enough z atol rtol xs, size xs).
Proof.
  move=> Hz H E. rewrite /check_convergence [(mn <= _)%N]leqNgt.
  case: (size xs < mn)%N => //. rewrite /gather E [access _]/= [LHS]/bind [~~ _]/= andTb.
  congr (Returns (_, _)). rewrite /small_enough. case: ifP => H1; last by rewrite inf_error.
  rewrite np_stdE // np_meanE // [nmul (F rtol) _]/=.
  rewrite np_maxE nsqrt_nint /= sqrt_nint_eq0.
  by case: eqP => [E0|//]; rewrite E0 in H.
Qed.

(** ** The loop *)
Definition st_at (f : nat -> R) (mx k : nat) (c : bool) : state R :=
  State ([seq F (f i) | i <- iota 0 k] ++ nseq (mx - k) NaN)
        (iota 0 k ++ nseq (mx - k) 0%N) k k c.

Notation prefix := (@first_estimates R).

Lemma size_prefix f k : size (prefix f k) = k.
Proof. by rewrite size_map size_iota. Qed.

Lemma iotaS k : iota 0 k.+1 = rcons (iota 0 k) k.
Proof. by rewrite -[k.+1]addn1 iotaD /= cats1. Qed.

Lemma select_at f mx k : (k <= mx)%N ->
  select (st_samples (st_at f mx k false)) (take k (st_order (st_at f mx k false)))
  = Some (map F (prefix f k)).
Proof.
  move=> Hk /=. rewrite take_size_cat ?size_iota //.
  rewrite (@select_map _ NaN); last first.
    apply/allP => i. rewrite mem_iota size_cat size_map size_iota size_nseq. lia.
  congr Some. rewrite /first_estimates -map_comp. apply/eq_in_map => i.
  rewrite mem_iota => /andP[_ Hi] /=.
  rewrite nth_cat size_map size_iota Hi (nth_map 0%N) ?size_iota //.
  by rewrite nth_iota.
Qed.

Notation stops := (@may_stop R).

Lemma sampling_conv est (z atol rtol : num) mn n i s : st_conv s ->
  sampling est z atol rtol mn n i s = Returns s.
Proof. by move=> H; elim: n i => [|n IH] i //=; rewrite H /= IH. Qed.

Lemma sampling_step est z atol rtol mn f mx n i : 0 <= z -> (i < mx)%N ->
  est i = Some (F (f i)) ->
  sampling est (F z) (F atol) (F rtol) mn n.+1 i (st_at f mx i false) =
  sampling est (F z) (F atol) (F rtol) mn n i.+1
    (st_at f mx i.+1 (stops z atol rtol mn f i.+1)).
Proof.
  move=> Hz Hi He. rewrite [LHS]/= He /=.
  have -> : (mx - i = (mx - i.+1).+1)%N by lia.
  have W1 := wr_next [seq F (f i) | i <- iota 0 i] (mx - i.+1) NaN (F (f i)).
  rewrite size_map size_iota in W1. rewrite W1 /=.
  have W2 := wr_next (iota 0 i) (mx - i.+1) 0%N i.
  rewrite size_iota in W2. rewrite W2 /=.
  have E1 : rcons [seq F (f i) | i <- iota 0 i] (F (f i)) =
            [seq F (f i) | i <- iota 0 i.+1] by rewrite iotaS map_rcons.
  rewrite E1 -iotaS.
  have C := @checkE z atol rtol
     ([seq F (f i) | i <- iota 0 i.+1] ++ nseq (mx - i.+1) NaN) mn
     (iota 0 i.+1 ++ nseq (mx - i.+1) 0%N) (prefix f i.+1) Hz.
  rewrite size_prefix in C. by rewrite C // (@select_at f mx i.+1 Hi).
Qed.

Lemma sampling_run est z atol rtol mn f mx K i c : 0 <= z -> (i <= K <= mx)%N ->
  (forall j, (j < K)%N -> est j = Some (F (f j))) ->
  (forall j, (i < j < K)%N -> ~~ stops z atol rtol mn f j) ->
  stops z atol rtol mn f K \/ K = mx ->
  c = (if i == K then (0 < K)%N && stops z atol rtol mn f K else false) ->
  sampling est (F z) (F atol) (F rtol) mn (mx - i) i (st_at f mx i c) =
  Returns (st_at f mx K ((0 < K)%N && stops z atol rtol mn f K)).
Proof.
  move=> Hz /andP[HiK HK] He Hno Hend.
  move Hn: (K - i)%N => n; elim: n i Hn HiK Hno c => [|n IH] i Hn HiK Hno c.
    have -> : i = K by lia. rewrite eqxx => Ec.
    case: Hend => [Hs|EK]; last by rewrite -EK subnn /= -Ec.
    case: K Hs Ec HK {He Hno Hn HiK} => [|K] Hs Ec HK; last first.
      by rewrite /= in Ec; rewrite sampling_conv /= ?Ec ?Hs.
    rewrite /= in Ec. rewrite Ec.
    by move: Hs; rewrite /may_stop /small_enough size_prefix ltn0 andbF.
  have -> : (i == K) = false by apply/eqP; lia.
  move=> ->. have -> : (mx - i = (mx - i.+1).+1)%N by lia.
  rewrite sampling_step //; [|by lia|by apply: He; lia].
  apply: IH; [by lia|by lia|by move=> j Hj; apply: Hno; lia|].
  case: eqP => [<- //|Hne]. by apply/negbTE/Hno; lia.
Qed.

(** ** The averaging *)
Section Average.
Variables (samples : seq num) (processed : seq nat) (xs : seq num).
Hypothesis look : forall i, (i < size xs)%N ->
  (do p <- rd processed i; rd samples p) = Some (nth NaN xs i).

Lemma look_bind (T : Type) (k : num -> option T) i : (i < size xs)%N ->
  (do p <- rd processed i; do x <- rd samples p; k x) = k (nth NaN xs i).
Proof.
  move=> /look. case: (rd processed i) => //= p. by case: (rd samples p) => //= x [->].
Qed.

Lemma flag_outliersE half mean mx i count : (i <= size xs <= mx)%N ->
  let P := is_outlier half mean in
  flag_outliers half mean samples processed (size xs - i) i
    (map P (take i xs) ++ nseq (mx - i) false) count =
  Some (map P xs ++ nseq (mx - size xs) false,
        (count + seq.count P (drop i xs))%N).
Proof.
  move=> /andP[Hi Hm] P.
  move Hn: (size xs - i)%N => n; elim: n i Hn Hi count => [|n IH] i Hn Hi count.
    have -> : i = size xs by lia. by rewrite /= take_size drop_size /= addn0.
  have Hlt : (i < size xs)%N by lia.
  rewrite [LHS]/= look_bind // -/(is_outlier half mean (nth NaN xs i)) -/P.
  rewrite (drop_nth NaN Hlt) /=.
  have Et : map P (take i.+1 xs) = rcons (map P (take i xs)) (P (nth NaN xs i)).
    by rewrite (take_nth NaN Hlt) map_rcons.
  have Em : (mx - i = (mx - i.+1).+1)%N by lia.
  have Es : size (map P (take i xs)) = i by rewrite size_map size_takel.
  case E: (P (nth NaN xs i)).
    have W := wr_next (map P (take i xs)) (mx - i.+1) false true.
    rewrite Es in W. rewrite E in Et. rewrite Em W /= -Et IH; [|by lia|by lia].
    by rewrite addSnnS.
  rewrite E in Et. rewrite add0n Em [nseq _.+1 _]/= -cat_rcons -Et. apply: IH; lia.
Qed.

Lemma sum_keptE g (P : pred num) mx n i acc : (i + n <= size xs <= mx)%N ->
  (i + n = size xs)%N ->
  sum_kept g samples processed (map P xs ++ nseq (mx - size xs) false) n i acc =
  Some (foldl (@nadd R) acc (map g [seq x <- drop i xs | ~~ P x])).
Proof.
  move=> /andP[_ Hm].
  elim: n i acc => [|n IH] i acc Hn /=.
    have -> : i = size xs by lia. by rewrite drop_size.
  have Hlt : (i < size xs)%N by lia.
  have Hlt2 : (i < size (map P xs ++ nseq (mx - size xs) false))%N.
    by rewrite size_cat size_map; lia.
  rewrite (rdE false Hlt2) /= nth_cat size_map Hlt (nth_map NaN) //.
  rewrite (drop_nth NaN Hlt) /=.
  case E: (P (nth NaN xs i)) => /=; first by apply: IH; lia.
  rewrite look_bind //. apply: IH; lia.
Qed.

End Average.

Lemma bindE (T U : Type) (x : T) (k : T -> outcome U) : bind (Returns x) k = k x.
Proof. by []. Qed.

Lemma nat_case (T : Type) (a b : T) n : (0 < n)%N -> (if n is 0 then a else b) = b.
Proof. by case: n. Qed.

Lemma seq_case (T U : Type) (a b : T) (s : seq U) : (0 < size s)%N ->
  (if s is [::] then a else b) = b.
Proof. by case: s. Qed.

(** The averaging of finite samples, for whatever test [keep] the comparison
    of the code amounts to. *)
Lemma averageE samples processed (ys : seq R) (keep : pred R) (ze : R) zo mx :
  (0 < size ys <= mx)%N ->
  (forall i, (i < size ys)%N ->
     (do p <- rd processed i; rd samples p) = Some (nth NaN (map F ys) i)) ->
  select samples (take (size ys) processed) = Some (map F ys) ->
  (forall x, x \in ys ->
     is_outlier (nmul zo (if (1 < size ys)%N then F (pop_std ys) else PInf))
       (F (mean ys)) (F x) = ~~ keep x) ->
  let ks := filter keep ys in
  average_estimates (F ze) zo mx (size ys) processed samples =
  if ks is [::] then Raises ZeroDivisionError
  else Returns (F (mean ks),
         (if (1 < size ks)%N then F (half_width ze ks) else nmul (F ze) PInf),
         (size ys - size ks)%N).
Proof.
  move=> /andP[H0 Hm] Hlook Hsel Hkeep ks.
  rewrite /average_estimates /gather Hsel [access _]/= [LHS]/bind np_meanE // np_stdE //.
  set half := nmul zo _. set P := is_outlier half (F (mean ys)).
  have Hsz : size (map F ys) = size ys by rewrite size_map.
  have Hlook' : forall i, (i < size (map F ys))%N ->
     (do p <- rd processed i; rd samples p) = Some (nth NaN (map F ys) i).
    by rewrite Hsz.
  have Fl := @flag_outliersE samples processed (map F ys) Hlook' half (F (mean ys))
    mx 0 0.
  rewrite /= Hsz subn0 in Fl. rewrite take0 drop0 subn0 /= -/P in Fl.
  rewrite Fl; last by rewrite Hm.
  rewrite add0n [access _]/= bindE; lazy beta iota.
  have EP : {in ys, (fun x => P (F x)) =1 (fun x => ~~ keep x)} by exact: Hkeep.
  have Ec : count P (map F ys) = (size ys - size ks)%N.
    rewrite count_map (eq_in_count EP) size_filter.
    by rewrite -(count_predC keep ys) addKn.
  have Hks : (size ks <= size ys)%N by rewrite size_filter count_size.
  have Ef : [seq a <- map F ys | ~~ P a] = map F ks.
    rewrite filter_map. congr (map F _). apply: eq_in_filter => x Hx /=.
    by rewrite (EP x Hx) negbK.
  have Sk g acc := @sum_keptE samples processed (map F ys) Hlook' g P mx
    (size ys) 0 acc.
  rewrite Hsz in Sk.
  rewrite Sk ?add0n ?leqnn ?Hm // drop0 Ef map_id -/(nsum _) nsumE [access _]/= bindE.
  rewrite Ec subKn //.
  have [/size0nil -> //|Hk] := posnP (size ks).
  rewrite nat_case // seq_case //; lazy zeta.
  have Ek : nsub (nint R (size ys)) (nint R (size ys - size ks)) = nint R (size ks).
    rewrite /nsub /= /nint natrB //. by rewrite opprB addrCA subrr addr0.
  have Em : ndiv (F (\sum_(x <- ks) x)) (nint R (size ks)) = F (mean ks).
    by rewrite /= nint0 eqn0Ngt Hk.
  have Ew : (1 + (size ys - size ks) < size ys)%N = (1 < size ks)%N by lia.
  rewrite Ew Ek Em. case: ifP => Hi.
  - rewrite Sk ?add0n ?leqnn ?Hm // drop0 Ef.
    rewrite -/(nsum _) dev_mapE [access _]/= /bind nint_sub1 // nsqrt_div ?sum_sq_ge0 //; last by lia.
    by rewrite nsqrt_nint /= sqrt_nint_eq0 eqn0Ngt Hk.
  - rewrite /bind nsqrt_nint. have E1 : size ks = 1%N by lia.
    rewrite E1 sqrtr1. congr (Returns (_, _, _)).
    by case: (nmul _ _) => [x|||] /=; rewrite ?oner_eq0 ?divr1 ?ltr10.
Qed.

Lemma mean1 (x : R) : mean [:: x] = x.
Proof. by rewrite /mean big_seq1 divr1. Qed.

Lemma keep_finite (zo : R) ys x : 0 <= zo -> x \in ys ->
  is_outlier (nmul (F zo) (if (1 < size ys)%N then F (pop_std ys) else PInf))
    (F (mean ys)) (F x) = ~~ (`|x - mean ys| <= zo * pop_std ys).
Proof.
  move=> Hz Hx. case: ifP => H; first by rewrite /is_outlier /= -ltNge.
  case: ys Hx H => [|y [|y' ys]] //. rewrite inE => /eqP -> _.
  rewrite mean1 subrr normr0 /is_outlier /= /inf_times.
  have -> : 0 <= zo * pop_std [:: y] by rewrite mulr_ge0 ?sqrtr_ge0.
  case: (zo =P 0) => // /eqP Hn. by rewrite lt0r Hn Hz.
Qed.

Lemma keep_all ys (x : R) : x \in ys ->
  is_outlier (nmul PInf (if (1 < size ys)%N then F (pop_std ys) else PInf))
    (F (mean ys)) (F x) = ~~ predT x.
Proof.
  move=> Hx. case: ifP => H //=.
  rewrite /inf_times /is_outlier. case: eqP => // /eqP Hn.
  by rewrite lt0r Hn sqrtr_ge0.
Qed.

Lemma look_at f mx k i : (k <= mx)%N -> (i < size (prefix f k))%N ->
  (do p <- rd (iota 0 k ++ nseq (mx - k) 0%N) i;
   rd ([seq F (f j) | j <- iota 0 k] ++ nseq (mx - k) NaN) p) =
  Some (nth NaN (map F (prefix f k)) i).
Proof.
  move=> Hk. rewrite size_prefix => Hi.
  rewrite (rdE 0%N) /=; last by rewrite size_cat size_iota; lia.
  rewrite nth_cat size_iota Hi nth_iota // add0n.
  rewrite (rdE NaN); last by rewrite size_cat size_map size_iota; lia.
  rewrite nth_cat size_map size_iota Hi. congr (Some (nth _ _ _)).
  by rewrite /first_estimates -map_comp.
Qed.

(** ** The whole call *)
Lemma runE est z zo atol rtol f ncols mn mx K (keep : pred R) :
  let M := minn mx ncols in let m := minn mn ncols in
  0 <= z -> (0 < K <= M)%N ->
  (forall j, (j < K)%N -> est j = Some (F (f j))) ->
  (forall j, (0 < j < K)%N -> ~~ stops z atol rtol m f j) ->
  stops z atol rtol m f K \/ K = M ->
  (forall x, x \in prefix f K ->
     is_outlier (nmul zo (if (1 < K)%N then F (pop_std (prefix f K)) else PInf))
       (F (mean (prefix f K))) (F x) = ~~ keep x) ->
  let ks := filter keep (prefix f K) in
  hutchinson_run est (F z) zo (F atol) (F rtol) ncols mn mx =
  if ks is [::] then Raises ZeroDivisionError
  else Returns (Report (F (mean ks))
         (if (1 < size ks)%N then F (half_width z ks) else nmul (F z) PInf)
         (K - size ks)%N
         ([seq F (f i) | i <- iota 0 K] ++ nseq (M - K) NaN)
         (iota 0 K ++ nseq (M - K) 0%N) K (stops z atol rtol m f K) m M).
Proof.
  move=> M m Hz /andP[H0 HK] He Hno Hend Hkeep ks.
  rewrite /hutchinson_run.
  have EM : (if (ncols < mx)%N then ncols else mx) = M.
    by rewrite /M minnC.
  have Em : (if (ncols < mn)%N then ncols else mn) = m.
    by rewrite /m minnC.
  rewrite EM Em.
  have S := @sampling_run est z atol rtol m f M K 0 false Hz.
  rewrite /= subn0 /st_at /= subn0 HK in S.
  rewrite /start S //; last by case: eqP => // E; rewrite -E in H0.
  rewrite H0 /=.
  have A := @averageE ([seq F (f i) | i <- iota 0 K] ++ nseq (M - K) NaN)
     (iota 0 K ++ nseq (M - K) 0%N) (prefix f K) keep z zo M.
  rewrite size_prefix H0 HK in A.
  rewrite A //=.
  - by rewrite /ks; case: (filter keep (prefix f K)).
  - by move=> i Hi; apply: look_at => //; rewrite size_prefix.
  - exact: (@select_at f M K HK).
Qed.

(** Some value is not further from the mean than the deviation. *)
Lemma kept_nonempty (z : R) xs : (0 < size xs)%N -> 1 <= z -> kept z xs != [::].
Proof.
  move=> H Hz. apply/negP => /eqP E.
  have Hall x : x \in xs -> pop_std xs ^+ 2 < (x - mean xs) ^+ 2.
    move=> Hx. have Hn : ~~ (`|x - mean xs| <= z * pop_std xs).
      apply/negP => Hk. have : x \in kept z xs by rewrite mem_filter Hk.
      by rewrite E.
    rewrite -ltNge in Hn. rewrite -(real_normK (num_real (x - mean xs))).
    have H1 : pop_std xs < `|x - mean xs|.
      apply: le_lt_trans Hn. by rewrite ler_pemull // sqrtr_ge0.
    by rewrite ltr_sqr ?nnegrE ?sqrtr_ge0 ?normr_ge0.
  have Es : pop_std xs ^+ 2 *+ size xs = \sum_(x <- xs) (x - mean xs) ^+ 2.
    rewrite sqr_sqrtr; last by rewrite divr_ge0 ?sum_sq_ge0 ?ler0n.
    rewrite -mulr_natr divfK // pnatr_eq0. by lia.
  have Hlt : pop_std xs ^+ 2 *+ size xs < \sum_(x <- xs) (x - mean xs) ^+ 2.
    have Hs : forall (a : R) s, (0 < size s)%N -> (forall x, x \in s -> a < (x - mean xs) ^+ 2) ->
       a *+ size s < \sum_(x <- s) (x - mean xs) ^+ 2.
      move=> a. elim=> [|x [|y s] IH] //= _ Ha.
        by rewrite big_seq1 mulr1n Ha ?mem_head.
      rewrite big_cons mulrS ltr_add ?Ha ?mem_head //. apply: IH => // w Hw.
      by apply: Ha; rewrite inE Hw orbT.
    exact: Hs.
  by rewrite Es ltxx in Hlt.
Qed.

End Proofs.
