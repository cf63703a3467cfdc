(** * Proofs about the convergence test and the averaging *)
From mathcomp Require Import all_ssreflect all_algebra.
From mathcomp Require Import zify.
From Verif Require Import Mem ConvModel ConvSpec.

Set Implicit Arguments.
Unset Strict Implicit.
Unset Printing Implicit Defensive.

Import Order.TTheory GRing.Theory Num.Theory.
Local Open Scope ring_scope.

Section Proofs.
Variable R : rcfType.
Implicit Types (x y z : R) (xs ys : seq R).
Notation num := (num R).
Notation F := (@Fin R).

Lemma nsum_acc (a : R) xs :
  foldl (@nadd R) (F a) (map F xs) = F (a + \sum_(x <- xs) x).
Proof.
  elim: xs a => [|x xs IH] a /=; first by rewrite big_nil addr0.
  by rewrite IH big_cons addrA.
Qed.

Lemma nsumE xs : nsum (map F xs) = F (\sum_(x <- xs) x).
Proof. by rewrite /nsum nsum_acc add0r. Qed.

Lemma nint0 k : ((k%:R : R) == 0) = (k == 0)%N.
Proof. by rewrite pnatr_eq0. Qed.

Lemma column_meanE xs : (0 < size xs)%N -> column_mean (map F xs) = F (mean xs).
Proof.
  move=> H. rewrite /column_mean nsumE /nint size_map /=.
  by rewrite nint0 eqn0Ngt H.
Qed.

Lemma nint_sub1 k : (0 < k)%N -> nsub (nint R k) (F 1) = F (k.-1)%:R.
Proof.
  move=> H. rewrite /nsub /=. by rewrite -[in k%:R](prednK H) mulrS addrAC subrr add0r.
Qed.

Lemma sum_sq_ge0 (xs : seq R) (m : R) : 0 <= \sum_(x <- xs) (x - m) ^+ 2.
Proof. by rewrite sumr_ge0 // => x _; rewrite sqr_ge0. Qed.

(** The standard deviation about any centre, with a given divisor. *)
Lemma dev_mapE xs (m : R) :
  nsum [seq nmul (nsub a (F m)) (nsub a (F m)) | a : num <- map F xs] =
  F (\sum_(x <- xs) (x - m) ^+ 2).
Proof.
  rewrite -map_comp.
  have E : (fun a : num => nmul (nsub a (F m)) (nsub a (F m))) \o F =1
    F \o (fun x => (x - m) ^+ 2) by move=> x /=; rewrite -expr2.
  by rewrite (eq_map E) map_comp nsumE big_map.
Qed.

Lemma nsqrt_div (s : R) k : 0 <= s -> (0 < k)%N ->
  nsqrt (ndiv (F s) (F k%:R)) = F (Num.sqrt (s / k%:R)).
Proof.
  move=> Hs Hk. rewrite /= nint0 eqn0Ngt Hk /=.
  by rewrite ltNge divr_ge0 ?ler0n.
Qed.

Lemma column_stdE xs : (1 < size xs)%N ->
  column_std (map F xs) (F (mean xs)) = F (std_dev xs).
Proof.
  move=> H. rewrite /column_std size_map H dev_mapE nint_sub1; last by lia.
  by rewrite nsqrt_div // ?sum_sq_ge0 //; lia.
Qed.

Lemma nsqrt_nint k : nsqrt (nint R k) = F (Num.sqrt k%:R).
Proof. by rewrite /= ltNge ler0n. Qed.

Lemma sqrt_nint_eq0 k : (Num.sqrt (k%:R : R) == 0) = (k == 0)%N.
Proof. by rewrite sqrtr_eq0 lern0. Qed.

Lemma column_errorE z xs : (1 < size xs)%N ->
  column_error (F z) (map F xs) = F (half_width z xs).
Proof.
  move=> H. have H0 : (0 < size xs)%N by lia.
  rewrite /column_error column_meanE // column_stdE // size_map nsqrt_nint /=.
  by rewrite sqrt_nint_eq0 eqn0Ngt H0.
Qed.

Lemma nmaxE x y : nmax (F x) (F y) = F (Num.max x y).
Proof. by rewrite /nmax /=; case: ltP. Qed.

Lemma column_convergedE z atol rtol xs : (1 < size xs)%N ->
  column_converged (F z) (F atol) (F rtol) (map F xs) =
  (half_width z xs < Num.max atol (rtol * mean xs)).
Proof.
  move=> H. have H0 : (0 < size xs)%N by lia.
  by rewrite /column_converged column_errorE // column_meanE //= nmaxE.
Qed.

(** One sample (or none) never converges, nor does confidence level 1. *)
Lemma column_converged_one z atol rtol (xs : seq num) : 0 <= z ->
  (size xs <= 1)%N -> column_converged (F z) atol rtol xs = false.
Proof.
  move=> Hz H. rewrite /column_converged /column_error /column_std ltnNge H.
  rewrite nsqrt_nint /= /inf_times.
  case: (z =P 0) => [|/eqP Hz0] /=; first by [].
  rewrite lt0r Hz0 Hz /= ltNge sqrtr_ge0 /=.
  by case: (nmax _ _).
Qed.

(** With confidence level 1 (infinite quantile) nothing converges. *)
Lemma column_converged_inf atol rtol xs :
  column_converged PInf atol rtol (map F xs) = false.
Proof.
  rewrite /column_converged /column_error nsqrt_nint.
  have [H|H] := ltnP 1 (size xs); last first.
    rewrite /column_std size_map ltnNge H /= ltNge sqrtr_ge0 /=.
    by case: (nmax _ _).
  rewrite column_meanE ?column_stdE //; last by lia.
  rewrite /= /inf_times. case: (std_dev xs =P 0) => [|/eqP H0] //=.
  rewrite lt0r H0 sqrtr_ge0 /= ltNge sqrtr_ge0 /=. by case: (nmax _ _).
Qed.

(** A NaN among the values prevents convergence. *)
Lemma foldl_nadd_NaN (xs : seq num) : foldl (@nadd R) NaN xs = NaN.
Proof. by elim: xs. Qed.

Lemma nadd_NaN (a : num) : nadd a NaN = NaN.
Proof. by case: a. Qed.

Lemma column_mean_NaN (xs : seq num) (x0 : num) i : (i < size xs)%N ->
  nth x0 xs i = NaN -> column_mean xs = NaN.
Proof.
  move=> Hi E. rewrite -(cat_take_drop i xs) (drop_nth x0 Hi) E.
  by rewrite /column_mean /nsum foldl_cat /= nadd_NaN foldl_nadd_NaN.
Qed.

Lemma column_converged_NaN (z atol rtol : num) (xs : seq num) (x0 : num) i :
  (1 < size xs)%N -> (i < size xs)%N -> nth x0 xs i = NaN ->
  column_converged z atol rtol xs = false.
Proof.
  move=> H Hi E. rewrite /column_converged /column_error (column_mean_NaN Hi E).
  rewrite /column_std H.
  have -> : nsum [seq nmul (nsub a NaN) (nsub a NaN) | a : num <- xs] = NaN.
    case: xs H {Hi E} => // a xs _. rewrite /nsum /=.
    by rewrite /nsub /= nadd_NaN /= foldl_nadd_NaN.
  by rewrite /=; case: z.
Qed.

(** ** The call as a whole *)
Lemma column_fromP samples (processed : seq nat) j k l (xs : seq num) :
  column_from samples processed j k l = Some xs <->
  [/\ size xs = k, (l + k <= maxn l (size processed))%N &
     forall i, (i < k)%N ->
       entry samples (nth 0%N processed (l + i)) j = Some (nth NaN xs i)].
Proof.
  elim: k l xs => [|k IH] l xs /=.
    split=> [[<-]|[/size0nil -> _ _]] //; split=> //. by rewrite addn0 leq_maxl.
  split.
  - case Ei: (rd processed l) => [i|] //=.
    case Ex: (entry samples i j) => [x|] //=.
    case Er: (column_from _ _ _ _ _) => [ys|] //= [<-].
    have [Hs Hl Hn] := (IH _ _).1 Er. have Hlt := rd_some Ei.
    move: Ei; rewrite (rdE 0%N Hlt) => [[Ei]].
    split; [by rewrite /= Hs|by lia|].
    case=> [|m] Hm; first by rewrite addn0 Ei Ex.
    by rewrite -addSnnS Hn.
  - case=> Hs Hl Hn. have Hlt : (l < size processed)%N by lia.
    rewrite (rdE 0%N Hlt) /=.
    have := Hn 0%N isT. rewrite addn0 => ->.
    case: xs Hs Hn => // x xs [Hs] Hn /=.
    have -> // : column_from samples processed j k l.+1 = Some xs.
    apply/IH. split=> //; first by lia.
    by move=> i Hi; rewrite addSnnS Hn.
Qed.

Lemma columnP samples (processed : seq nat) k j (xs : seq num) :
  column samples processed k j = Some xs <->
  [/\ size xs = k, (k <= size processed)%N &
     forall i, (i < k)%N ->
       entry samples (nth 0%N processed i) j = Some (nth NaN xs i)].
Proof.
  rewrite /column. split.
  - by case/column_fromP; rewrite add0n max0n.
  - case=> Hs Hl Hn; apply/column_fromP. by rewrite add0n max0n.
Qed.

Lemma not_enoughP q k j (o o' : conv_out R) :
  not_enough q k j o = Some o' ->
  [/\ size (co_error o') = size (co_error o), size (co_used o') = size (co_used o),
      size (co_converged o') = size (co_converged o) &
   forall i, (j <= i < j + q)%N ->
     [/\ nth NaN (co_error o') i = PInf, nth false (co_converged o') i = false &
         nth 0%N (co_used o') i = k] ] /\
   (forall i, ~~ (j <= i < j + q)%N ->
     [/\ nth NaN (co_error o') i = nth NaN (co_error o) i,
         nth false (co_converged o') i = nth false (co_converged o) i &
         nth 0%N (co_used o') i = nth 0%N (co_used o) i]).
Proof.
  elim: q j o => [|q IH] j o /=.
    case=> <-. split; first by split=> // i; lia. by move=> i _; split.
  case Ee: (wr (co_error o) _ _) => [e|] //=.
  case Ec: (wr (co_converged o) _ _) => [c|] //=.
  case Eu: (wr (co_used o) _ _) => [u|] //= H.
  have [[S1 S2 S3 Hin] Hout] := IH _ _ H. rewrite /= in S1 S2 S3 Hout.
  split.
  - split; [by rewrite S1 (size_wr Ee)|by rewrite S2 (size_wr Eu)|
            by rewrite S3 (size_wr Ec)|].
    move=> i Hi. have [E|E] := eqVneq i j; last by apply: Hin; lia.
    have [|-> -> ->] := Hout i; first by lia.
    by rewrite (nth_wr _ _ Ee) (nth_wr _ _ Ec) (nth_wr _ _ Eu) E eqxx.
  - move=> i Hi. have [|-> -> ->] := Hout i; first by lia.
    rewrite (nth_wr _ _ Ee) (nth_wr _ _ Ec) (nth_wr _ _ Eu).
    by case: (i =P j) => // E; lia.
Qed.

(** What one call does to column [i] of the outputs. *)
Definition column_step (z atol rtol : num) samples processed k (o o' : conv_out R)
    (i : nat) : Prop :=
  if nth false (co_converged o) i then
    [/\ nth NaN (co_error o') i = nth NaN (co_error o) i,
        nth false (co_converged o') i = true &
        nth 0%N (co_used o') i = nth 0%N (co_used o) i]
  else exists2 xs, column samples processed k i = Some xs &
    [/\ nth NaN (co_error o') i = column_error z xs,
        nth false (co_converged o') i = column_converged z atol rtol xs &
        nth 0%N (co_used o') i = k].

Lemma check_columnsP (z atol rtol : num) samples processed k q j (o o' : conv_out R) :
  check_columns z atol rtol samples processed k q j o = Some o' ->
  [/\ size (co_error o') = size (co_error o), size (co_used o') = size (co_used o),
      size (co_converged o') = size (co_converged o) &
   forall i, (j <= i < j + q)%N ->
     column_step z atol rtol samples processed k o o' i ] /\
   (forall i, ~~ (j <= i < j + q)%N ->
     [/\ nth NaN (co_error o') i = nth NaN (co_error o) i,
         nth false (co_converged o') i = nth false (co_converged o) i &
         nth 0%N (co_used o') i = nth 0%N (co_used o) i]).
Proof.
  elim: q j o => [|q IH] j o /=.
    case=> <-. split; first by split=> // i; lia. by move=> i _; split.
  case Ecj: (rd _ _) => [cj|] //=.
  have Hj := rd_some Ecj. move: Ecj; rewrite (rdE false Hj) => [[Ecj]].
  case: cj Ecj => Ecj /= H.
  - have [[S1 S2 S3 Hin] Hout] := IH _ _ H.
    split; last by move=> i Hi; apply: Hout; lia.
    split=> // i Hi. have [E|E] := eqVneq i j; last by apply: Hin; lia.
    have [|E1 E2 E3] := Hout i; first by lia.
    by rewrite /column_step E Ecj -E E2 E1 E3 E Ecj.
  - move: H. case Exs: (column _ _ _ _) => [xs|] //=.
    case Ee: (wr (co_error o) _ _) => [e|] //=.
    set cc := (if _ then _ else _).
    case Ec: cc => [c|] //=. case Eu: (wr (co_used o) _ _) => [u|] //= H.
    have Hc : size c = size (co_converged o) /\
      forall i, nth false c i =
        if i == j then column_converged z atol rtol xs else nth false (co_converged o) i.
      move: Ec; rewrite /cc. case: ifP => Ecc.
      + move=> Ew; split; first exact: size_wr Ew. move=> i. exact: (nth_wr _ _ Ew).
      + case=> <-. split=> // i. by case: eqP => // ->.
    have [[S1 S2 S3 Hin] Hout] := IH _ _ H. rewrite /= in S1 S2 S3 Hin Hout.
    split.
    + split; [by rewrite S1 (size_wr Ee)|by rewrite S2 (size_wr Eu)|
              by rewrite S3 Hc.1|].
      move=> i Hi. have [E|E] := eqVneq i j.
        have [|E1 E2 E3] := Hout i; first by lia.
        rewrite /column_step E Ecj. exists xs; first by [].
        rewrite -E E1 E2 E3 (nth_wr _ _ Ee) Hc.2 (nth_wr _ _ Eu).
        by rewrite E eqxx.
      have := Hin i. rewrite /column_step /= Hc.2 (nth_wr _ _ Ee) (nth_wr _ _ Eu).
      rewrite (negbTE E). apply. lia.
    + move=> i Hi. have [|-> -> ->] := Hout i; first by lia.
      rewrite (nth_wr _ _ Ee) Hc.2 (nth_wr _ _ Eu).
      by case: (i =P j) => // E; lia.
Qed.

Lemma all_setP q j (c : seq bool) b : all_set q j c = Some b ->
  b = all (nth false c) (iota j q).
Proof.
  elim: q j => [|q IH] j /=; first by case.
  case Ecj: (rd _ _) => [cj|] //=.
  have Hj := rd_some Ecj. move: Ecj; rewrite (rdE false Hj) => [[->]].
  by case: cj => //= [/IH|[<-]].
Qed.

(** No access outside the arrays. *)
Lemma not_enough_some q k j (o : conv_out R) :
  (j + q <= size (co_error o))%N -> (j + q <= size (co_used o))%N ->
  (j + q <= size (co_converged o))%N -> exists o', not_enough q k j o = Some o'.
Proof.
  elim: q j o => [|q IH] j o /= H1 H2 H3; first by exists o.
  have E1 : (j < size (co_error o))%N by lia.
  have E2 : (j < size (co_used o))%N by lia.
  have E3 : (j < size (co_converged o))%N by lia.
  rewrite (wrE PInf E1) /= (wrE false E3) /= (wrE k E2) /=.
  apply: IH; rewrite /= size_set_nth; lia.
Qed.

(** The arrays passed to [check_convergence]: [q] outputs, and [k] processed
    rows of [q] samples. *)
Definition well_shaped (samples : seq (seq num)) (processed : seq nat) (q k : nat)
    : Prop :=
  (k <= size processed)%N /\
  forall i, (i < k)%N -> (nth 0%N processed i < size samples)%N /\
    (q <= size (nth [::] samples (nth 0%N processed i)))%N.

Definition out_shaped (q : nat) (o : conv_out R) : Prop :=
  [/\ size (co_error o) = q, size (co_used o) = q & size (co_converged o) = q].

Lemma column_some samples processed q k j : well_shaped samples processed q k ->
  (j < q)%N -> exists ys : seq num, column samples processed k j = Some ys.
Proof.
  case=> Hk Hr Hj.
  exists [seq nth NaN (nth [::] samples (nth 0%N processed i)) j | i <- iota 0 k].
  apply/columnP. rewrite size_map size_iota. split=> // i Hi.
  rewrite (nth_map 0%N) ?size_iota // nth_iota // add0n.
  have [H1 H2] := Hr i Hi.
  rewrite /entry (rdE [::] H1) /=. by rewrite (rdE NaN (leq_trans Hj H2)).
Qed.

Lemma check_columns_some (z atol rtol : num) samples processed k q0 q j (o : conv_out R) :
  well_shaped samples processed q0 k -> (j + q <= q0)%N -> out_shaped q0 o ->
  exists o', check_columns z atol rtol samples processed k q j o = Some o'.
Proof.
  move=> Hw. elim: q j o => [|q IH] j o /= Hj [H1 H2 H3]; first by exists o.
  have Hj0 : (j < q0)%N by lia.
  have E1 : (j < size (co_error o))%N by lia.
  have E2 : (j < size (co_used o))%N by lia.
  have E3 : (j < size (co_converged o))%N by lia.
  rewrite (rdE false E3) /=. case: ifP => _ /=; first by apply: IH => //; lia.
  have [xs ->] := column_some Hw Hj0. rewrite /=.
  rewrite (wrE _ E1) /=.
  case: ifP => _; rewrite ?(wrE _ E3) /= (wrE _ E2) /=; apply: IH; try lia;
    split; rewrite /= ?size_set_nth; lia.
Qed.

Lemma all_set_some q j (c : seq bool) : (j + q <= size c)%N ->
  exists b, all_set q j c = Some b.
Proof.
  elim: q j => [|q IH] j /= H; first by exists true.
  rewrite (rdE false); last by lia.
  rewrite /=. case: ifP => _; last by exists false. by apply: IH; lia.
Qed.

Lemma check_convergence_some (z atol rtol : num) samples min_ q processed k o :
  well_shaped samples processed q k -> out_shaped q o ->
  exists a o', check_convergence z atol rtol samples min_ q processed k o = Some (a, o')
    /\ out_shaped q o'.
Proof.
  move=> Hw Ho. have [H1 H2 H3] := Ho. rewrite /check_convergence. case: ifP => _.
  - have [||| o' Eo] := @not_enough_some q k 0 o; try by rewrite add0n ?H1 ?H2 ?H3.
    exists false, o'. rewrite Eo. split=> //.
    have [[S1 S2 S3 _] _] := not_enoughP Eo. by split; rewrite ?S1 ?S2 ?S3.
  - have [o' Eo] := @check_columns_some z atol rtol samples processed k q q 0 o Hw
      (leqnn _) Ho.
    rewrite Eo /=. have [[S1 S2 S3 _] _] := check_columnsP Eo.
    have [|b Eb] := @all_set_some q 0 (co_converged o'); first by rewrite S3 H3.
    exists b, o'. rewrite Eb /=. split=> //. by split; rewrite ?S1 ?S2 ?S3.
Qed.

(** ** Averaging *)
Lemma size_inliers (xs : seq R) z :
  (count (fun x => ~~ (`|x - mean xs| <= z * std_dev xs)%R) xs + size (inliers z xs))%N
  = size xs.
Proof.
  rewrite size_filter addnC. exact: count_predC.
Qed.

Lemma average_columnE ze zo xs : (1 < size xs)%N -> inliers zo xs != [::] ->
  average_column (F ze) (F zo) (map F xs) =
  (count (fun x => ~~ (`|x - mean xs| <= zo * std_dev xs)) xs,
   F (mean (inliers zo xs)),
   if (1 < size (inliers zo xs))%N then F (half_width ze (inliers zo xs))
   else nmul (F ze) PInf).
Proof.
  move=> H Hin. have H0 : (0 < size xs)%N by lia.
  have Hk : (0 < size (inliers zo xs))%N by case: (inliers zo xs) Hin.
  rewrite /average_column column_meanE // column_stdE //.
  set p := is_outlier _ _.
  have Ep : p \o F =1 (fun x => ~~ (`|x - mean xs| <= zo * std_dev xs)).
    move=> x. by rewrite /p /= /is_outlier /= ltNge.
  rewrite count_map (eq_count Ep).
  have Ef : [seq a <- map F xs | ~~ p a] = map F (inliers zo xs).
    rewrite filter_map. congr (map F _). apply: eq_filter => x /=.
    by have := Ep x; rewrite /= => ->; rewrite negbK.
  rewrite Ef. have Es := size_inliers xs zo. rewrite size_map.
  set c := count _ _ in Es *.
  have Ec : nsub (nint R (size xs)) (nint R c) = nint R (size (inliers zo xs)).
    rewrite /nsub /= /nint -Es natrD. by rewrite addrAC subrr add0r.
  have Em : ndiv (nsum (map F (inliers zo xs))) (nint R (size (inliers zo xs))) =
            F (mean (inliers zo xs)).
    have := @column_meanE (inliers zo xs) Hk. by rewrite /column_mean size_map.
  rewrite Ec Em.
  have -> : (1 + c < size xs)%N = (1 < size (inliers zo xs))%N by lia.
  congr (_, _, _). case: ifP => Hi.
  - have := @column_stdE (inliers zo xs) Hi. rewrite /column_std size_map Hi => ->.
    rewrite nsqrt_nint /= sqrt_nint_eq0 eqn0Ngt Hk //.
  - rewrite nsqrt_nint. have E1 : size (inliers zo xs) = 1%N by lia.
    rewrite E1 sqrtr1. by case: (nmul _ _) => [x|||] /=; rewrite ?oner_eq0 ?divr1 ?ltr10.
Qed.

(** One sample: the value itself, no outlier, infinite (or undefined) error. *)
Lemma average_column_one ze zo x : 0 <= zo ->
  average_column (F ze) (F zo) [:: F x] = (0%N, F x, nmul (F ze) PInf).
Proof.
  move=> Hz. rewrite /average_column /column_std /=.
  rewrite /column_mean /nsum /= oner_eq0 add0r divr1.
  have -> : is_outlier (inf_times zo) (F x) (F x) = false.
    by rewrite /inf_times /is_outlier; case: eqP => //= /eqP H; rewrite lt0r H Hz.
  rewrite /= addn0 /nsub /= subr0 oner_eq0 add0r divr1. congr (_, _, _).
  rewrite ltr10 sqrtr1.
  by case: (inf_times ze) => [y|||] /=; rewrite ?oner_eq0 ?divr1 ?ltr10.
Qed.

(** The order does not matter. *)
Lemma perm_mean xs ys : perm_eq xs ys -> mean xs = mean ys.
Proof. by move=> H; rewrite /mean (perm_big _ H) (perm_size H). Qed.

Lemma perm_std_dev xs ys : perm_eq xs ys -> std_dev xs = std_dev ys.
Proof.
  move=> H. by rewrite /std_dev (perm_mean H) (perm_big _ H) (perm_size H).
Qed.

Lemma perm_inliers z xs ys : perm_eq xs ys -> perm_eq (inliers z xs) (inliers z ys).
Proof.
  move=> H. rewrite /inliers (perm_mean H) (perm_std_dev H). exact: perm_filter.
Qed.

Lemma perm_half_width z xs ys : perm_eq xs ys -> half_width z xs = half_width z ys.
Proof. by move=> H; rewrite /half_width (perm_std_dev H) (perm_size H). Qed.

(** The mean lies between any bounds of the sample. *)
Lemma mean_bounds (lo hi : R) xs : (0 < size xs)%N ->
  (forall x, x \in xs -> lo <= x <= hi) -> lo <= mean xs <= hi.
Proof.
  move=> Hs H. have H0 : 0 < (size xs)%:R :> R by rewrite ltr0n.
  rewrite /mean ler_pdivl_mulr // ler_pdivr_mulr //.
  have Hc (c : R) : c * (size xs)%:R = \sum_(x <- xs) c.
    by rewrite big_const_seq count_predT iter_addr_0 mulr_natr.
  rewrite !Hc big_seq [X in _ <= X <= _]big_seq [X in _ <= _ <= X]big_seq.
  by apply/andP; split; apply: ler_sum => x /H /andP [].
Qed.

Lemma mean_cons (x : R) (k : nat) : (0 < k)%N -> mean (nseq k x) = x.
Proof.
  move=> Hk. rewrite /mean size_nseq big_nseq iter_addr_0.
  by rewrite -[x *+ k]mulr_natr mulfK // pnatr_eq0 -lt0n.
Qed.

Lemma std_dev_nseq (x : R) k : (0 < k)%N -> std_dev (nseq k x) = 0.
Proof.
  move=> Hk. rewrite /std_dev mean_cons // big_nseq subrr expr0n /=.
  by rewrite iter_addr_0 mul0rn mul0r sqrtr0.
Qed.

(** If every sample were outside [z] standard deviations with [z >= 1], the
    sum of squares would exceed itself. *)
Lemma inliers_nonempty z xs : (1 < size xs)%N -> 1 <= z -> inliers z xs != [::].
Proof.
  move=> Hs Hz. apply/negP => /eqP E.
  set S := \sum_(x <- xs) (x - mean xs) ^+ 2.
  have HS : 0 <= S by exact: sum_sq_ge0.
  have Hk : 0 < (size xs).-1%:R :> R by rewrite ltr0n; lia.
  have Hsd : 0 <= std_dev xs by exact: sqrtr_ge0.
  have Hsq : std_dev xs ^+ 2 = S / (size xs).-1%:R.
    by rewrite sqr_sqrtr // divr_ge0 // ltW.
  have Hout x : x \in xs -> z * std_dev xs < `|x - mean xs|.
    move=> Hx. rewrite ltNge. apply/negP => Hle.
    have : x \in inliers z xs by rewrite mem_filter Hle.
    by rewrite E.
  have Hx x : x \in xs -> S / (size xs).-1%:R <= (x - mean xs) ^+ 2.
    move=> Hx. rewrite -Hsq -[X in _ <= X]real_normK ?num_real //.
    rewrite ler_sqr ?nnegrE // ?normr_ge0 //.
    apply: le_trans (ltW (Hout _ Hx)). by rewrite ler_pemull.
  have Hge : S / (size xs).-1%:R * (size xs)%:R <= S.
    rewrite {2}/S big_seq.
    have -> : S / (size xs).-1%:R * (size xs)%:R = \sum_(x <- xs | x \in xs) (S / (size xs).-1%:R).
      by rewrite -big_seq big_const_seq count_predT iter_addr_0 mulr_natr.
    by apply: ler_sum => x; apply: Hx.
  have HS0 : S = 0.
    apply/eqP; rewrite eq_le HS andbT.
    move: Hge. have -> : (size xs)%:R = (size xs).-1%:R + 1 :> R.
      by rewrite -[in LHS](@prednK (size xs)) ?mulrSr //; lia.
    rewrite mulrDr mulr1 mulfVK ?gt_eqF // ger_addl.
    by rewrite pmulr_lle0 // invr_gt0.
  have Hsd0 : std_dev xs = 0 by apply/eqP; rewrite -sqrf_eq0 Hsq HS0 mul0r.
  have : 0 < S.
    rewrite {Hsq Hx Hge HS HS0 E} /S. move: (mean xs) Hout => m.
    rewrite Hsd0 mulr0. case: xs Hs {Hk Hsd Hsd0} => // x xs _ Hout.
    rewrite big_cons ltr_paddr ?sum_sq_ge0 // -real_normK ?num_real //.
    by rewrite exprn_gt0 // Hout // mem_head.
  by rewrite HS0 ltxx.
Qed.
End Proofs.
