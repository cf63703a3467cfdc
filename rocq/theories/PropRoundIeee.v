(** Theorem C71, continued: the formats of the processor.  [single], [double]
    and [extended] (IeeeModel.v) are float, double and the long double of
    x86-64. *)
Require Import ZArith Reals Lia Lra.
From Flocq Require Import Core.
From mathcomp Require Import all_ssreflect all_algebra.
From mathcomp Require Import zify.
From Verif Require Import Mem KernelModel KernelSpec RealField.
From Verif Require Import RoundModel RoundSpec IeeeModel RoundProofs PropRound.
Set Implicit Arguments.
Unset Strict Implicit.
Unset Printing Implicit Defensive.
Import Order.TTheory GRing.Theory Num.Theory.
Local Open Scope ring_scope.

Notation two e := (bpow radix2 e).

(** C71. Every such format rounds in the sense of C71, with u = 2^-prec and
    eta = 2^(emin - 1). *)
Theorem C71_ieee : forall prec emin : Z, Z.lt Z0 prec ->
  rounds (ieee prec emin : R -> R) (two (Z.opp prec)) (two (Z.sub emin (Zpos xH))).
Proof.
  move=> prec emin Hp. split; [apply/RleP/bpow_ge_0|apply/RleP/bpow_ge_0|].
  move=> x. apply/RleP. exact: ieee_error.
Qed.

(** C71. And it holds the integers up to 2^prec. *)
Theorem C71_ieee_integers : forall (prec emin : Z) (M : nat), Z.lt Z0 prec -> Z.le emin Z0 ->
  Z.le (Z.of_nat M) (Z.pow (Zpos (xO xH)) prec) -> keeps_integers (ieee prec emin : R -> R) M.
Proof.
  move=> prec emin M Hp He HM z Hz.
  have -> : z%:~R = IZR (if z is Posz n then Z.of_nat n else Z.opp (Z.of_nat (absz z))) :> R.
  { case: z {Hz} => n.
    - by rewrite -[LHS]/(n%:R : R) RnatE INR_IZR_INZ.
    - by rewrite NegzE mulrNz -[X in - X]/(n.+1%:R : R) RnatE INR_IZR_INZ opp_IZR. }
  apply: ieee_int => //. case: z Hz => n; rewrite ?absz_nat; lia.
Qed.

Lemma rounds_single : rounds (single : R -> R) eps_single tiny_single.
Proof. exact: C71_ieee. Qed.
Lemma rounds_double : rounds (double : R -> R) eps_double tiny_double.
Proof. exact: C71_ieee. Qed.
Lemma rounds_extended : rounds (extended : R -> R) eps_extended tiny_extended.
Proof. exact: C71_ieee. Qed.

Lemma single_growth k n : Z.le (Z.of_nat n) two32 -> (k <= 9)%N ->
  (1 + eps_single : R) ^+ k * (1 + eps_extended : R) ^+ n <= 1 + k.+1%:R * eps_single.
Proof.
  move=> Hn Hk. apply/RleP. rewrite !RexpE RnatE. apply: growth_single => //. by apply/ssrnat.leP.
Qed.

Lemma within_mono (P Q h s v w : R) : within P h s v w -> P <= Q -> 0 <= s -> 0 <= h ->
  within Q h s v w.
Proof.
  rewrite /within => H HPQ Hs Hh. apply: le_trans H _. apply: ler_add.
  - by apply: ler_wpmul2r => //; rewrite ler_sub.
  - exact: ler_wpmul2r.
Qed.

Lemma writes_within_mono n c (P Q h : nat -> R) (s v : 'cV[R]_n) r :
  writes_within c P h s v r -> (forall i, (i < n)%N -> P i <= Q i) ->
  (forall i : 'I_n, 0 <= s i 0) -> (forall i, (i < n)%N -> 0 <= h i) -> writes_within c Q h s v r.
Proof.
  move=> [c' [H1 H2 H3 H4]] HPQ Hs Hh. exists c'; split => // i.
  apply: within_mono (H3 i) _ _ _ => //; [exact: HPQ|exact: Hh].
Qed.

Lemma mul_abs_ge0 m n (A : 'M[R]_(m, n)) (x : 'cV[R]_n) i :
  (forall i j, 0 <= A i j) -> 0 <= (A *m absmx x) i 0.
Proof.
  move=> HA. rewrite mxE. apply: sumr_ge0 => j _. apply: mulr_ge0 => //. by rewrite mxE.
Qed.

Lemma tiny_ge0 : 0 <= tiny_single /\ 0 <= tiny_extended.
Proof. by split; apply/RleP/bpow_ge_0. Qed.

Lemma plain_slack_ge0 k : 0 <= plain_slack tiny_single tiny_extended k.
Proof. case: tiny_ge0 => H1 H2. by rewrite addr_ge0 // mulr_ge0 // ler0n. Qed.

Lemma dense_slack_ge0 n r : 0 <= dense_slack tiny_single tiny_extended n r.
Proof.
  case: tiny_ge0 => H1 H2. case: r; last exact: plain_slack_ge0.
  by rewrite addr_ge0 // mulr_ge0 // ler0n.
Qed.

Lemma unrolled_single n : Z.le (Z.of_nat n) two32 ->
  unrolled_growth eps_single eps_extended n <= 1 + 7%:R * eps_single.
Proof.
  move=> Hn. apply: single_growth => //. apply: Z.le_trans Hn.
  have := divn_eq n 5. move: (n %/ 5)%N (n %% 5)%N => q r ->. lia.
Qed.

(** C71. In single precision, the products of a dense matrix with a vector,
    of either layout, and the inner products have a relative error of at most
    seven units in the last place (with respect to the sum of the absolute
    values), for every size up to 2^32; compressed rows three.  The accumulator
    is why the size does not matter. *)
Theorem C71_single_dense : forall (A b c : seq R) (m n : nat) (row_major : bool),
  Z.le (Z.of_nat n) two32 ->
  (m * n <= size A)%N -> (n <= size b)%N -> (m <= size c)%N ->
  let A' := dense_matrix m n row_major A in
  writes_within c (fun=> 1 + 7%:R * eps_single)
    (fun=> dense_slack tiny_single tiny_extended n row_major)
    (absmx A' *m absmx (vec n b)) (A' *m vec n b)
    (RoundModel.dense_matvec single extended A b m n row_major c).
Proof.
  move=> A b c m n rm Hn HA Hb Hc. cbv zeta.
  have [H _] := C71_dense rounds_single rounds_extended 0 rm HA Hb Hc.
  apply: (writes_within_mono H) => [i _|i|i _]; last exact: dense_slack_ge0.
  - case: rm {H}; first exact: unrolled_single.
    apply: le_trans (single_growth (k := 2) Hn _) _ => //. rewrite ler_add2l ler_wpmul2r ?ler_nat //.
    exact/RleP/bpow_ge_0.
  - apply: mul_abs_ge0 => j k. by rewrite mxE.
Qed.

Theorem C71_single_csr : forall (data b c : seq R) (idx ptr : seq nat) (m n : nat),
  (forall i, (i < m)%N -> Z.le (Z.of_nat (line_length ptr i)) two32) ->
  compressed_ok m n data idx ptr -> (n <= size b)%N -> (m <= size c)%N ->
  writes_within c (fun=> 1 + 3%:R * eps_single) (line_slack tiny_single tiny_extended ptr)
    (csr_matrix m n (absarray data) idx ptr *m absmx (vec n b))
    (csr_matrix m n data idx ptr *m vec n b)
    (RoundModel.csr_matvec single extended data idx ptr b m c).
Proof.
  move=> data b c idx ptr m n Hl Hok Hb Hc.
  have [H _] := C71_csr rounds_single rounds_extended 0 Hok Hb Hc.
  apply: (writes_within_mono H) => [i Hi|i|i _]; last exact: plain_slack_ge0.
  - apply: (single_growth (k := 2)) => //. exact: Hl.
  - apply: mul_abs_ge0 => j k. rewrite mxE. apply: sumr_ge0 => q _. by rewrite nth_abs.
Qed.

Theorem C71_single_inner_product : forall (x y : seq R) (n : nat),
  Z.le (Z.of_nat n) two32 -> (n <= size x)%N -> (n <= size y)%N ->
  exists2 s, RoundModel.inner_product single extended x y n = Some s &
    within (1 + 7%:R * eps_single) (unrolled_slack tiny_single tiny_extended n)
      (\sum_(i < n) `|x`_i| * `|y`_i|) (\sum_(i < n) x`_i * y`_i) s.
Proof.
  move=> x y n Hn Hx Hy. have [s -> H] := C71_inner_product rounds_single rounds_extended Hx Hy.
  exists s => //. apply: within_mono H _ _ _; first exact: unrolled_single.
  - by apply: sumr_ge0 => i _; rewrite mulr_ge0.
  - exact: (dense_slack_ge0 n true).
Qed.

(** The 1 x (k+1) matrix (2^24 1 1 ... 1), as compressed columns and rows, and
    the vector of ones. *)
Section Drift.
Variable k : nat.
Definition drift_data : seq R := two24 :: nseq k 1%R.
Definition drift_rows : seq nat := nseq k.+1 0%N.
Definition drift_columns : seq nat := iota 0 k.+2.
Definition drift_vector : seq R := nseq k.+1 1%R.
Definition drift_matrix : 'M[R]_(1, k.+1) := csc_matrix 1 k.+1 drift_data drift_rows drift_columns.

Lemma drift_ok : compressed_ok k.+1 1 drift_data drift_rows drift_columns.
Proof.
  split; first by rewrite size_iota. move=> i q Hi.
  rewrite !nth_iota //; last by rewrite ltnS ltnW. rewrite !add0n ltnS => /andP [H1 H2].
  have -> : q = i by apply/eqP; rewrite eqn_leq H1 H2.
  by rewrite /drift_data /= !size_nseq nth_nseq Hi.
Qed.

Lemma drift_nth j : (j < k.+1)%N -> nth (0 : R) drift_data j = if j == 0%N then two24 else 1.
Proof. by case: j => [|j] //= Hj; rewrite nth_nseq -ltnS Hj. Qed.

Lemma drift_entry j : drift_matrix 0 j = if j == 0 then two24 else 1.
Proof.
  have Hj := ltn_ord j.
  rewrite mxE [nth _ _ j]nth_iota; last exact: ltnW. rewrite [nth _ _ j.+1]nth_iota; last by rewrite ltnS.
  rewrite !add0n big_mkcond big_nat1 /=. by rewrite nth_nseq Hj /= drift_nth.
Qed.

Lemma drift_product : (drift_matrix *m vec k.+1 drift_vector) 0 0 = two24 + k%:R.
Proof.
  rewrite mxE big_ord_recl drift_entry eqxx mxE /= mulr1. congr (_ + _).
  rewrite (eq_bigr (fun=> 1)); first by rewrite sumr_const card_ord.
  by move=> j _; rewrite drift_entry mxE /= nth_nseq ltn_ord mulr1.
Qed.

Lemma drift_run : RoundModel.csc_matvec single drift_data drift_rows drift_columns drift_vector 1 k.+1 [:: 0]
  = Some [:: two24].
Proof.
  rewrite /RoundModel.csc_matvec.
  have -> : RoundModel.zero_fill 1 [:: 0 : R] = Some [:: 0] by [].
  rewrite [obind _ _]/=.
  pose I j (c : seq R) := c = [:: if j == 0%N then 0 else two24 : R].
  have [c -> ->] : exists2 c, for_ 0 k.+1 1
    (fun j c => RoundModel.scatter single drift_data drift_rows drift_columns drift_vector j c) [:: 0]
      = Some c & I k.+1 c; last by [].
  apply: for1_inv => //. move=> j c /andP [_ Hj] ->.
  have R1 : rd drift_columns j = Some j.
  { by rewrite (rdE 0%N) ?size_iota ?nth_iota ?add0n //; exact: ltnW. }
  have R2 : rd drift_columns j.+1 = Some j.+1.
  { by rewrite (rdE 0%N) ?size_iota ?nth_iota ?add0n. }
  rewrite /RoundModel.scatter R1 [obind _ _]/= R2 [obind _ _]/=.
  pose I' e (c : seq R) := c = [:: if e == j then (if j == 0%N then 0 else two24) else two24 : R].
  have [c' -> ->] : exists2 c', for_ j j.+1 1 (fun q c => do k <- rd drift_rows q;
      do t <- RoundModel.term single drift_data q drift_vector j; RoundModel.accumulate single c k t)
      [:: if j == 0%N then 0 else two24 : R] = Some c' & I' j.+1 c'; last first.
  { eexists; first reflexivity. by rewrite /I (gtn_eqF (ltnSn j)). }
  apply: for1_inv => //; first by rewrite /I' eqxx.
  move=> q c' /andP [Hq1 Hq2] ->. have {Hq1 Hq2} -> : q = j by apply/eqP; rewrite eqn_leq Hq1 -ltnS Hq2.
  rewrite eqxx (rdE 0%N (_ : j < size drift_rows)%N) ?size_nseq //. rewrite nth_nseq Hj [obind _ _]/=.
  rewrite /RoundModel.term (rdE (0 : R) (_ : j < size drift_data)%N) ?size_nseq //=; last by rewrite size_nseq.
  rewrite (rdE (0 : R) (_ : j < size drift_vector)%N) ?size_nseq //.
  rewrite nth_nseq Hj drift_nth // [obind _ _]/= mulr1.
  have -> : single (if j == 0%N then two24 else 1) = if j == 0%N then two24 else 1.
  { case: ifP => _; [exact: single_two24|exact: single_one]. }
  rewrite /RoundModel.accumulate [rd _ _]/= [obind _ _]/= [wr _ _ _]/=. eexists; first reflexivity.
  rewrite /I' (gtn_eqF (ltnSn j)). case: ifP => _; first by rewrite add0r single_two24.
  by rewrite single_tie.
Qed.

End Drift.

(** C71. With compressed columns the accumulator is the output array, of type
    float.  The product of the matrix (2^24 1 ... 1) with the vector of ones is
    then 2^24, however many ones there are. *)
Theorem C71_csc_drift : forall k,
  compressed_ok k.+1 1 (drift_data k) (drift_rows k) (drift_columns k) /\
  (drift_matrix k *m vec k.+1 (drift_vector k)) 0 0 = two24 + k%:R /\
  RoundModel.csc_matvec single (drift_data k) (drift_rows k) (drift_columns k) (drift_vector k) 1 k.+1 [:: 0]
  = Some [:: two24].
Proof.
  move=> k. split; first exact: drift_ok. split; [exact: drift_product|exact: drift_run].
Qed.

(** C71 for compressed columns with a constant in place of the growth, as for
    the other formats, is false: no relative error below 1 holds for all sizes. *)
Theorem C71_csc_refuted : forall delta : R, delta < 1 ->
  ~ (forall (data b c : seq R) (idx ptr : seq nat) (m n : nat),
     compressed_ok n m data idx ptr -> (n <= size b)%N -> (m <= size c)%N ->
     exists c', [/\ RoundModel.csc_matvec single data idx ptr b m n c = Some c', size c' = size c &
       forall i : 'I_m, `|c'`_i - (csc_matrix m n data idx ptr *m vec n b) i 0|
         <= delta * (csc_matrix m n (absarray data) idx ptr *m absmx (vec n b)) i 0 + 1]).
Proof.
  move=> delta Hd H.
  have [k Hk] : exists k : nat, delta * two24 + 1 < (1 - delta) * k%:R.
  { move/RltP: Hd. toR => Hd.
    have H0 : Rlt 0 (1 - delta) by toR; lra.
    have [k Hk] := archimedes (1 - delta) (delta * two24 + 1) H0. exists k.
    apply/RltP. by rewrite RnatE. }
  have [c' [E _ Hc]] := H (drift_data k) (drift_vector k) [:: 0] (drift_rows k) (drift_columns k) 1%N k.+1
    (drift_ok k) ltac:(by rewrite size_nseq) isT.
  move: E. rewrite drift_run => - [Ec]. have := Hc 0. rewrite -Ec [nth _ _ _]/= drift_product.
  have -> : absarray (drift_data k) = drift_data k.
  { rewrite /absarray /drift_data /= map_nseq normr1. congr (_ :: _). apply: ger0_norm.
    apply/RleP. toR. rewrite /two24. lra. }
  have -> : absmx (vec k.+1 (drift_vector k)) = vec k.+1 (drift_vector k).
  { apply/matrixP => i j. rewrite !mxE nth_nseq ltn_ord. exact: normr1. }
  rewrite drift_product opprD addrA subrr add0r normrN normr_nat.
  move/RleP. move/RltP: Hk. toR. lra.
Qed.

(** The same matrix as compressed rows is within three units in the last place. *)
Example C71_example_drift_csr (k : nat) : Z.le (Z.of_nat k.+1) two32 ->
  exists2 w, RoundModel.csr_matvec single extended (drift_data k) (iota 0 k.+1) [:: 0%N; k.+1]
                (drift_vector k) 1 [:: 0] = Some [:: w] &
    `|w - (two24 + k%:R)| <= 3%:R * eps_single * (two24 + k%:R)
       + (1 + 3%:R * eps_single) * line_slack tiny_single tiny_extended [:: 0%N; k.+1] 0.
Proof.
  move=> Hk.
  have Hok : compressed_ok 1 k.+1 (drift_data k) (iota 0 k.+1) [:: 0%N; k.+1].
  { split => // i q Hi. have -> : i = 0%N by move: Hi; case: i. rewrite /= => Hq.
    by rewrite -[(0 :: iota 1 k)%N]/(iota 0 k.+1) nth_iota ?size_nseq ?size_iota. }
  have Hl i : (i < 1)%N -> Z.le (Z.of_nat (line_length [:: 0%N; k.+1] i)) two32.
  { by case: i => // _; rewrite /line_length [nth _ _ 1]/= [nth _ _ 0]/= subn0. }
  have Hsz : (k.+1 <= size (drift_vector k))%N by rewrite size_nseq.
  have [c' [E Hs Hc _]] := C71_single_csr Hl Hok Hsz (isT : (1 <= size [:: 0%R : R])%N).
  case: c' E Hs Hc => [|w [|]] // E _ /(_ 0). rewrite E [nth _ _ _]/= => Hc. exists w => //.
  move: Hc. rewrite /within.
  have -> : absarray (drift_data k) = drift_data k.
  { rewrite /absarray /drift_data /= map_nseq normr1. congr (_ :: _). apply: ger0_norm.
    apply/RleP. toR. rewrite /two24. lra. }
  have -> : absmx (vec k.+1 (drift_vector k)) = vec k.+1 (drift_vector k).
  { apply/matrixP => i j. rewrite !mxE nth_nseq ltn_ord. exact: normr1. }
  have -> : csr_matrix 1 k.+1 (drift_data k) (iota 0 k.+1) [:: 0%N; k.+1] = drift_matrix k.
  { apply/matrixP => i j. rewrite (ord1 i) drift_entry mxE [nth _ _ 1]/= [nth _ _ 0]/=.
    rewrite big_mkcond (bigD1_seq (j : nat)) ?mem_index_iota ?iota_uniq ?ltn_ord //=.
    rewrite -[(0 :: iota 1 k)%N]/(iota 0 k.+1) nth_iota ?ltn_ord // add0n eqxx.
    rewrite big1_seq ?addr0 -?[two24 :: nseq k 1]/(drift_data k) ?drift_nth // => q /andP [H1].
    rewrite mem_index_iota => Hq. by rewrite nth_iota // add0n (negbTE H1). }
  by rewrite drift_product addrAC subrr add0r.
Qed.

(** C71. Norms in single precision, whether sqrt works on floats or doubles:
    [flq] is [single] or [double]. *)
Theorem C71_single_norm : forall (uq : R) (flq : R -> R) (x : seq R) (n : nat),
  Z.le (Z.of_nat n) two32 -> (n <= size x)%N ->
  let run etaq := exists2 r, RoundModel.euclidean_norm single extended flq x n = Some r &
    `|r - length n x| <= 10%:R * eps_single * length n x
       + norm_slack eps_single eps_extended uq tiny_single tiny_extended etaq n in
  (flq = single -> uq = eps_single -> run tiny_single) /\
  (flq = double -> uq = eps_double -> run tiny_double).
Proof.
  move=> uq flq x n Hn Hx. cbv zeta.
  have He : 0 <= eps_single by apply/RleP/bpow_ge_0.
  have Hed : 0 <= eps_double by apply/RleP/bpow_ge_0.
  have Hde : eps_double <= eps_single by apply/RleP/bpow_le.
  have Hu : 0 <= 1 + eps_single := addr_ge0 ler01 He.
  have HP w : 0 <= w -> w <= eps_single ->
    norm_growth eps_single eps_extended w n - 1 <= 10%:R * eps_single.
  { move=> Hw0 Hw. rewrite ler_subl_addl.
    have Hm : Z.le (Z.of_nat (n %/ 5 + n %% 5)%N) two32.
    { apply: Z.le_trans Hn. have := divn_eq n 5. move: (n %/ 5)%N (n %% 5)%N => q r ->. lia. }
    apply: le_trans (single_growth (k := 9) Hm isT).
    rewrite /norm_growth /unrolled_growth (exprD _ 8 1) (exprD _ 6 2) expr1.
    set Pl := _ ^+ (n %/ 5 + n %% 5).
    have Hex : 0 <= eps_extended by apply/RleP/bpow_ge_0.
    have HPl : 0 <= Pl := exprn_ge0 _ (addr_ge0 ler01 Hex).
    set a6 := _ ^+ 6. set a2 := (1 + eps_single) ^+ 2. set w2 := (1 + w) ^+ 2. set a1 := 1 + eps_single.
    have -> : a6 * Pl * w2 * a1 = a6 * a1 * Pl * w2 by rewrite [LHS]mulrAC [a6 * Pl * a1]mulrAC.
    have -> : a6 * a2 * a1 * Pl = a6 * a1 * Pl * a2 by rewrite [a6 * a2 * a1]mulrAC [LHS]mulrAC.
    apply: ler_wpmul2l; first exact: mulr_ge0 (mulr_ge0 (exprn_ge0 _ Hu) Hu) HPl.
    apply: ler_expn2r; rewrite ?nnegrE; [exact: addr_ge0 ler01 Hw0|exact: Hu|by rewrite ler_add2l]. }
  split=> -> ->.
  - have [r -> H] := C71_norm rounds_single rounds_extended rounds_single Hx. exists r => //.
    apply: le_trans H _. rewrite ler_add2r. apply: ler_wpmul2r; [exact: sqrtr_ge0|exact: HP].
  - have [r -> H] := C71_norm rounds_single rounds_extended rounds_double Hx. exists r => //.
    apply: le_trans H _. rewrite ler_add2r. apply: ler_wpmul2r; [exact: sqrtr_ge0|exact: HP].
Qed.

(** C71. Without underflow the normalized vectors have length one up to 11
    units in the last place. *)
Theorem C71_single_unit_length : forall (x : seq R) (n : nat),
  Z.le (Z.of_nat n) two32 -> (n <= size x)%N -> 0 < length n x ->
  let fl := unbounded prec_single : R -> R in
  exists r x', [/\ RoundModel.normalize_vector_in_place fl (unbounded prec_extended) fl x n = Some (r, x'),
    size x' = size x, 1 - eps_single <= (1 + 10%:R * eps_single) * length n x' &
    (1 - 10%:R * eps_single) * length n x' <= 1 + eps_single].
Proof.
  move=> x n Hn Hx HL. cbv zeta.
  have R1 : rounds (unbounded prec_single : R -> R) eps_single 0.
  { split => //; first by apply/RleP/bpow_ge_0. move=> y. rewrite addr0. by apply/RleP/unbounded_error. }
  have R2 : rounds (unbounded prec_extended : R -> R) eps_extended 0.
  { split => //; first by apply/RleP/bpow_ge_0. move=> y. rewrite addr0. by apply/RleP/unbounded_error. }
  have Hm : Z.le (Z.of_nat (n %/ 5 + n %% 5)%N) two32.
  { apply: Z.le_trans Hn. have := divn_eq n 5. move: (n %/ 5)%N (n %% 5)%N => q r ->. lia. }
  set P := norm_growth eps_single eps_extended eps_single n.
  have HP : P <= 1 + 10%:R * eps_single.
  { apply: le_trans (single_growth (k := 9) Hm isT).
    rewrite /P /norm_growth /unrolled_growth (exprD _ 8 1) (exprD _ 6 2) expr1.
    set a6 := _ ^+ 6. set Pl := _ ^+ (n %/ 5 + n %% 5).
    by rewrite [X in _ <= X]mulrAC [a6 * _ * Pl]mulrAC. }
  have HP2 : 1 + 10%:R * eps_single < 2%:R.
  { apply/RltP. toR. rewrite /eps_single /=. lra. }
  have [[r [x' [E Hs [H1 H2] _]]] _] := C71_unit_length R1 R2 R1 Hx Hx (le_lt_trans HP HP2) HL.
  exists r, x'; split => //.
  - apply: le_trans H1 _. apply: ler_wpmul2r => //. exact: sqrtr_ge0.
  - apply: le_trans H2. apply: ler_wpmul2r; first exact: sqrtr_ge0.
    move/RleP: HP. rewrite -/P => HP. apply/RleP. move: HP. toR. simpl INR. lra.
Qed.

Lemma length_one (x : R) : 0 <= x -> length 1 [:: x] = x.
Proof. by move=> Hx; rewrite /length big_ord_recl big_ord0 addr0 sqrtr_sqr ger0_norm. Qed.

(** A sum of one product. *)
Lemma norm_one (fl fll flq : R -> R) (x : R) :
  RoundModel.euclidean_norm fl fll flq [:: x] 1 = Some (fl (flq (Num.sqrt (flq (fl (fll (0 + fl (x * x)))))))).
Proof. by []. Qed.

(** C71. The norm of a vector that is not zero can be zero: the squares of the
    entries underflow.  In single precision, the vector (2^-80), whose length is
    a float, has norm 0. *)
Theorem C71_norm_underflow_refuted : forall flq : R -> R, flq = single \/ flq = double ->
  single tiny_entry = tiny_entry /\ 0 < length 1 [:: tiny_entry] /\
  RoundModel.euclidean_norm single extended flq [:: tiny_entry] 1 = Some 0.
Proof.
  move=> flq Hq. split; first exact: tiny_single_float.
  have H0 : 0 <= tiny_entry by apply/RleP; left; exact: tiny_entry_pos.
  split; first by rewrite length_one //; apply/RltP/tiny_entry_pos.
  have Z : flq 0 = 0 by case: Hq => ->; exact: ieee_0.
  have S0 : single 0 = 0 by exact: ieee_0.
  have E0 : extended 0 = 0 by exact: ieee_0.
  rewrite norm_one -[_ * _]/(Rmult _ _) single_tiny addr0.
  by rewrite E0 S0 Z sqrtr0 Z S0.
Qed.

(** C71. Where sqrt is the square root of doubles, the norm of a long double
    vector is not accurate to long double precision: for the vector (1 + 2^-60)
    the norm is 1, off by more than eight units in the last place. *)
Theorem C71_norm_long_double_refuted :
  extended almost_one = almost_one /\
  RoundModel.euclidean_norm extended extended double [:: almost_one] 1 = Some 1 /\
  8%:R * eps_extended * length 1 [:: almost_one] < `|1 - length 1 [:: almost_one]|.
Proof.
  split; first exact: almost_one_float. have [H1 H2] := almost_one_far.
  have H0 : 0 <= almost_one by apply/RleP; toR; lra.
  split.
  - rewrite norm_one -[_ * _]/(Rmult _ _) extended_square add0r !extended_sum double_square.
    by rewrite -[IZR 1]/(1 : R) sqrtr1 double_one extended_one.
  - rewrite length_one // ler0_norm; last by apply/RleP; toR; lra.
    apply/RltP. toR. simpl INR. lra.
Qed.

(** Non-vacuity: single precision numbers and sizes that meet the hypotheses. *)
Example C71_example_single :
  Z.le (Z.of_nat 3) two32 /\ compressed_ok 1 3 [:: two24; 1; 1] [:: 0; 1; 2]%N [:: 0; 3]%N /\
  single (two24 + 1) <> two24 + 1.
Proof.
  split; first by rewrite /two32; lia. split.
  - split => // i q. case: i => // _ /=. by case: q => [|[|[|]]].
  - rewrite single_tie => E. have := Rlt_plus_1 two24. rewrite -[Rplus _ _]E. exact: Rlt_irrefl.
Qed.

Definition C71_ieee_assumptions := (@C71_ieee, @C71_ieee_integers, @C71_single_dense, @C71_single_csr,
  @C71_single_inner_product, @C71_csc_drift, @C71_csc_refuted, @C71_single_norm,
  @C71_single_unit_length, @C71_norm_underflow_refuted, @C71_norm_long_double_refuted).
Print Assumptions C71_ieee_assumptions.
