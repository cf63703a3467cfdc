(** Which entries a sparse correlation matrix keeps, and when it is returned: C90. *)
Require Import Reals Lra.
From mathcomp Require Import all_ssreflect all_algebra.
From mathcomp Require Import zify.
From Verif Require Import RealField SparseCorrModel PropSparseCorr GridModel PropGrid.
From Verif Require CorrKernelModel PropCorrKernel DensityModel DensitySpec PropBall.
Import CorrKernelModel PropCorrKernel DensityModel DensitySpec PropBall.
Set Implicit Arguments.
Unset Strict Implicit.
Unset Printing Implicit Defensive.
Import GRing.Theory Num.Theory.

(** ** Every call that does not raise returns *)
Section Returns.
Variable F : numDomainType.
Variables (K : nat -> nat -> F) (threshold : F) (n threads : nat).

(** The arrays of attempt j hold 2^j max_nnz entries; an attempt with n^2 or more
    does not fail, so that there are finitely many. *)
Theorem C90_retries max_nnz j s : reachable K threshold n threads (2 ^ j * max_nnz) s -> ~~ success s ->
  2 ^ j * max_nnz < n * n.
Proof.
move=> H S. apply: leq_trans (C44_fails_only_when_full H S) _.
by rewrite /num_entries (leq_trans (count_size _ _)) // -cardE card_prod !card_ord.
Qed.

(** From every state of an attempt the attempt can be completed, and then the
    function returns, or goes on with an attempt for which the same holds. *)
Theorem C90_returns max_nnz : 0 < threads -> 0 < max_nnz -> exists M, generates K threshold n threads max_nnz M.
Proof.
move=> Ht. move: {2}(n * n - max_nnz) (leqnn (n * n - max_nnz)) => k. elim: k max_nnz => [|k IH] m Hk Hm.
all: have [s Hs Fs] := @C44_completes F K threshold n threads m (init F n) (steps_refl _ _ _ _ _ _) Ht.
all: case S: (success s); first by exists (result m s); apply: gen_success.
all: have H := @C90_retries m 0 s; rewrite expn0 mul1n S in H; have {}H := H Hs isT.
- lia.
- have [|//|M HM] := IH (2 * m); [lia|lia|]. exists M. apply: gen_retry Hs Fs _ HM. by rewrite S.
Qed.
End Returns.

(** ** The line *)
Lemma near_count n i t : count (fun j : 'I_n => i - t <= j <= i + t) (enum 'I_n) <= (2 * t).+1.
Proof.
rewrite -(count_map val (fun j => i - t <= j <= i + t)) val_enum_ord -size_filter -[X in _ <= X](size_iota (i - t)).
apply: uniq_leq_size; first by rewrite filter_uniq ?iota_uniq.
move=> j. rewrite mem_filter !mem_iota. lia.
Qed.

Lemma near_pairs n t (P : nat -> nat -> bool) : (forall i j, P i j -> i - t <= j <= i + t) ->
  count (fun p : 'I_n * 'I_n => P p.1 p.2) (enum {: 'I_n * 'I_n}) <= n * (2 * t).+1.
Proof.
move=> HP. rewrite -sum1_count big_enum_cond /=.
rewrite -(pair_big_dep xpredT (fun i j : 'I_n => P i j) (fun _ _ => 1)) /=.
have -> : n * (2 * t).+1 = \sum_(i < n) (2 * t).+1 by rewrite sum_nat_const card_ord.
apply: leq_sum => i _. apply: leq_trans (near_count n i t).
rewrite sum1_card cardE -size_filter.
apply: uniq_leq_size; first exact: enum_uniq.
move=> j. rewrite mem_enum mem_filter mem_enum andbT => H. exact: HP.
Qed.

Lemma steps_below (a : R) : Rle (IZR 1) a -> exists t : nat, Rlt (2 * INR t) a /\ Rle a (2 * INR t + 2).
Proof.
move=> Ha. have H1 := ceil_ge (a / 2). have H2 := ceil_lt (a / 2). set c := ceil _ in H1 H2.
have Hc : Z.le 1 c. { have : Z.lt 0 c by apply: lt_IZR; lra. lia. }
exists (Z.to_nat (Z.sub c 1)). rewrite INR_IZR_INZ Z2Nat.id; last lia. rewrite minus_IZR. lra.
Qed.

Lemma minn_lt n (i j : 'I_n) : minn i j < n. Proof. by rewrite gtn_min ltn_ord. Qed.
Lemma maxn_lt n (i j : 'I_n) : maxn i j < n. Proof. by rewrite gtn_max !ltn_ord. Qed.

Section Line.
Variable bessel : R -> R -> option R.
Variables (k : kernel) (p : param) (f : R -> R).
Hypothesis Hk : closed_form k p f.
Variables (n threads : nat) (density scale threshold : R) (K : nat -> nat -> R) (coords : nat -> nat -> R).
Hypothesis Hscale : Rlt 0 scale.
Hypothesis Hdensity : Rlt density 1.
(** The points are those of the grid. *)
Hypothesis Hcoords : 1 < n -> generate_points R_realFieldType n 1 = [seq [:: Some (coords i 0)] | i <- iota 0 n].
Hypothesis HK : forall i j, i < n -> j < n ->
  kernel_function bessel k (euclidean_distance (coords i) (coords j) scale 1) p = Some (K i j).
Hypothesis Hthreshold : estimate_kernel_threshold bessel n 1 density scale k p = Estimate (Some threshold).
Notation max_nnz := (Z.to_nat (estimate_max_nnz n 1 density)).
Notation near i j := (Rlt_dec (Rabs (INR i - INR j)) (density * INR n / 2)).

Lemma line_size : Rle 1 (density * INR n) /\ 1 < n.
Proof.
move: Hthreshold. rewrite /estimate_kernel_threshold /kernel_radius. case: Rlt_dec => // H _.
split; first by lra. case: (n) H => [|[|m]] //= H; lra.
Qed.

Lemma line_coord i : i < n -> coords i 0 = Rdiv (INR i) (INR n - 1).
Proof.
move=> Hi. have [_ Hn] := line_size. have := C43_points R_realFieldType Hn 1. rewrite (Hcoords Hn) expn1 /= => E.
have := congr1 (fun s => nth [::] s i) E. rewrite !(nth_map 0) ?size_iota // !nth_iota // add0n => -[->].
rewrite /digit expn0 divn1 modn_small //. rewrite RdivE; last by rewrite pnatr_eq0; lia.
rewrite !RnatE. congr Rdiv. rewrite -subn1 minus_INR //. lia.
Qed.

Lemma line_above i j : i < n -> j < n -> (threshold < K i j)%R = near i j :> bool.
Proof.
move=> Hi Hj. have [Ha Hn] := line_size. have Hn1 : Rlt 1 (INR n) by apply: (lt_INR 1); lia.
have E1n : Nat.pow n 1 = n by exact: Nat.pow_1_r.
have Hg := C90_grid n 1 density. rewrite E1n in Hg.
have [R0 [P [V E]]] := Hg (elimT ssrnat.ltP Hn) (le_n 1) Hdensity Ha. simpl in V.
have Hr : Rle 0 (R0 * (1 / (INR n - 1))). { have : Rlt 0 (/ (INR n - 1)) by apply: Rinv_0_lt_compat; lra. move=> ?; nra. }
have [th [v [E1 [E2 H]]]] := C90_kept bessel n 1 density scale k p f (coords i) (coords j) _ Hk Hscale Hr E.
move: E1 E2. rewrite Hthreshold HK // => -[E1] [E2]. rewrite -{}E1 -{}E2 in H.
have Hinv : Rlt 0 (/ (INR n - 1)) by apply: Rinv_0_lt_compat; lra.
have Ee : euclid 1 (coords i) (coords j) = Rmult (Rabs (INR i - INR j)) (/ (INR n - 1)).
{ rewrite /euclid /= !line_coord //.
  have -> : Rminus (INR i / (INR n - 1)) (INR j / (INR n - 1)) = Rmult (INR i - INR j) (/ (INR n - 1)) by rewrite /Rdiv; ring.
  rewrite -/(Rsqr _) sqrt_Rsqr_abs Rabs_mult (Rabs_pos_eq (/ _)) //. lra. }
have ER : R0 = Rdiv (density * INR n) 2 by lra.
apply/RltP/idP => [/H|].
- case: Rlt_dec => // G. rewrite Ee => G'. case: G. rewrite -ER. apply: (Rmult_lt_reg_r (/ (INR n - 1))) => //. lra.
- case: Rlt_dec => // G _. apply/H. rewrite Ee. rewrite -ER in G. 
  have := Rmult_lt_compat_r _ _ _ Hinv G. lra.
Qed.

(** C90: with dimension=1 and grid=True the first arrays have room for all entries. *)
Theorem C90_line_room : num_entries K threshold n <= max_nnz.
Proof.
have [Ha Hn] := line_size. have [t [Ht1 Ht2]] := steps_below Ha.
have Hle : num_entries K threshold n <= n * (2 * t).+1.
{ rewrite /num_entries.
  rewrite (@eq_in_count _ _ (fun q : 'I_n * 'I_n => near (minn q.1 q.2) (maxn q.1 q.2) : bool)); last first.
  { move=> [i j] _ /=. apply: line_above; [exact: minn_lt|exact: maxn_lt]. }
  apply: (@near_pairs n t (fun i j => near (minn i j) (maxn i j))) => i j. case: Rlt_dec => // G _.
  have : Rlt (INR (maxn i j) - INR (minn i j)) (INR t + 1).
  { have := Rle_abs (- (INR (minn i j) - INR (maxn i j))). rewrite Rabs_Ropp. lra. }
  rewrite -minus_INR; last lia. rewrite -S_INR => /INR_lt. lia. }
apply: leq_trans Hle _. apply/ssrnat.leP/INR_le. have Hr := room_line n density Ha.
have Hz : Z.le 0 (estimate_max_nnz n 1 density).
{ have [R0 [_ [_ [_ H]]]] := C90_room n 1 density (le_n 1) Ha. lia. }
rewrite [X in Rle _ X]INR_IZR_INZ Z2Nat.id //. apply: Rle_trans Hr.
rewrite mult_INR S_INR mult_INR. have Hn1 : Rlt 1 (INR n) by apply: (lt_INR 1); lia.
change (INR 2) with (Rplus 1 1). simpl. nra.
Qed.

(** C90, C44: so in every schedule no entry is written outside the arrays, and the
    matrix has the correlations of the points with fewer than density n / 2 steps
    between them and is zero elsewhere. *)
Theorem C90_line :
  (forall s, reachable K threshold n threads max_nnz s -> success s /\ size (buf s) <= max_nnz) /\
  (forall M, generates K threshold n threads max_nnz M -> forall i j, i < n -> j < n ->
    M i j = if near i j then K (minn i j) (maxn i j) else 0%R).
Proof.
have Hm := C90_line_room. split=> [s|M HM i j Hi Hj]; first exact: C44_enough.
have [-> _] := C44_generates Hm HM Hi Hj. rewrite /tapered line_above; [|lia|lia].
have E : Rabs (INR (minn i j) - INR (maxn i j)) = Rabs (INR i - INR j).
{ case: (leqP i j) => H //. by rewrite Rabs_minus_sym. }
by rewrite E.
Qed.
End Line.

Definition C90_assumptions := (@C90_retries, @C90_returns, @C90_line_room, @C90_line).
Print Assumptions C90_assumptions.

(** The hypotheses are met by ten points on the line, density 0.5 and two threads:
    the matrix is returned, points 3 and 5 are correlated, 0 and 3 are not. *)
Example C90_case (bessel : R -> R -> option R) : exists K threshold M,
  [/\ estimate_kernel_threshold bessel 10 1 (1 / 2) (1 / 10) Exponential NaN = Estimate (Some threshold),
      generates K threshold 10 2 (Z.to_nat (estimate_max_nnz 10 1 (1 / 2))) M,
      M 3 5 = exp (- (2 / 9 * 10)) & M 0 3 = IZR 0].
Proof.
pose coords (i j : nat) := Rdiv (INR i) (INR 10 - 1).
pose K (i j : nat) := exponential_spec (euclid 1 (coords i) (coords j) / (1 / 10)).
have Hk := cf_exponential NaN.
have H10 : INR 10 = IZR 10 by rewrite INR_IZR_INZ.
have HK : forall i j, i < 10 -> j < 10 ->
  kernel_function bessel Exponential (euclidean_distance (coords i) (coords j) (1 / 10) 1) NaN = Some (K i j).
{ move=> i j _ _. by rewrite (C45_kernel bessel _ _ _ Hk) distance_euclid. }
have Hs : Rlt 0 (1 / 10) by lra. have Hd : Rlt (1 / 2) 1 by lra.
have Hc : 1 < 10 -> generate_points R_realFieldType 10 1 = [seq [:: Some (coords i 0)] | i <- iota 0 10].
{ move=> Hn. rewrite (C43_points R_realFieldType Hn 1) expn1. apply/eq_in_map => i. rewrite mem_iota => /andP [_ Hi].
  rewrite /= /digit expn0 divn1 modn_small // RdivE; last by rewrite pnatr_eq0.
  rewrite /coords !RnatE. congr [:: Some (Rdiv _ _)]. rewrite H10 INR_IZR_INZ /=. lra. }
have [_ HR] := C90_raises 10 1 (1 / 2) (le_n 1) Hd.
have [|R0 [P [_ [A E]]]] := HR; first by rewrite H10; lra.
have Hr : Rle 0 (R0 / (Rpower (INR 10) (1 / INR 1) - 1)).
{ have : Rlt 0 (/ (Rpower (INR 10) (1 / INR 1) - 1)) by apply: Rinv_0_lt_compat; lra. move=> ?; rewrite /Rdiv; nra. }
have [th [v [E1 _]]] := C90_kept bessel 10 1 (1 / 2) (1 / 10) _ _ _ (coords 0) (coords 0) _ Hk Hs Hr E.
have Hz : 0 < Z.to_nat (estimate_max_nnz 10 1 (1 / 2)).
{ have [|R1 [_ [_ [_ Hz]]]] := C90_room 10 1 (1 / 2) (le_n 1); first by rewrite H10; lra. lia. }
have [M HM] := @C90_returns _ K th 10 2 _ isT Hz.
exists K, th, M. split=> //.
- have [_ ->] := @C90_line bessel _ _ _ Hk 10 2 _ _ th K coords Hs Hd Hc HK E1; last 3 first; [exact: HM| by []|by []|].
  rewrite H10 !INR_IZR_INZ /=. case: Rlt_dec => H /=; last by exfalso; apply: H; rewrite Rabs_left; lra.
  have Ee : euclid 1 (coords 3) (coords 5) = Rdiv 2 9.
  { rewrite /euclid. cbv [sum_f_R0]. rewrite -/(Rsqr _) sqrt_Rsqr_abs /coords H10 !INR_IZR_INZ /= Rabs_left; lra. }
  rewrite (_ : minn 3 5 = 3) // (_ : maxn 3 5 = 5) // /K /exponential_spec Ee. congr exp. lra.
- have [_ ->] := @C90_line bessel _ _ _ Hk 10 2 _ _ th K coords Hs Hd Hc HK E1; last 3 first; [exact: HM| by []|by []|].
  rewrite H10 !INR_IZR_INZ /=. case: Rlt_dec => H //=. exfalso. move: H. rewrite Rabs_left; lra.
Qed.
