(** Proofs about the rounding of the kernels. *)
From mathcomp Require Import all_ssreflect all_algebra zify.
From Verif Require Import Mem KernelModel KernelSpec KernelProofs RoundSpec RoundModel.
Set Implicit Arguments.
Unset Strict Implicit.
Unset Printing Implicit Defensive.
Import GRing.Theory Num.Theory Order.TTheory.
Local Open Scope ring_scope.

Section Near.
Variable F : realFieldType.
Implicit Types (u eta P Q h s v w : F).

(** Bookkeeping: [within] together with the facts that make it compose. *)
Definition near P h s v w : Prop :=
  [/\ 1 <= P, 0 <= h, `|v| <= s & within P h s v w].

Lemma near_within P h s v w : near P h s v w -> within P h s v w.
Proof. by case. Qed.

Lemma near_refl v : near 1 0 `|v| v v.
Proof. split => //. by rewrite /within subrr normr0 subrr mul0r mulr0 addr0. Qed.

Lemma near_abs P h s v w : near P h s v w -> `|w| <= P * s + P * h.
Proof.
  case=> HP Hh Hs Hw. have : `|w| <= `|w - v| + `|v| by rewrite -{1}(subrK v w) ler_norm_add.
  move/le_trans; apply. apply: le_trans (ler_add Hw Hs) _.
  by rewrite mulrBl mul1r addrAC subrK.
Qed.

Lemma near_mono P Q h h' s v w : near P h s v w -> P <= Q -> h <= h' -> near Q h' s v w.
Proof.
  case=> HP Hh Hs Hw HPQ Hhh. have Hs0 : 0 <= s by apply: le_trans Hs.
  split => //; [exact: le_trans HPQ|exact: le_trans Hhh|].
  apply: le_trans Hw _. apply: ler_add.
  - by rewrite ler_wpmul2r // ler_add2r.
  - apply: ler_pmul => //. exact: le_trans HP.
Qed.

Lemma near_add P h1 h2 s1 s2 v1 v2 w1 w2 :
  near P h1 s1 v1 w1 -> near P h2 s2 v2 w2 ->
  near P (h1 + h2) (s1 + s2) (v1 + v2) (w1 + w2).
Proof.
  case=> HP Hh1 Hs1 Hw1 [_ Hh2 Hs2 Hw2]. split => //; first exact: addr_ge0.
  - apply: le_trans (ler_norm_add _ _) _. exact: ler_add.
  - rewrite /within opprD addrACA. apply: le_trans (ler_norm_add _ _) _.
    apply: le_trans (ler_add Hw1 Hw2) _. by rewrite !mulrDr addrACA.
Qed.

Lemma near_opp P h s v w : near P h s v w -> near P h s (- v) (- w).
Proof.
  case=> HP Hh Hs Hw. split => //; first by rewrite normrN.
  by rewrite /within -opprD normrN.
Qed.

Lemma near_scale P h s v w a : near P h s v w -> near P (`|a| * h) (`|a| * s) (a * v) (a * w).
Proof.
  case=> HP Hh Hs Hw. split => //; first exact: mulr_ge0.
  - by rewrite normrM ler_wpmul2l.
  - rewrite /within -mulrBr normrM [(P - 1) * _]mulrCA [P * _]mulrCA -mulrDr.
    by rewrite ler_wpmul2l.
Qed.

Lemma near_round fl u eta P h s v w : rounds fl u eta -> near P h s v w ->
  near (P * (1 + u)) (h + eta) s v (fl w).
Proof.
  case=> Hu He Hfl H. have Hw := near_abs H. case: H => HP Hh Hs Hwv.
  have HP0 : 0 <= P by apply: le_trans HP.
  have H1u : 1 <= 1 + u by rewrite ler_addl.
  split => //.
  - exact: mulr_ege1.
  - exact: addr_ge0.
  - rewrite /within. have -> : fl w - v = (fl w - w) + (w - v) by rewrite addrA subrK.
    apply: le_trans (ler_norm_add _ _) _.
    apply: le_trans (ler_add (Hfl w) Hwv) _.
    have H2 : u * `|w| <= u * (P * s + P * h) by rewrite ler_wpmul2l.
    apply: le_trans (_ : u * (P * s + P * h) + eta + ((P - 1) * s + P * h) <= _).
    { by rewrite ler_add2r ler_add2r. }
    have H3 : eta <= P * (1 + u) * eta.
    { rewrite -{1}[eta]mul1r. apply: ler_wpmul2r => //. exact: mulr_ege1. }
    apply: le_trans (_ : u * (P * s + P * h) + P * (1 + u) * eta + ((P - 1) * s + P * h) <= _).
    { by rewrite ler_add2r ler_add2l. }
    rewrite le_eqVlt; apply/orP; left; apply/eqP.
    have -> : P * (1 + u) = P + u * P by rewrite mulrDr mulr1 mulrC.
    rewrite mulrDr !mulrA [RHS]addrC. set X := u * P.
    rewrite [(P + X - 1) * s]mulrBl [(P - 1) * s]mulrBl [(P + X) * s]mulrDl mul1r.
    rewrite mulrDr [(P + X) * h]mulrDl.
    move: (X * s) (X * h) ((P + X) * eta) (P * s) (P * h) => a1 a2 a3 a4 a5.
    by rewrite [LHS](AC (3*3)%AC (((6*2)*3)*((4*1)*5))%AC).
Qed.


(** Starting from exact operands. *)
Lemma near_fl fl u eta v : rounds fl u eta -> near (1 + u) eta `|v| v (fl v).
Proof.
  move=> H. have := near_round H (near_refl v). by rewrite mul1r add0r.
Qed.

Lemma ge1 u k : 0 <= u -> 1 <= (1 + u) ^+ k.
Proof. move=> Hu. by rewrite exprn_ege1 // ler_addl. Qed.

Lemma pow_mono u k l : 0 <= u -> (k <= l)%N -> (1 + u) ^+ k <= (1 + u) ^+ l.
Proof. move=> Hu Hkl. apply: ler_weexpn2l => //. by rewrite ler_addl. Qed.

End Near.

Section Sums.
Variable F : rcfType.
Variables fl fll : F -> F.
Variables u eta ul etal : F.
Hypothesis Hfl : rounds fl u eta.
Hypothesis Hfll : rounds fll ul etal.
Implicit Types (A b c data : seq F) (idx ptr : seq nat).

Let Hu : 0 <= u. Proof. by case: Hfl. Qed.
Let He : 0 <= eta. Proof. by case: Hfl. Qed.
Let Hul : 0 <= ul. Proof. by case: Hfll. Qed.
Let Hel : 0 <= etal. Proof. by case: Hfll. Qed.

Lemma growth_ge1 k l : 1 <= (1 + u) ^+ k * (1 + ul) ^+ l.
Proof. apply: mulr_ege1; exact: ge1. Qed.

Lemma growth_mono k k' l l' : (k <= k')%N -> (l <= l')%N ->
  (1 + u) ^+ k * (1 + ul) ^+ l <= (1 + u) ^+ k' * (1 + ul) ^+ l'.
Proof.
  move=> Hk Hl. apply: ler_pmul; first exact: le_trans (ge1 _ _).
  - exact: le_trans (ge1 _ _).
  - exact: pow_mono.
  - exact: pow_mono.
Qed.

Lemma term_near A ia b ib : (ia < size A)%N -> (ib < size b)%N ->
  exists2 t, RoundModel.term fl A ia b ib = Some t &
    near (1 + u) eta (`|A`_ia| * `|b`_ib|) (A`_ia * b`_ib) t.
Proof.
  move=> HA Hb. rewrite /RoundModel.term (rdE 0 HA) /= (rdE 0 Hb) /=.
  eexists; first reflexivity. rewrite -normrM. exact: near_fl.
Qed.

(** One addition in DataType of a term. *)
Lemma add_near k h s v w s' v' w' :
  near ((1 + u) ^+ k.+1) h s v w -> near (1 + u) eta s' v' w' ->
  near ((1 + u) ^+ k.+2) (h + eta + eta) (s + s') (v + v') (fl (w + w')).
Proof.
  move=> H1 H2. rewrite [_ ^+ k.+2]exprSr. apply: near_round => //. apply: near_add => //.
  apply: near_mono H2 _ _ => //. rewrite -{1}[1 + u]expr1. exact: pow_mono.
Qed.

(** Sum of the products, and of their absolute values. *)
Definition psum A b (ia ib : nat -> nat) lo hi : F :=
  \sum_(lo <= j < hi) A`_(ia j) * b`_(ib j).
Definition pabs A b (ia ib : nat -> nat) lo hi : F :=
  \sum_(lo <= j < hi) `|A`_(ia j)| * `|b`_(ib j)|.

(** One pass of the unrolled loop. *)
Lemma five_near A b (ia : nat -> nat) (ia5 : nat -> nat -> nat) n k j h sum :
  (n <= size b)%N -> (forall j, (j < n)%N -> (ia j < size A)%N) ->
  (forall j k, ia5 j k = ia (j + k)%N) -> (k + 5 <= n)%N ->
  near ((1 + u) ^+ 5 * (1 + ul) ^+ j) h (pabs A b ia id 0 k) (psum A b ia id 0 k) sum ->
  exists2 sum', RoundModel.five fl fll A (ia5 k) b k sum = Some sum' &
    near ((1 + u) ^+ 5 * (1 + ul) ^+ j.+1) (h + 9%:R * eta + etal)
      (pabs A b ia id 0 (k + 5)) (psum A b ia id 0 (k + 5)) sum'.
Proof.
  move=> Hb HA Hia Hkn Hsum.
  have H d : (d < 5)%N -> exists2 t, RoundModel.term fl A (ia5 k d) b (k + d)%N = Some t &
      near (1 + u) eta (`|A`_(ia (k + d)%N)| * `|b`_(k + d)|) (A`_(ia (k + d)%N) * b`_(k + d)) t.
  { move=> Hd. have Hlt : (k + d < n)%N by apply: leq_trans Hkn; rewrite ltn_add2l.
    rewrite Hia. apply: term_near; [exact: HA|exact: leq_trans Hlt Hb]. }
  rewrite /RoundModel.five.
  have [t0 E0 N0] := H 0%N isT. have [t1 E1 N1] := H 1%N isT. have [t2 E2 N2] := H 2%N isT.
  have [t3 E3 N3] := H 3%N isT. have [t4 E4 N4] := H 4%N isT.
  move: E0. rewrite addn0 => ->. rewrite /= E1 /= E2 /= E3 /= E4 /=.
  eexists; first reflexivity.
  have {N1} := add_near (k := 0) (N0 : near ((1 + u) ^+ 1) _ _ _ _) N1.
  move=> /add_near /(_ N2) /add_near /(_ N3) /add_near /(_ N4) N.
  have E9 : eta + eta + eta + eta + eta + eta + eta + eta + eta = 9%:R * eta.
  { by rewrite mulr_natl !mulrS addr0 !addrA. }
  rewrite E9 in N.
  rewrite [(1 + ul) ^+ j.+1]exprSr mulrA.
  have HG : (1 + u) ^+ 5 <= (1 + u) ^+ 5 * (1 + ul) ^+ j.
  { rewrite -{1}[(1 + u) ^+ 5]mulr1 ler_wpmul2l ?ge1 //. exact: le_trans (ge1 _ _). }
  have := near_round Hfll (near_add Hsum (near_mono N HG (lexx _))).
  rewrite /pabs /psum !addnS !addn0 !big_nat_recr //= !addrA. by [].
Qed.

(** One iteration of a loop with one product. *)
Lemma add_term_near k A b (ia ib : nat -> nat) lo j l h sum : (lo <= j)%N ->
  (ia j < size A)%N -> (ib j < size b)%N ->
  near ((1 + u) ^+ k.+1 * (1 + ul) ^+ l) h (pabs A b ia ib lo j) (psum A b ia ib lo j) sum ->
  exists2 sum', RoundModel.add_term fl fll A (ia j) b (ib j) sum = Some sum' &
    near ((1 + u) ^+ k.+1 * (1 + ul) ^+ l.+1) (h + eta + etal)
      (pabs A b ia ib lo j.+1) (psum A b ia ib lo j.+1) sum'.
Proof.
  move=> Hlo HA Hb Hsum. rewrite /RoundModel.add_term.
  have [t -> N] := term_near HA Hb. rewrite /=. eexists; first reflexivity.
  rewrite [(1 + ul) ^+ l.+1]exprSr mulrA /pabs /psum !big_nat_recr //=.
  apply: near_round => //. apply: near_add => //. apply: near_mono N _ _ => //.
  rewrite -[X in X <= _]mulr1 -{1}[1 + u]expr1 -(expr0 (1 + ul)). exact: growth_mono.
Qed.

Lemma plain_near A b (ia ib : nat -> nat) lo hi :
  (forall j, (lo <= j < hi)%N -> (ia j < size A)%N) ->
  (forall j, (lo <= j < hi)%N -> (ib j < size b)%N) ->
  exists2 sum, for_ lo hi 1 (fun j sum => RoundModel.add_term fl fll A (ia j) b (ib j) sum) 0
    = Some sum &
    near ((1 + u) * (1 + ul) ^+ (hi - lo)) ((hi - lo)%:R * eta + (hi - lo)%:R * etal)
      (pabs A b ia ib lo hi) (psum A b ia ib lo hi) sum.
Proof.
  move=> HA Hb.
  have H0 : near (1 + u) 0 0 0 0.
  { apply: near_mono (_ : near 1 0 0 0 0) _ _ => //; last by rewrite ler_addl.
    by have := near_refl (0 : F); rewrite normr0. }
  case: (leqP hi lo) => Hle.
  { rewrite for_empty //. exists 0 => //. rewrite /pabs /psum !big_geq //.
    move: (Hle). rewrite -subn_eq0 => /eqP ->. by rewrite expr0 mulr1 !mul0r addr0. }
  pose I k (s : F) := near ((1 + u) ^+ 1 * (1 + ul) ^+ (k - lo))
    ((k - lo)%:R * eta + (k - lo)%:R * etal) (pabs A b ia ib lo k) (psum A b ia ib lo k) s.
  apply: (@for1_inv _ I); first exact: ltnW.
  - rewrite /I subnn /pabs /psum !big_geq // expr0 mulr1 !mul0r addr0. exact: H0.
  - move=> k s Hk HI. have [Hk1 _] := andP Hk.
    have [s' E N] := add_term_near Hk1 (HA _ Hk) (Hb _ Hk) HI.
    exists s' => //. rewrite /I subSn //. apply: near_mono N _ _ => //.
    by rewrite !mulrS !mulrDl !mul1r le_eqVlt (AC (2*1*1)%AC ((3*1)*(4*2))%AC) eqxx.
Qed.

Lemma unrolled_near A b (ia : nat -> nat) (ia5 : nat -> nat -> nat) n :
  (n <= size b)%N -> (forall j, (j < n)%N -> (ia j < size A)%N) ->
  (forall j k, ia5 j k = ia (j + k)%N) ->
  let chunked := (n - n %% 5)%N in
  exists2 sum,
    (do sum <- for_ 0 chunked 5 (fun j sum => RoundModel.five fl fll A (ia5 j) b j sum) 0;
     for_ chunked n 1 (fun j sum => RoundModel.add_term fl fll A (ia j) b j sum) sum)
    = Some sum &
    near ((1 + u) ^+ 5 * (1 + ul) ^+ (n %/ 5 + n %% 5))
      ((n + 4 * (n %/ 5))%:R * eta + (n %/ 5 + n %% 5)%:R * etal)
      (pabs A b ia id 0 n) (psum A b ia id 0 n) sum.
Proof.
  move=> Hb HA Hia chunked.
  have Ec : chunked = (n %/ 5 * 5)%N by rewrite /chunked {1}(divn_eq n 5) addnK.
  have Hc : (chunked <= n)%N by apply: leq_subr.
  have Hd : (5 %| chunked - 0)%N by rewrite subn0 Ec dvdn_mull.
  pose I k (s : F) := near ((1 + u) ^+ 5 * (1 + ul) ^+ (k %/ 5))
    ((k %/ 5 * 9)%:R * eta + (k %/ 5)%:R * etal) (pabs A b ia id 0 k) (psum A b ia id 0 k) s.
  have [s -> Hs] : exists2 s,
      for_ 0 chunked 5 (fun j sum => RoundModel.five fl fll A (ia5 j) b j sum) 0 = Some s
      & I chunked s.
  { apply: for_inv => //.
    - rewrite /I /pabs /psum !big_geq // div0n mul0n expr0 mulr1 !mul0r addr0.
      apply: near_mono (_ : near 1 0 0 0 0) _ _ => //; last exact: ge1.
      by have := near_refl (0 : F); rewrite normr0.
    - move=> k s _ Hk HI.
      have Hkn : (k + 5 <= n)%N by apply: leq_trans Hc.
      have [s' E N] := five_near Hb HA Hia Hkn HI.
      exists s' => //. rewrite /I.
      have -> : ((k + 5) %/ 5 = (k %/ 5).+1)%N by rewrite divnDr // divnn /= addn1.
      apply: near_mono N _ _ => //. rewrite mulSn natrD [(k %/ 5).+1%:R]mulrS !mulrDl !mul1r.
      by rewrite le_eqVlt (AC (2*1*1)%AC ((3*1)*(4*2))%AC) eqxx. }
  rewrite /=.
  pose J k (s : F) := near ((1 + u) ^+ 5 * (1 + ul) ^+ (n %/ 5 + (k - chunked)))
    ((n %/ 5 * 9 + (k - chunked))%:R * eta + (n %/ 5 + (k - chunked))%:R * etal)
    (pabs A b ia id 0 k) (psum A b ia id 0 k) s.
  have [s' -> Hs'] : exists2 s',
      for_ chunked n 1 (fun j sum => RoundModel.add_term fl fll A (ia j) b j sum) s = Some s'
      & J n s'.
  { apply: for1_inv => //.
    - move: Hs. by rewrite /I /J subnn !addn0 {1 2 3}Ec mulnK.
    - move=> k s1 /andP [Hk1 Hk2] HJ.
      have [s2 E N] := add_term_near (ib := id) (leq0n k) (HA _ Hk2) (leq_trans Hk2 Hb) HJ.
      exists s2 => //. rewrite /J subSn // !addnS. apply: near_mono N _ _ => //.
      by rewrite !mulrS !mulrDl !mul1r le_eqVlt (AC (2*1*1)%AC ((3*1)*(4*2))%AC) eqxx. }
  exists s' => //. move: Hs'. rewrite /J.
  have -> : (n - chunked = n %% 5)%N by rewrite Ec {1}(divn_eq n 5) addKn.
  have -> // : (n %/ 5 * 9 + n %% 5 = n + 4 * (n %/ 5))%N by have := divn_eq n 5; lia.
Qed.

End Sums.


Section Kernels.
Variable F : rcfType.
Variables fl fll : F -> F.
Variables u eta ul etal : F.
Hypothesis Hfl : rounds fl u eta.
Hypothesis Hfll : rounds fll ul etal.
Implicit Types (A b c data : seq F) (idx ptr : seq nat).

Let Hu : 0 <= u. Proof. by case: Hfl. Qed.
Let He : 0 <= eta. Proof. by case: Hfl. Qed.
Let Hul : 0 <= ul. Proof. by case: Hfll. Qed.
Let Hel : 0 <= etal. Proof. by case: Hfll. Qed.

Lemma update_loop_near (f : nat -> option F) (upd : F -> F -> F) n c (P h : nat -> F)
    (s v : 'cV[F]_n) (g : nat -> seq F -> option (seq F)) :
  (n <= size c)%N ->
  (forall i c', (i < n)%N -> size c' = size c -> g i c' =
     do sum <- f i; do w <- rd c' i; wr c' i (upd w sum)) ->
  (forall i : 'I_n, exists2 sum, f i = Some sum &
     within (P i) (h i) (s i 0) (v i 0) (upd c`_i sum)) ->
  writes_within c P h s v (for_ 0 n 1 g c).
Proof.
  move=> Hn Hg Hf.
  pose t i := if f i is Some sum then sum else 0.
  have Hb i c' : (i < n)%N -> size c' = size c -> g i c' = wr c' i ((fun i w => upd w (t i)) i c'`_i).
  { move=> Hi Hs. rewrite Hg //. have [sum E _] := Hf (Ordinal Hi). rewrite /t E /= (rdE 0) //.
    by rewrite Hs; apply: leq_trans Hn. }
  have [c' E [Hs Hc]] := write_loop (v := fun i w => upd w (t i)) Hn Hb.
  exists c'; split => //.
  - move=> i. rewrite Hc ltn_ord. have [sum E1 H] := Hf i. by rewrite /t E1.
  - move=> k Hk. by rewrite Hc ltnNge Hk.
Qed.

Lemma store_loop_near (f : nat -> option F) n c (Q h P h' : nat -> F) (s v : 'cV[F]_n) :
  (n <= size c)%N -> (forall i, (i < n)%N -> P i = Q i * (1 + u)) ->
  (forall i, (i < n)%N -> h' i = h i + eta) ->
  (forall i : 'I_n, exists2 sum, f i = Some sum & near (Q i) (h i) (s i 0) (v i 0) sum) ->
  writes_within c P h' s v (for_ 0 n 1 (fun i c => do sum <- f i; RoundModel.store fl c i sum) c).
Proof.
  move=> Hn HP Hh Hf. apply: (@update_loop_near f (fun _ sum => fl sum)) => //.
  - move=> i c' Hi Hs. case: (f i) => //= sum. rewrite (rdE 0) //. rewrite Hs. exact: leq_trans Hn.
  - move=> i. have [sum E N] := Hf i. exists sum => //. rewrite HP // Hh //.
    exact: near_within (near_round Hfl N).
Qed.

Lemma accumulate_loop_near (f : nat -> option F) n c alpha (Q h P h' : nat -> F) (s v : 'cV[F]_n) :
  (n <= size c)%N -> (forall i, (i < n)%N -> P i = Q i * (1 + u) ^+ 3) ->
  (forall i, (i < n)%N -> h' i = `|alpha| * (h i + eta) + eta + eta) ->
  (forall i : 'I_n, exists2 sum, f i = Some sum & near (Q i) (h i) (s i 0) (v i 0) sum) ->
  writes_within c P h' (absmx (vec n c) + `|alpha| *: s) (vec n c + alpha *: v)
    (for_ 0 n 1 (fun i c => do sum <- f i; RoundModel.accumulate_scaled fl c i alpha sum) c).
Proof.
  move=> Hn HP Hh Hf.
  apply: (@update_loop_near f (fun w sum => fl (w + fl (alpha * fl sum)))) => //.
  move=> i. have [sum E N] := Hf i. exists sum => //. rewrite HP // Hh // !mxE.
  have N1 := near_round Hfl (near_scale alpha (near_round Hfl N)).
  have HQ : 1 <= Q i * (1 + u) * (1 + u) by case: N1.
  have N2 := near_mono (near_refl c`_i) HQ (lexx 0).
  have := near_within (near_round Hfl (near_add N2 N1)).
  by rewrite add0r !exprS expr0 mulr1 !mulrA.
Qed.

(** c[i] += static_cast<DataType>(alpha * sum). *)
Lemma accumulate_long_near (f : nat -> option F) n c alpha (Q h P h' : nat -> F) (s v : 'cV[F]_n) :
  (n <= size c)%N -> (forall i, (i < n)%N -> P i = Q i * (1 + ul) * (1 + u) ^+ 2) ->
  (forall i, (i < n)%N -> h' i = `|alpha| * h i + etal + eta + eta) ->
  (forall i : 'I_n, exists2 sum, f i = Some sum & near (Q i) (h i) (s i 0) (v i 0) sum) ->
  writes_within c P h' (absmx (vec n c) + `|alpha| *: s) (vec n c + alpha *: v)
    (for_ 0 n 1 (fun i c => do sum <- f i;
                  RoundModel.accumulate fl c i (fl (fll (alpha * sum)))) c).
Proof.
  move=> Hn HP Hh Hf.
  apply: (@update_loop_near f (fun w sum => fl (w + fl (fll (alpha * sum))))) => //.
  move=> i. have [sum E N] := Hf i. exists sum => //. rewrite HP // Hh // !mxE.
  have N1 := near_round Hfl (near_round Hfll (near_scale alpha N)).
  have HQ : 1 <= Q i * (1 + ul) * (1 + u) by case: N1.
  have N2 := near_mono (near_refl c`_i) HQ (lexx 0).
  have := near_within (near_round Hfl (near_add N2 N1)).
  by rewrite add0r !exprS expr0 mulr1 !mulrA.
Qed.

(** alpha = 0: nothing is done. *)
Lemma untouched_near n c (P h : nat -> F) (s v : 'cV[F]_n) :
  (forall i, (i < n)%N -> 1 <= P i) -> (forall i, (i < n)%N -> 0 <= h i) ->
  writes_within c P h (absmx (vec n c) + `|0 : F| *: s) (vec n c + 0 *: v) (Some c).
Proof.
  move=> HP Hh. exists c; split => // i. rewrite !mxE normr0 !mul0r !addr0.
  apply: near_within. apply: near_mono (near_refl _) _ _; [exact: HP|exact: Hh].
Qed.

(** ** Dense *)

Local Notation dense_growth := (dense_growth u ul).
Local Notation dense_slack := (dense_slack eta etal).
Local Notation line_growth := (line_growth u ul).
Local Notation line_slack := (line_slack eta etal).
Local Notation long_growth := (long_growth u ul).
Local Notation long_slack := (long_slack eta etal).

Definition dense_Q (n : nat) (unrolled : bool) : F :=
  if unrolled then (1 + u) ^+ 5 * (1 + ul) ^+ (n %/ 5 + n %% 5) else (1 + u) * (1 + ul) ^+ n.
Definition dense_h (n : nat) (unrolled : bool) : F :=
  if unrolled then (n + 4 * (n %/ 5))%:R * eta + (n %/ 5 + n %% 5)%:R * etal
  else n%:R * eta + n%:R * etal.

Lemma dense_growthE n r : dense_growth n r = dense_Q n r * (1 + u).
Proof.
  rewrite /RoundSpec.dense_growth /dense_Q. case: r; rewrite /unrolled_growth /plain_growth [RHS]mulrAC.
  - by rewrite -exprSr.
  - by rewrite -expr2.
Qed.

Lemma dense_slackE n r : dense_slack n r = dense_h n r + eta.
Proof.
  rewrite /RoundSpec.dense_slack /dense_h. case: r; rewrite /unrolled_slack /plain_slack natrD mulrDl mul1r [RHS]addrAC //.
Qed.

Lemma dense_row_near A b m n rm i : (m * n <= size A)%N -> (n <= size b)%N -> (i < m)%N ->
  exists2 sum, (if rm then RoundModel.row_sum_row_major fl fll A b n i
                else RoundModel.row_sum_col_major fl fll A b m n i) = Some sum &
  near (dense_Q n rm) (dense_h n rm)
   (\sum_(0 <= j < n) `|A`_(if rm then (i * n + j)%N else (i + m * j)%N)| * `|b`_j|)
   (\sum_(0 <= j < n) A`_(if rm then (i * n + j)%N else (i + m * j)%N) * b`_j) sum.
Proof.
  move=> HA Hb Hi. case: rm.
  - apply: (@unrolled_near _ _ _ _ _ _ _ Hfl Hfll A b (fun j => (i * n + j)%N)
              (fun j k => (i * n + j + k)%N)) => //.
    + move=> j Hj. apply: leq_trans HA. exact: dense_index_row.
    + move=> j k. by rewrite addnA.
  - have := @plain_near _ _ _ _ _ _ _ Hfl Hfll A b (fun j => (i + m * j)%N) id 0 n.
    rewrite subn0. apply.
    + move=> j /andP [_ Hj]. apply: leq_trans HA. exact: dense_index_col.
    + move=> j /andP [_ Hj]. exact: leq_trans Hb.
Qed.

Lemma dense_col_near A b m n rm j : (m * n <= size A)%N -> (m <= size b)%N -> (j < n)%N ->
  exists2 sum, (if rm then RoundModel.col_sum_row_major fl fll A b m n j
                else RoundModel.col_sum_col_major fl fll A b m j) = Some sum &
  near (dense_Q m (~~ rm)) (dense_h m (~~ rm))
   (\sum_(0 <= i < m) `|A`_(if rm then (i * n + j)%N else (i + m * j)%N)| * `|b`_i|)
   (\sum_(0 <= i < m) A`_(if rm then (i * n + j)%N else (i + m * j)%N) * b`_i) sum.
Proof.
  move=> HA Hb Hj. case: rm.
  - have := @plain_near _ _ _ _ _ _ _ Hfl Hfll A b (fun i => (i * n + j)%N) id 0 m.
    rewrite subn0. apply.
    + move=> i /andP [_ Hi]. apply: leq_trans HA. exact: dense_index_row.
    + move=> i /andP [_ Hi]. exact: leq_trans Hb.
  - apply: (@unrolled_near _ _ _ _ _ _ _ Hfl Hfll A b (fun i => (i + m * j)%N)
              (fun i k => (i + k + m * j)%N)) => //.
    move=> i Hi. apply: leq_trans HA. exact: dense_index_col.
Qed.

Lemma dense_absE A b m n rm :
  \col_(i < m) (\sum_(0 <= j < n) `|A`_(if rm then (i * n + j)%N else (i + m * j)%N)| * `|b`_j|)
  = absmx (dense_matrix m n rm A) *m absmx (vec n b).
Proof.
  apply/matrixP => i k. rewrite !mxE big_mkord. apply: eq_bigr => j _. by rewrite !mxE.
Qed.

Lemma dense_tabsE A b m n rm :
  \col_(j < n) (\sum_(0 <= i < m) `|A`_(if rm then (i * n + j)%N else (i + m * j)%N)| * `|b`_i|)
  = absmx (dense_matrix m n rm A)^T *m absmx (vec m b).
Proof.
  apply/matrixP => i k. rewrite !mxE big_mkord. apply: eq_bigr => j _. by rewrite !mxE.
Qed.

Lemma dense_matvec_near A b m n rm c :
  (m * n <= size A)%N -> (n <= size b)%N -> (m <= size c)%N ->
  writes_within c (fun=> dense_growth n rm) (fun=> dense_slack n rm)
    (absmx (dense_matrix m n rm A) *m absmx (vec n b)) (dense_matrix m n rm A *m vec n b)
    (RoundModel.dense_matvec fl fll A b m n rm c).
Proof.
  move=> HA Hb Hc. rewrite -dense_mulE -dense_absE.
  apply: (@store_loop_near _ m c (fun=> dense_Q n rm) (fun=> dense_h n rm)) => // [i _|i _|i].
  - exact: dense_growthE.
  - exact: dense_slackE.
  - rewrite !mxE. exact: dense_row_near.
Qed.

Lemma dense_transposed_matvec_near A b m n rm c :
  (m * n <= size A)%N -> (m <= size b)%N -> (n <= size c)%N ->
  writes_within c (fun=> dense_growth m (~~ rm)) (fun=> dense_slack m (~~ rm))
    (absmx (dense_matrix m n rm A)^T *m absmx (vec m b)) ((dense_matrix m n rm A)^T *m vec m b)
    (RoundModel.dense_transposed_matvec fl fll A b m n rm c).
Proof.
  move=> HA Hb Hc. rewrite -dense_tmulE -dense_tabsE.
  apply: (@store_loop_near _ n c (fun=> dense_Q m (~~ rm)) (fun=> dense_h m (~~ rm))) => // [i _|i _|i].
  - exact: dense_growthE.
  - exact: dense_slackE.
  - rewrite !mxE. exact: dense_col_near.
Qed.

Lemma dense_growth_ge1 n r : 1 <= dense_growth n r.
Proof. case: r; apply: mulr_ege1; exact: ge1. Qed.

Lemma dense_slack_ge0 n r : 0 <= dense_slack n r.
Proof. case: r; apply: addr_ge0; apply: mulr_ge0 => //; exact: ler0n. Qed.

Lemma plus_growth_ge1 P : 1 <= P -> 1 <= P * (1 + u) ^+ 2.
Proof. move=> HP. apply: mulr_ege1 => //. exact: ge1. Qed.

Lemma plus_slack_ge0 (alpha : F) h : 0 <= h -> 0 <= `|alpha| * h + 2%:R * eta.
Proof. move=> Hh. apply: addr_ge0; apply: mulr_ge0 => //. exact: ler0n. Qed.

Lemma dense_matvec_plus_near A b alpha m n rm c :
  (m * n <= size A)%N -> (n <= size b)%N -> (m <= size c)%N ->
  writes_within c (fun=> dense_growth n rm * (1 + u) ^+ 2)
    (fun=> `|alpha| * dense_slack n rm + 2%:R * eta)
    (absmx (vec m c) + `|alpha| *: (absmx (dense_matrix m n rm A) *m absmx (vec n b)))
    (vec m c + alpha *: (dense_matrix m n rm A *m vec n b))
    (RoundModel.dense_matvec_plus fl fll A b alpha m n rm c).
Proof.
  move=> HA Hb Hc. rewrite /RoundModel.dense_matvec_plus. case: eqP => [->|_].
  { apply: untouched_near => i _; first exact/plus_growth_ge1/dense_growth_ge1.
    exact/plus_slack_ge0/dense_slack_ge0. }
  rewrite -dense_mulE -dense_absE.
  apply: (@accumulate_loop_near _ m c alpha (fun=> dense_Q n rm) (fun=> dense_h n rm)) => // [i _|i _|i].
  - by rewrite dense_growthE -mulrA -exprS.
  - by rewrite dense_slackE mulr_natl mulr2n addrA.
  - rewrite !mxE. exact: dense_row_near.
Qed.

Lemma dense_transposed_matvec_plus_near A b alpha m n rm c :
  (m * n <= size A)%N -> (m <= size b)%N -> (n <= size c)%N ->
  writes_within c (fun=> dense_growth m (~~ rm) * (1 + u) ^+ 2)
    (fun=> `|alpha| * dense_slack m (~~ rm) + 2%:R * eta)
    (absmx (vec n c) + `|alpha| *: (absmx (dense_matrix m n rm A)^T *m absmx (vec m b)))
    (vec n c + alpha *: ((dense_matrix m n rm A)^T *m vec m b))
    (RoundModel.dense_transposed_matvec_plus fl fll A b alpha m n rm c).
Proof.
  move=> HA Hb Hc. rewrite /RoundModel.dense_transposed_matvec_plus. case: eqP => [->|_].
  { apply: untouched_near => i _; first exact/plus_growth_ge1/dense_growth_ge1.
    exact/plus_slack_ge0/dense_slack_ge0. }
  rewrite -dense_tmulE -dense_tabsE.
  apply: (@accumulate_loop_near _ n c alpha (fun=> dense_Q m (~~ rm)) (fun=> dense_h m (~~ rm)))
    => // [i _|i _|i].
  - by rewrite dense_growthE -mulrA -exprS.
  - by rewrite dense_slackE mulr_natl mulr2n addrA.
  - rewrite !mxE. exact: dense_col_near.
Qed.

(** ** Compressed, gathering *)

Lemma gather_near data idx ptr b lines width i :
  compressed_ok lines width data idx ptr -> (width <= size b)%N -> (i < lines)%N ->
  exists2 sum, RoundModel.gather fl fll data idx ptr b i = Some sum &
  near (dense_Q (line_length ptr i) false) (dense_h (line_length ptr i) false)
   (\sum_(nth 0%N ptr i <= q < nth 0%N ptr i.+1) `|data`_q| * `|b`_(nth 0%N idx q)|)
   (\sum_(nth 0%N ptr i <= q < nth 0%N ptr i.+1) data`_q * b`_(nth 0%N idx q)) sum.
Proof.
  move=> [Hp Hok] Hb Hi. rewrite /RoundModel.gather (rdE 0%N (ltn_trans Hi Hp)) /=.
  rewrite (rdE 0%N (leq_ltn_trans Hi Hp : i.+1 < size ptr)%N) /=.
  have [j Hj|j Hj|sum E N] := @plain_near _ _ _ _ _ _ _ Hfl Hfll data b id (nth 0%N idx)
    (nth 0%N ptr i) (nth 0%N ptr i.+1).
  - by have [] := Hok i j Hi Hj.
  - have [_ _ H] := Hok i j Hi Hj. exact: leq_trans H Hb.
  exists sum => //. rewrite -E.
  case: (leqP (nth 0%N ptr i.+1) (nth 0%N ptr i)) => Hle; first by rewrite !for_empty.
  set f := (fun q sum => _). set g := (fun j sum => _).
  have H k : (nth 0%N ptr i <= k)%N -> (k <= nth 0%N ptr i.+1)%N ->
     forall fuel s, loop fuel k (nth 0%N ptr i.+1) 1 f s = loop fuel k (nth 0%N ptr i.+1) 1 g s.
  { move=> Hk1 Hk2 fuel. elim: fuel k Hk1 Hk2 => [|fuel IH] k Hk1 Hk2 s //=.
    case: ltnP => // Hk. have [_ H2 _] := Hok i k Hi (introT andP (conj Hk1 Hk)).
    have -> : f k s = g k s by rewrite /f (rdE 0%N H2).
    case: (g k s) => //= s'.
    apply: IH; by rewrite addn1 // ltnW. }
  apply: H => //. exact: ltnW.
Qed.

Lemma nth_abs (a : seq F) k : (absarray a)`_k = `|a`_k|.
Proof.
  rewrite /absarray. case: (ltnP k (size a)) => Hk; first by rewrite (nth_map 0).
  by rewrite !nth_default ?size_map // normr0.
Qed.

Lemma abs_ok lines width data idx ptr : compressed_ok lines width data idx ptr ->
  compressed_ok lines width (absarray data) idx ptr.
Proof. case=> Hp Hok. split => // i q Hi Hq. rewrite size_map. exact: Hok Hi Hq. Qed.

Lemma vec_abs n (b : seq F) : vec n (absarray b) = absmx (vec n b).
Proof. apply/matrixP => i j. by rewrite !mxE nth_abs. Qed.

Lemma csr_absE data idx ptr b m n : compressed_ok m n data idx ptr ->
  \col_(i < m) (\sum_(nth 0%N ptr i <= q < nth 0%N ptr i.+1) `|data`_q| * `|b`_(nth 0%N idx q)|)
  = csr_matrix m n (absarray data) idx ptr *m absmx (vec n b).
Proof.
  move=> Hok. rewrite -vec_abs -csr_mulE; last exact: abs_ok.
  apply/matrixP => i j. rewrite !mxE. apply: eq_bigr => q _. by rewrite !nth_abs.
Qed.

Lemma csc_tabsE data idx ptr b m n : compressed_ok n m data idx ptr ->
  \col_(i < n) (\sum_(nth 0%N ptr i <= q < nth 0%N ptr i.+1) `|data`_q| * `|b`_(nth 0%N idx q)|)
  = (csc_matrix m n (absarray data) idx ptr)^T *m absmx (vec m b).
Proof.
  move=> Hok. rewrite -vec_abs -csc_tmulE; last exact: abs_ok.
  apply/matrixP => i j. rewrite !mxE. apply: eq_bigr => q _. by rewrite !nth_abs.
Qed.

Lemma csr_matvec_near data idx ptr b m n c :
  compressed_ok m n data idx ptr -> (n <= size b)%N -> (m <= size c)%N ->
  writes_within c (line_growth ptr) (line_slack ptr)
    (csr_matrix m n (absarray data) idx ptr *m absmx (vec n b))
    (csr_matrix m n data idx ptr *m vec n b)
    (RoundModel.csr_matvec fl fll data idx ptr b m c).
Proof.
  move=> Hok Hb Hc. rewrite -csr_mulE // -csr_absE //.
  apply: (@store_loop_near _ m c (fun i => dense_Q (line_length ptr i) false)
           (fun i => dense_h (line_length ptr i) false)) => // [i _|i _|i].
  - exact: (dense_growthE _ false).
  - exact: (dense_slackE _ false).
  - rewrite !mxE. exact: gather_near Hok Hb (ltn_ord i).
Qed.

Lemma csc_transposed_matvec_near data idx ptr b m n c :
  compressed_ok n m data idx ptr -> (m <= size b)%N -> (n <= size c)%N ->
  writes_within c (line_growth ptr) (line_slack ptr)
    ((csc_matrix m n (absarray data) idx ptr)^T *m absmx (vec m b))
    ((csc_matrix m n data idx ptr)^T *m vec m b)
    (RoundModel.csc_transposed_matvec fl fll data idx ptr b n c).
Proof.
  move=> Hok Hb Hc. rewrite -csc_tmulE // -csc_tabsE //.
  apply: (@store_loop_near _ n c (fun i => dense_Q (line_length ptr i) false)
           (fun i => dense_h (line_length ptr i) false)) => // [i _|i _|i].
  - exact: (dense_growthE _ false).
  - exact: (dense_slackE _ false).
  - rewrite !mxE. exact: gather_near Hok Hb (ltn_ord i).
Qed.

Lemma csr_matvec_plus_near data idx ptr b alpha m n c :
  compressed_ok m n data idx ptr -> (n <= size b)%N -> (m <= size c)%N ->
  writes_within c (fun i => line_growth ptr i * (1 + u) ^+ 2)
    (fun i => `|alpha| * line_slack ptr i + 2%:R * eta)
    (absmx (vec m c) + `|alpha| *: (csr_matrix m n (absarray data) idx ptr *m absmx (vec n b)))
    (vec m c + alpha *: (csr_matrix m n data idx ptr *m vec n b))
    (RoundModel.csr_matvec_plus fl fll data idx ptr b alpha m c).
Proof.
  move=> Hok Hb Hc. rewrite /RoundModel.csr_matvec_plus. case: eqP => [->|_].
  { apply: untouched_near => i _; first exact/plus_growth_ge1/(dense_growth_ge1 _ false).
    exact/plus_slack_ge0/(dense_slack_ge0 _ false). }
  rewrite -csr_mulE // -csr_absE //.
  apply: (@accumulate_loop_near _ m c alpha (fun i => dense_Q (line_length ptr i) false)
           (fun i => dense_h (line_length ptr i) false)) => // [i _|i _|i].
  - by rewrite /RoundSpec.line_growth -[plain_growth _ _ _]/(dense_growth _ false) dense_growthE -mulrA -exprS.
  - by rewrite /RoundSpec.line_slack -[plain_slack _ _ _]/(dense_slack _ false) dense_slackE mulr_natl mulr2n addrA.
  - rewrite !mxE. exact: gather_near Hok Hb (ltn_ord i).
Qed.

Lemma csc_transposed_matvec_plus_near data idx ptr b alpha m n c :
  compressed_ok n m data idx ptr -> (m <= size b)%N -> (n <= size c)%N ->
  writes_within c (long_growth ptr) (fun i => long_slack ptr i alpha)
    (absmx (vec n c) + `|alpha| *: ((csc_matrix m n (absarray data) idx ptr)^T *m absmx (vec m b)))
    (vec n c + alpha *: ((csc_matrix m n data idx ptr)^T *m vec m b))
    (RoundModel.csc_transposed_matvec_plus fl fll data idx ptr b alpha n c).
Proof.
  move=> Hok Hb Hc. rewrite /RoundModel.csc_transposed_matvec_plus. case: eqP => [->|_].
  { apply: untouched_near => i _; first by apply: mulr_ege1; exact: ge1.
    rewrite /RoundSpec.long_slack. by repeat first [exact: He|exact: Hel|exact: ler0n|exact: normr_ge0|apply: addr_ge0|apply: mulr_ge0]. }
  rewrite -csc_tmulE // -csc_tabsE //.
  apply: (@accumulate_long_near _ n c alpha (fun i => dense_Q (line_length ptr i) false)
           (fun i => dense_h (line_length ptr i) false)) => // [i _|i _|i].
  - rewrite /RoundSpec.long_growth /dense_Q [(1 + ul) ^+ _.+1]exprSr [(1 + u) ^+ 3]exprS.
    by rewrite [LHS](AC (2*2)%AC (((1*3)*4)*2)%AC).
  - rewrite /RoundSpec.long_slack /dense_h -mulrDr [2%:R * eta]mulr_natl mulr2n.
    by rewrite [LHS](AC ((1*2)*1)%AC (((1*4)*2)*3)%AC).
  - rewrite !mxE. exact: gather_near Hok Hb (ltn_ord i).
Qed.

End Kernels.

Section Scatter.
Variable F : rcfType.
Variable fl : F -> F.
Variables u eta : F.
Hypothesis Hfl : rounds fl u eta.
Implicit Types (b c data : seq F) (idx ptr : seq nat).

Let Hu : 0 <= u. Proof. by case: Hfl. Qed.
Let He : 0 <= eta. Proof. by case: Hfl. Qed.

Definition cnt idx lo hi k : nat := (\sum_(lo <= q < hi | nth 0 idx q == k) 1)%N.

Lemma scatter_line_near (f : nat -> seq F -> option (seq F)) (t S V : nat -> F) idx lo hi width K g c
    (N : nat -> nat) (h s v : nat -> F) :
  (forall q c', (lo <= q < hi)%N -> size c' = size c ->
     f q c' = RoundModel.accumulate fl c' (nth 0%N idx q) (t q)) ->
  (forall q, (lo <= q < hi)%N -> (nth 0 idx q < width)%N) -> (width <= size c)%N ->
  (forall q, (lo <= q < hi)%N -> near ((1 + u) ^+ K) g (S q) (V q) (t q)) ->
  (forall k, (k < width)%N -> near ((1 + u) ^+ (K + N k)) (h k) (s k) (v k) c`_k) ->
  exists2 c', for_ lo hi 1 f c = Some c' &
    [/\ size c' = size c, forall k, (width <= k)%N -> c'`_k = c`_k &
      forall k, (k < width)%N -> near ((1 + u) ^+ (K + (N k + cnt idx lo hi k)))
        (h k + (cnt idx lo hi k)%:R * (g + eta))
        (s k + \sum_(lo <= q < hi | nth 0%N idx q == k) S q)
        (v k + \sum_(lo <= q < hi | nth 0%N idx q == k) V q) c'`_k].
Proof.
  move=> Hf Hix Hw Ht Hc.
  case: (leqP hi lo) => Hle.
  { exists c; first by rewrite for_empty. split => // k Hk. rewrite /cnt !big_geq // addn0 !addr0.
    rewrite mul0r addr0. exact: Hc. }
  pose I e (c' : seq F) := [/\ size c' = size c, forall k, (width <= k)%N -> c'`_k = c`_k &
      forall k, (k < width)%N -> near ((1 + u) ^+ (K + (N k + cnt idx lo e k)))
        (h k + (cnt idx lo e k)%:R * (g + eta))
        (s k + \sum_(lo <= q < e | nth 0%N idx q == k) S q)
        (v k + \sum_(lo <= q < e | nth 0%N idx q == k) V q) c'`_k].
  apply: (@for1_inv _ I); first exact: ltnW.
  { split => // k Hk. rewrite /cnt !big_geq // addn0 !addr0 mul0r addr0. exact: Hc. }
  move=> q c' Hq [Hs Hrest Hc']. have [Hlo _] := andP Hq.
  rewrite Hf // /RoundModel.accumulate.
  have Hk : (nth 0%N idx q < size c')%N by rewrite Hs; apply: leq_trans (Hix _ Hq) Hw.
  rewrite (rdE 0 Hk) /=. set w := fl _.
  have E : wr c' (nth 0%N idx q) w = Some (set_nth w c' (nth 0%N idx q) w) by rewrite wrE.
  rewrite E. eexists; first reflexivity. split; first by rewrite (size_wr E).
  - move=> k Hwk. rewrite (nth_wr 0 k E) Hrest //. case: eqP => // Ek.
    by move: (Hix _ Hq); rewrite -Ek ltnNge Hwk.
  - move=> k Hkw. rewrite (nth_wr 0 k E).
    rewrite /cnt ![in X in near X]big_mkcond ![\sum_(lo <= _ < q.+1 | _) _]big_mkcond /=.
    rewrite [X in (N k + X)%N]big_mkcond [X in X%:R]big_mkcond !big_nat_recr //= -!big_mkcond.
    rewrite -/(cnt idx lo q k) eq_sym. case: eqP => [Ek|_]; last first.
    { rewrite addn0 !addr0. exact: Hc'. }
    have N1 := Hc' k Hkw. rewrite /w -Ek.
    have HG : (1 + u) ^+ K <= (1 + u) ^+ (K + (N k + cnt idx lo q k)).
    { apply: pow_mono => //. exact: leq_addr. }
    have := near_round Hfl (near_add N1 (near_mono (Ht q Hq) HG (lexx _))).
    rewrite -exprSr addn1 !addnS mulrSr mulrDl mul1r !addrA.
    by [].
Qed.

(** All lines; [V i q] is the exact product of entry q of line i, [S i q] its
    absolute value. *)
Lemma scatter_lines_near (body : nat -> seq F -> option (seq F)) (f : nat -> nat -> seq F -> option (seq F))
    (t S V : nat -> nat -> F) idx ptr lines width K g c (s v : nat -> F) :
  (forall i c', (i < lines)%N -> size c' = size c ->
     body i c' = for_ (nth 0%N ptr i) (nth 0%N ptr i.+1) 1 (f i) c') ->
  (forall i q c', (i < lines)%N -> (nth 0 ptr i <= q < nth 0 ptr i.+1)%N -> size c' = size c ->
     f i q c' = RoundModel.accumulate fl c' (nth 0%N idx q) (t i q)) ->
  (forall i q, (i < lines)%N -> (nth 0 ptr i <= q < nth 0 ptr i.+1)%N -> (nth 0 idx q < width)%N) ->
  (width <= size c)%N ->
  (forall i q, (i < lines)%N -> (nth 0 ptr i <= q < nth 0 ptr i.+1)%N ->
     near ((1 + u) ^+ K) g (S i q) (V i q) (t i q)) ->
  (forall k, (k < width)%N -> near ((1 + u) ^+ K) 0 (s k) (v k) c`_k) ->
  exists2 c', for_ 0 lines 1 body c = Some c' &
    [/\ size c' = size c, forall k, (width <= k)%N -> c'`_k = c`_k &
      forall k, (k < width)%N -> near ((1 + u) ^+ (K + entries_at lines idx ptr k))
        ((entries_at lines idx ptr k)%:R * (g + eta))
        (s k + \sum_(0 <= i < lines)
           \sum_(nth 0%N ptr i <= q < nth 0%N ptr i.+1 | nth 0%N idx q == k) S i q)
        (v k + \sum_(0 <= i < lines)
           \sum_(nth 0%N ptr i <= q < nth 0%N ptr i.+1 | nth 0%N idx q == k) V i q) c'`_k].
Proof.
  move=> Hbody Hf Hix Hw Ht Hc.
  pose I e (c' : seq F) := [/\ size c' = size c, forall k, (width <= k)%N -> c'`_k = c`_k &
      forall k, (k < width)%N -> near ((1 + u) ^+ (K + entries_at e idx ptr k))
        ((entries_at e idx ptr k)%:R * (g + eta))
        (s k + \sum_(0 <= i < e)
           \sum_(nth 0%N ptr i <= q < nth 0%N ptr i.+1 | nth 0%N idx q == k) S i q)
        (v k + \sum_(0 <= i < e)
           \sum_(nth 0%N ptr i <= q < nth 0%N ptr i.+1 | nth 0%N idx q == k) V i q) c'`_k].
  apply: (@for1_inv _ I); first exact: leq0n.
  { split => // k Hk. rewrite /entries_at !big_geq // addn0 mul0r !addr0. exact: Hc. }
  move=> i c' /andP [_ Hi] [Hs Hrest Hc'].
  have Hw' : (width <= size c')%N by rewrite Hs.
  have Hf' q c1 : (nth 0 ptr i <= q < nth 0 ptr i.+1)%N -> size c1 = size c' ->
     f i q c1 = RoundModel.accumulate fl c1 (nth 0%N idx q) (t i q).
  { move=> Hq Hc1. apply: Hf => //. by rewrite Hc1. }
  have [c'' E [Hs' Hrest' Hc'']] := scatter_line_near Hf' (fun q => Hix i q Hi) Hw'
    (fun q => Ht i q Hi) Hc'.
  exists c''; first by rewrite Hbody // Hs. split; first by rewrite Hs'.
  - move=> k Hk. by rewrite Hrest' // Hrest.
  - move=> k Hk. have := Hc'' k Hk.
    rewrite /entries_at !(@big_nat_recr _ _ _ i) //= -/(entries_at i idx ptr k) -/(cnt _ _ _ _).
    by rewrite natrD mulrDl !addrA.
Qed.

Lemma zero_near k : near ((1 + u) ^+ k) 0 0 0 0.
Proof.
  apply: near_mono (_ : near 1 0 0 0 0) _ _ => //; last exact: ge1.
  by have := near_refl (0 : F); rewrite normr0.
Qed.

(** The sums of the absolute values of the products at position k. *)
Definition magnitude data idx ptr b (lines k : nat) : F :=
  scattered (absarray data) idx ptr (absarray b) 1 lines k.

Lemma scatter_all_near data idx ptr b lines width c :
  compressed_ok lines width data idx ptr -> (lines <= size b)%N -> (width <= size c)%N ->
  writes_within c (scatter_growth u lines idx ptr) (scatter_slack eta lines idx ptr)
    (\col_(k < width) magnitude data idx ptr b lines k)
    (\col_(k < width) scattered data idx ptr b 1 lines k)
    (do c <- RoundModel.zero_fill width c;
     for_ 0 lines 1 (fun i c => RoundModel.scatter fl data idx ptr b i c) c).
Proof.
  move=> [Hp Hok] Hb Hc.
  have [c1 E1 [Hs1 H1]] : exists2 c', RoundModel.zero_fill width c = Some c' &
    size c' = size c /\ forall k, c'`_k = if (k < width)%N then 0 else c`_k.
  { exact: (write_loop (v := fun _ _ => 0) Hc). }
  rewrite E1 /=.
  have Hc1 : (width <= size c1)%N by rewrite Hs1.
  pose f (i q : nat) (c : seq F) := do k <- rd idx q; do t <- RoundModel.term fl data q b i;
                RoundModel.accumulate fl c k t.
  have Hbody i c' : (i < lines)%N -> size c' = size c1 ->
     RoundModel.scatter fl data idx ptr b i c' = for_ (nth 0%N ptr i) (nth 0%N ptr i.+1) 1 (f i) c'.
  { move=> Hi _. rewrite /RoundModel.scatter (rdE 0%N (ltn_trans Hi Hp)) /=.
    by rewrite (rdE 0%N (leq_ltn_trans Hi Hp : i.+1 < size ptr)%N). }
  have Hf i q c' : (i < lines)%N -> (nth 0 ptr i <= q < nth 0 ptr i.+1)%N -> size c' = size c1 ->
     f i q c' = RoundModel.accumulate fl c' (nth 0%N idx q) ((fun i q => fl (data`_q * b`_i)) i q).
  { move=> Hi Hq _. have [H2 H3 _] := Hok i q Hi Hq.
    by rewrite /f /RoundModel.term (rdE 0%N H3) /= (rdE 0 H2) /= (rdE 0 (leq_trans Hi Hb)). }
  have Hix i q : (i < lines)%N -> (nth 0 ptr i <= q < nth 0 ptr i.+1)%N -> (nth 0 idx q < width)%N.
  { by move=> Hi Hq; have [] := Hok i q Hi Hq. }
  have Ht i q : (i < lines)%N -> (nth 0 ptr i <= q < nth 0 ptr i.+1)%N ->
     near ((1 + u) ^+ 1) eta ((fun i q => 1 * `|data`_q| * `|b`_i|) i q)
       ((fun i q => 1 * data`_q * b`_i) i q) ((fun i q => fl (data`_q * b`_i)) i q).
  { move=> _ _. rewrite expr1 !mul1r -normrM. exact: near_fl. }
  have Hc0 k : (k < width)%N -> near ((1 + u) ^+ 1) 0 ((fun=> 0) k) ((fun=> 0) k) c1`_k.
  { move=> Hk. rewrite H1 Hk. exact: zero_near. }
  have [c' E [Hs Hrest Hn]] := scatter_lines_near Hbody Hf Hix Hc1 Ht Hc0.
  exists c'; split => //; first by rewrite Hs.
  - move=> k. have := near_within (Hn k (ltn_ord k)).
    rewrite !mxE !add0r /scatter_growth /scatter_slack [2%:R * eta]mulr_natl [eta *+ 2]mulr2n /magnitude /scattered.
    set x := \sum_(0 <= i < lines) _. set y := \sum_(0 <= i < lines) _.
    set x' := \sum_(0 <= i < lines) _ => H.
    have -> // : x' = x.
    apply: eq_bigr => i _. apply: eq_bigr => q _. by rewrite !nth_abs.
  - move=> k Hk. by rewrite Hrest // H1 ltnNge Hk.
Qed.

Lemma scatter_scaled_near data idx ptr b alpha bmax lines width c :
  compressed_ok lines width data idx ptr -> (lines <= size b)%N -> (width <= size c)%N ->
  (forall i, (i < lines)%N -> `|b`_i| <= bmax) ->
  writes_within c (scatter_plus_growth u lines idx ptr) (scatter_plus_slack eta bmax lines idx ptr)
    (absmx (vec width c) + `|alpha| *: \col_(k < width) magnitude data idx ptr b lines k)
    (vec width c + alpha *: \col_(k < width) scattered data idx ptr b 1 lines k)
    (for_ 0 lines 1 (fun i c => RoundModel.scatter_scaled fl data idx ptr b alpha i c) c).
Proof.
  move=> [Hp Hok] Hb Hc Hmax.
  pose f (i q : nat) (c : seq F) := do k <- rd idx q; do d <- rd data q; do w <- rd b i;
                RoundModel.accumulate fl c k (fl (fl (alpha * d) * w)).
  have Hbody i c' : (i < lines)%N -> size c' = size c ->
     RoundModel.scatter_scaled fl data idx ptr b alpha i c'
     = for_ (nth 0%N ptr i) (nth 0%N ptr i.+1) 1 (f i) c'.
  { move=> Hi _. rewrite /RoundModel.scatter_scaled (rdE 0%N (ltn_trans Hi Hp)) /=.
    by rewrite (rdE 0%N (leq_ltn_trans Hi Hp : i.+1 < size ptr)%N). }
  pose t i q : F := fl (fl (alpha * data`_q) * b`_i).
  have Hf i q c' : (i < lines)%N -> (nth 0 ptr i <= q < nth 0 ptr i.+1)%N -> size c' = size c ->
     f i q c' = RoundModel.accumulate fl c' (nth 0%N idx q) (t i q).
  { move=> Hi Hq _. have [H2 H3 _] := Hok i q Hi Hq.
    by rewrite /f (rdE 0%N H3) /= (rdE 0 H2) /= (rdE 0 (leq_trans Hi Hb)). }
  have Hix i q : (i < lines)%N -> (nth 0 ptr i <= q < nth 0 ptr i.+1)%N -> (nth 0 idx q < width)%N.
  { by move=> Hi Hq; have [] := Hok i q Hi Hq. }
  have Ht i q : (i < lines)%N -> (nth 0 ptr i <= q < nth 0 ptr i.+1)%N ->
     near ((1 + u) ^+ 2) ((bmax + 1) * eta) ((fun i q => `|alpha| * (`|data`_q| * `|b`_i|)) i q)
       ((fun i q => alpha * (data`_q * b`_i)) i q) (t i q).
  { move=> Hi _. have N1 := near_fl (alpha * data`_q) Hfl.
    have := near_round Hfl (near_scale b`_i N1). rewrite ![b`_i * _]mulrC -expr2.
    rewrite -/(t i q) normrM => N2. rewrite [`|alpha| * _]mulrA [alpha * _]mulrA.
    rewrite [_ * `|b`_i|]mulrC. apply: near_mono N2 _ _ => //.
    rewrite mulrDl mul1r ler_add2r ler_wpmul2r //. exact: Hmax. }
  have Hc0 k : (k < width)%N -> near ((1 + u) ^+ 2) 0 `|c`_k| c`_k c`_k.
  { move=> Hk. apply: near_mono (near_refl _) _ _ => //. exact: ge1. }
  have [c' E [Hs Hrest Hn]] := scatter_lines_near Hbody Hf Hix Hc Ht Hc0.
  exists c'; split => // k. have := near_within (Hn k (ltn_ord k)).
  rewrite !mxE /scatter_plus_growth /scatter_plus_slack /magnitude /scattered.
  have -> : (bmax + 1) * eta + eta = (bmax + 2%:R) * eta.
  { by rewrite -{2}[eta]mul1r -mulrDl -addrA. }
  rewrite !mulr_sumr.
  have -> // : \sum_(0 <= i < lines) \sum_(nth 0%N ptr i <= q < nth 0%N ptr i.+1 | nth 0%N idx q == k)
     `|alpha| * (`|data`_q| * `|b`_i|) = \sum_(0 <= i < lines) `|alpha| *
      \sum_(nth 0%N ptr i <= q < nth 0%N ptr i.+1 | nth 0%N idx q == k)
      1 * (absarray data)`_q * (absarray b)`_i.
  { apply: eq_bigr => i _. rewrite mulr_sumr. apply: eq_bigr => q _. by rewrite !nth_abs mul1r. }
  have -> // : \sum_(0 <= i < lines) \sum_(nth 0%N ptr i <= q < nth 0%N ptr i.+1 | nth 0%N idx q == k)
     alpha * (data`_q * b`_i) = \sum_(0 <= i < lines) alpha *
      \sum_(nth 0%N ptr i <= q < nth 0%N ptr i.+1 | nth 0%N idx q == k) 1 * data`_q * b`_i.
  { apply: eq_bigr => i _. rewrite mulr_sumr. apply: eq_bigr => q _. by rewrite mul1r. }
Qed.

Lemma csr_transposed_matvec_near data idx ptr b m n c :
  compressed_ok m n data idx ptr -> (m <= size b)%N -> (n <= size c)%N ->
  writes_within c (scatter_growth u m idx ptr) (scatter_slack eta m idx ptr)
    ((csr_matrix m n (absarray data) idx ptr)^T *m absmx (vec m b))
    ((csr_matrix m n data idx ptr)^T *m vec m b)
    (RoundModel.csr_transposed_matvec fl data idx ptr b m n c).
Proof.
  move=> Hok Hb Hc. rewrite -vec_abs -[_ *m vec m b]scale1r -[_ *m vec m (_ b)]scale1r -!csr_scattered.
  exact: scatter_all_near.
Qed.

Lemma csc_matvec_near data idx ptr b m n c :
  compressed_ok n m data idx ptr -> (n <= size b)%N -> (m <= size c)%N ->
  writes_within c (scatter_growth u n idx ptr) (scatter_slack eta n idx ptr)
    (csc_matrix m n (absarray data) idx ptr *m absmx (vec n b))
    (csc_matrix m n data idx ptr *m vec n b)
    (RoundModel.csc_matvec fl data idx ptr b m n c).
Proof.
  move=> Hok Hb Hc. rewrite -vec_abs -[_ *m vec n b]scale1r -[_ *m vec n (_ b)]scale1r -!csc_scattered.
  exact: scatter_all_near.
Qed.

Lemma scatter_untouched bmax n idx ptr width c (s v : 'cV[F]_width) : 0 <= bmax ->
  writes_within c (scatter_plus_growth u n idx ptr) (scatter_plus_slack eta bmax n idx ptr)
    (absmx (vec width c) + `|0 : F| *: s) (vec width c + 0 *: v) (Some c).
Proof.
  move=> Hm. apply: (@untouched_near _ width c) => i _; first exact: ge1.
  rewrite /scatter_plus_slack. apply: mulr_ge0; first exact: ler0n.
  apply: mulr_ge0 => //. by rewrite addr_ge0 // ler0n.
Qed.

Lemma csr_transposed_matvec_plus_near data idx ptr b alpha bmax m n c :
  compressed_ok m n data idx ptr -> (m <= size b)%N -> (n <= size c)%N ->
  0 <= bmax -> (forall i, (i < m)%N -> `|b`_i| <= bmax) ->
  writes_within c (scatter_plus_growth u m idx ptr) (scatter_plus_slack eta bmax m idx ptr)
    (absmx (vec n c) + `|alpha| *: ((csr_matrix m n (absarray data) idx ptr)^T *m absmx (vec m b)))
    (vec n c + alpha *: ((csr_matrix m n data idx ptr)^T *m vec m b))
    (RoundModel.csr_transposed_matvec_plus fl data idx ptr b alpha m c).
Proof.
  move=> Hok Hb Hc H0 Hmax. rewrite /RoundModel.csr_transposed_matvec_plus. case: eqP => [->|_].
  { exact: scatter_untouched. }
  rewrite -(vec_abs m b) -[_ *m vec m b]scale1r -[_ *m vec m (absarray b)]scale1r.
  rewrite -[1 *: (_ *m vec m b)]csr_scattered -[1 *: _]csr_scattered.
  exact: scatter_scaled_near.
Qed.

Lemma csc_matvec_plus_near data idx ptr b alpha bmax m n c :
  compressed_ok n m data idx ptr -> (n <= size b)%N -> (m <= size c)%N ->
  0 <= bmax -> (forall i, (i < n)%N -> `|b`_i| <= bmax) ->
  writes_within c (scatter_plus_growth u n idx ptr) (scatter_plus_slack eta bmax n idx ptr)
    (absmx (vec m c) + `|alpha| *: (csc_matrix m n (absarray data) idx ptr *m absmx (vec n b)))
    (vec m c + alpha *: (csc_matrix m n data idx ptr *m vec n b))
    (RoundModel.csc_matvec_plus fl data idx ptr b alpha n c).
Proof.
  move=> Hok Hb Hc H0 Hmax. rewrite /RoundModel.csc_matvec_plus. case: eqP => [->|_].
  { exact: scatter_untouched. }
  rewrite -(vec_abs n b) -[_ *m vec n b]scale1r -[_ *m vec n (absarray b)]scale1r.
  rewrite -[1 *: (_ *m vec n b)]csc_scattered -[1 *: _]csc_scattered.
  exact: scatter_scaled_near.
Qed.

End Scatter.

Section Roots.
Variable F : rcfType.
Implicit Types (u eta P h e N w r : F).

Lemma near_sqrt P h N w : 0 <= N -> near P h (N ^+ 2) (N ^+ 2) w ->
  `|Num.sqrt w - N| <= (P - 1) * N + Num.sqrt (P * h).
Proof.
  move=> HN H. have Hw := near_abs H. case: H => HP Hh _ Hwv.
  have HP0 : 0 <= P by apply: le_trans HP.
  have HPh : 0 <= P * h by apply: mulr_ge0.
  set e := Num.sqrt (P * h). have He : 0 <= e by apply: sqrtr_ge0.
  have Ee : e ^+ 2 = P * h by rewrite sqr_sqrtr.
  set r := Num.sqrt w. have Hr : 0 <= r by apply: sqrtr_ge0.
  have Hr2 : r ^+ 2 <= `|w| /\ w <= r ^+ 2.
  { rewrite /r. case: (lerP 0 w) => H0; first by rewrite sqr_sqrtr // ger0_norm.
    by rewrite ltr0_sqrtr // expr0n /= normr_ge0 ltW. }
  case: Hr2 => Hr1 Hr2.
  rewrite ler_distl; apply/andP; split.
  - case: (lerP 0 (2%:R - P)) => HP2; last first.
    { apply: le_trans Hr. rewrite opprD addrA mulrBl mul1r opprB addrA subr_le0.
      apply: le_trans He. rewrite -mulr2n -mulr_natl -mulrBl. rewrite mulr_le0_ge0 // ltW //. }
    have Hsq : (2%:R - P) * N <= r + e.
    { rewrite -(@ler_pexpn2r _ 2) ?nnegrE ?addr_ge0 ?mulr_ge0 // exprMn [(r + e) ^+ 2]sqrrD Ee.
      apply: le_trans (_ : (2%:R - P) * N ^+ 2 <= _).
      { rewrite ler_wpmul2r ?exprn_ge0 // expr2 -[X in _ <= X]mulr1 ler_wpmul2l //.
        by rewrite ler_subl_addr -{1}[2%:R]/(1 + 1) ler_add2l. }
      apply: le_trans (_ : w + P * h <= _).
      { move: Hwv. rewrite /within ler_distl => /andP [Hlo _].
        rewrite -ler_subl_addr. apply: le_trans Hlo. rewrite opprD addrA ler_add2r.
        by rewrite [(P - 1) * _]mulrBl mul1r opprB addrA -mulr2n -[N ^+ 2 *+ 2]mulr_natl -mulrBl. }
      rewrite -addrA. rewrite [r * e *+ 2 + _]addrC addrA.
      apply: le_trans (_ : r ^+ 2 + P * h <= _); first by rewrite ler_add2r.
      by rewrite ler_addl mulrn_wge0 // mulr_ge0. }
    move: Hsq. rewrite -ler_subl_addr. apply: le_trans.
    by rewrite opprD addrA ler_add2r [(P - 1) * N]mulrBl mul1r opprB addrA -mulr2n -[N *+ 2]mulr_natl -mulrBl.
  - rewrite addrA [N + _]addrC mulrBl mul1r subrK.
    rewrite -(@ler_pexpn2r _ 2) ?nnegrE ?addr_ge0 ?mulr_ge0 // sqrrD Ee.
    apply: le_trans Hr1 _. apply: le_trans Hw _.
    rewrite ler_add2r exprMn. apply: le_trans (_ : P ^+ 2 * N ^+ 2 <= _).
    { rewrite ler_wpmul2r ?exprn_ge0 // expr2 -{1}[P]mulr1 ler_wpmul2l //. }
    by rewrite ler_addl mulrn_wge0 // !mulr_ge0.
Qed.

Lemma round_more fl u eta P N e w : rounds fl u eta -> 0 <= N ->
  `|w - N| <= (P - 1) * N + e -> `|fl w - N| <= (P * (1 + u) - 1) * N + ((1 + u) * e + eta).
Proof.
  case=> Hu He Hfl HN Hw.
  have Hww : `|w| <= P * N + e.
  { have : `|w| <= `|w - N| + `|N| by rewrite -{1}(subrK N w) ler_norm_add.
    move/le_trans; apply. rewrite (ger0_norm HN). apply: le_trans (_ : (P - 1) * N + e + N <= _).
    - by rewrite ler_add2r.
    - by rewrite mulrBl mul1r addrAC subrK. }
  have -> : fl w - N = (fl w - w) + (w - N) by rewrite addrA subrK.
  apply: le_trans (ler_norm_add _ _) _. apply: le_trans (ler_add (Hfl w) Hw) _.
  apply: le_trans (_ : u * (P * N + e) + eta + ((P - 1) * N + e) <= _).
  { by rewrite ler_add2r ler_add2r ler_wpmul2l. }
  rewrite le_eqVlt; apply/orP; left; apply/eqP.
  have -> : P * (1 + u) = P + u * P by rewrite mulrDr mulr1 mulrC.
  rewrite !mulrDr !mulrDl !mul1r !mulN1r mulrA.
  by rewrite [LHS](AC ((2*1)*(2*1))%AC (((4*1)*5)*((6*2)*3))%AC).
Qed.

End Roots.

Section Vectors.
Variable F : rcfType.
Variables fl fll flq : F -> F.
Variables u eta ul etal uq etaq : F.
Hypothesis Hfl : rounds fl u eta.
Hypothesis Hfll : rounds fll ul etal.
Hypothesis Hflq : rounds flq uq etaq.
Implicit Types x y : seq F.

Let Hu : 0 <= u. Proof. by case: Hfl. Qed.
Let He : 0 <= eta. Proof. by case: Hfl. Qed.

Lemma reduce_near x y n : (n <= size x)%N -> (n <= size y)%N ->
  exists2 s, RoundModel.reduce fl fll x y n = Some s &
    near (dense_Q u ul n true) (dense_h eta etal n true)
      (\sum_(i < n) `|x`_i| * `|y`_i|) (\sum_(i < n) x`_i * y`_i) s.
Proof.
  move=> Hx Hy. rewrite -(big_mkord xpredT (fun i => x`_i * y`_i)).
  rewrite -(big_mkord xpredT (fun i => `|x`_i| * `|y`_i|)).
  apply: (@unrolled_near _ _ _ _ _ _ _ Hfl Hfll x y id (fun j k => (j + k)%N)) => //.
  move=> j Hj. exact: leq_trans Hx.
Qed.

Lemma inner_product_near x y n : (n <= size x)%N -> (n <= size y)%N ->
  exists2 s, RoundModel.inner_product fl fll x y n = Some s &
    near (unrolled_growth u ul n) (unrolled_slack eta etal n)
      (\sum_(i < n) `|x`_i| * `|y`_i|) (\sum_(i < n) x`_i * y`_i) s.
Proof.
  move=> Hx Hy. rewrite /RoundModel.inner_product. have [s -> N] := reduce_near Hx Hy.
  rewrite /=. eexists; first reflexivity. have := near_round Hfl N.
  by rewrite -dense_growthE -dense_slackE.
Qed.

Lemma norm_near x n : (n <= size x)%N ->
  exists2 r, RoundModel.euclidean_norm fl fll flq x n = Some r &
    `|r - length n x| <= (norm_growth u ul uq n - 1) * length n x
                         + norm_slack u ul uq eta etal etaq n.
Proof.
  move=> Hx. rewrite /RoundModel.euclidean_norm. have [s -> N] := reduce_near Hx Hx.
  rewrite /=. eexists; first reflexivity.
  have := near_round Hflq (near_round Hfl N).
  rewrite -dense_growthE -dense_slackE.
  have Hs2 : \sum_(i < n) x`_i * x`_i = length n x ^+ 2.
  { rewrite sqr_sqrtr; last by apply: sumr_ge0 => i _; exact: sqr_ge0.
    by apply: eq_bigr => i _; rewrite expr2. }
  have -> : \sum_(i < n) `|x`_i| * `|x`_i| = length n x ^+ 2.
  { rewrite -Hs2. apply: eq_bigr => i _. by rewrite -normrM -expr2 ger0_norm // sqr_ge0. }
  rewrite Hs2 => /(near_sqrt (sqrtr_ge0 _)) H.
  have := round_more Hfl (sqrtr_ge0 _) (round_more Hflq (sqrtr_ge0 _) H).
  by rewrite /norm_growth /norm_slack expr2 !mulrA.
Qed.

Lemma copy_scaled_near x n a y : (n <= size x)%N -> (n <= size y)%N ->
  writes_within y (fun=> 1 + u) (fun=> eta) (`|a| *: absmx (vec n x)) (a *: vec n x)
    (RoundModel.copy_scaled_vector fl x n a y).
Proof.
  move=> Hx Hy.
  apply: (@update_loop_near F (fun i => rd x i) (fun _ v => fl (a * v)) n y) => //.
  - move=> i c' Hi Hs. rewrite [rd c' i](rdE 0); last by rewrite Hs; exact: leq_trans Hy. by [].
  - move=> i. exists x`_i; first by rewrite (rdE 0) //; exact: leq_trans Hx.
    rewrite !mxE -normrM. exact: near_within (near_fl _ Hfl).
Qed.

Lemma subtract_scaled_near x n a y : (n <= size x)%N -> (n <= size y)%N ->
  writes_within y (fun=> (1 + u) ^+ 2) (fun=> 2%:R * eta)
    (absmx (vec n y) + `|a| *: absmx (vec n x)) (vec n y - a *: vec n x)
    (RoundModel.subtract_scaled_vector fl x n a y).
Proof.
  move=> Hx Hy. rewrite /RoundModel.subtract_scaled_vector. case: eqP => [->|_].
  { rewrite -scaleNr oppr0. apply: untouched_near => i _; first exact: ge1.
    by rewrite mulr_ge0 ?ler0n. }
  apply: (@update_loop_near F (fun i => rd x i) (fun w v => fl (w - fl (a * v))) n y) => //.
  move=> i. exists x`_i; first by rewrite (rdE 0) //; exact: leq_trans Hx.
  rewrite !mxE -normrM.
  have N1 := near_opp (near_fl (a * x`_i) Hfl).
  have N2 : near (1 + u) 0 `|y`_i| y`_i y`_i.
  { apply: near_mono (near_refl _) _ _ => //. by rewrite ler_addl. }
  have := near_within (near_round Hfl (near_add N2 N1)).
  by rewrite add0r -expr2 mulr_natl mulr2n.
Qed.

(** Division by a number other than zero. *)
Lemma divide_near x n r : (n <= size x)%N -> 
  exists x', [/\ for_ 0 n 1 (fun i x => do a <- rd x i; wr x i (fl (a / r))) x = Some x',
    size x' = size x, (forall i, (i < n)%N -> x'`_i = fl (x`_i / r)) &
    forall k, (n <= k)%N -> x'`_k = x`_k].
Proof.
  move=> Hx.
  have Hb : forall i c', (i < n)%N -> size c' = size x ->
      (do a <- rd c' i; wr c' i (fl (a / r))) = wr c' i ((fun _ v => fl (v / r)) i c'`_i).
  { move=> i c' Hi Hs. by rewrite (rdE 0) //= Hs; apply: leq_trans Hx. }
  have [c' E [Hs Hc]] := write_loop (v := fun _ v => fl (v / r)) Hx Hb.
  exists c'; split => //.
  + move=> i Hi. by rewrite Hc Hi.
  + move=> k Hk. by rewrite Hc ltnNge Hk.
Qed.

Lemma divide_copy_near x y n r : (n <= size x)%N -> (n <= size y)%N ->
  exists y', [/\ for_ 0 n 1 (fun i y => do a <- rd x i; wr y i (fl (a / r))) y = Some y',
    size y' = size y, (forall i, (i < n)%N -> y'`_i = fl (x`_i / r)) &
    forall k, (n <= k)%N -> y'`_k = y`_k].
Proof.
  move=> Hx Hy.
  have Hb : forall i c', (i < n)%N -> size c' = size y ->
      (do a <- rd x i; wr c' i (fl (a / r))) = wr c' i ((fun i _ => fl (x`_i / r)) i c'`_i).
  { move=> i c' Hi Hs. by rewrite (rdE 0 (leq_trans Hi Hx)). }
  have [c' E [Hs Hc]] := write_loop (v := fun i _ => fl (x`_i / r)) Hy Hb.
  exists c'; split => //.
  + move=> i Hi. by rewrite Hc Hi.
  + move=> k Hk. by rewrite Hc ltnNge Hk.
Qed.

(** Lengths of vectors whose entries are proportional up to a bound. *)
Lemma length_scale_le (f : nat -> F) x n a : 0 <= a ->
  (forall i, (i < n)%N -> `|f i| <= a * `|x`_i|) ->
  Num.sqrt (\sum_(i < n) f i ^+ 2) <= a * length n x.
Proof.
  move=> Ha H. have -> : a * length n x = Num.sqrt (\sum_(i < n) (a * `|x`_i|) ^+ 2).
  { rewrite /length -[in LHS](ger0_norm Ha) -sqrtr_sqr -sqrtrM ?sqr_ge0 // mulr_sumr.
    congr (Num.sqrt _). apply: eq_bigr => i _. by rewrite exprMn real_normK // num_real. }
  apply: ler_wsqrtr. apply: ler_sum => i _. rewrite -real_normK ?num_real //.
  apply: ler_expn2r; rewrite ?nnegrE ?normr_ge0 ?mulr_ge0 //. exact: H.
Qed.

Lemma length_scale_ge (f : nat -> F) x n a : 0 <= a ->
  (forall i, (i < n)%N -> a * `|x`_i| <= `|f i|) ->
  a * length n x <= Num.sqrt (\sum_(i < n) f i ^+ 2).
Proof.
  move=> Ha H. have -> : a * length n x = Num.sqrt (\sum_(i < n) (a * `|x`_i|) ^+ 2).
  { rewrite /length -[in LHS](ger0_norm Ha) -sqrtr_sqr -sqrtrM ?sqr_ge0 // mulr_sumr.
    congr (Num.sqrt _). apply: eq_bigr => i _. by rewrite exprMn real_normK // num_real. }
  apply: ler_wsqrtr. apply: ler_sum => i _. rewrite -[f i ^+ 2]real_normK ?num_real //.
  apply: ler_expn2r; rewrite ?nnegrE ?normr_ge0 ?mulr_ge0 //. exact: H.
Qed.

End Vectors.

Section Unit.
Variable F : rcfType.
Variables fl fll flq : F -> F.
Variables u ul uq : F.
Hypothesis Hfl : rounds fl u 0.
Hypothesis Hfll : rounds fll ul 0.
Hypothesis Hflq : rounds flq uq 0.
Implicit Types x y : seq F.

Let Hu : 0 <= u. Proof. by case: Hfl. Qed.

Lemma norm_unit x n : (n <= size x)%N -> exists2 r, RoundModel.euclidean_norm fl fll flq x n = Some r &
  (2%:R - norm_growth u ul uq n) * length n x <= r <= norm_growth u ul uq n * length n x.
Proof.
  move=> Hx. have [r -> H] := norm_near Hfl Hfll Hflq Hx. exists r => //. move: H.
  rewrite /norm_slack /unrolled_slack !mulr0 !addr0 !mulr0 sqrtr0 !mulr0 !addr0.
  rewrite ler_distl. set P := norm_growth _ _ _ _. set L := length n x.
  have -> : L - (P - 1) * L = (2%:R - P) * L.
  { by rewrite -[X in X - _]mul1r -mulrBl opprB addrA. }
  have -> // : L + (P - 1) * L = P * L.
  by rewrite -[X in X + _]mul1r -mulrDl addrC subrK.
Qed.

Lemma unit_length x y n r : (norm_growth u ul uq n < 2%:R) -> 0 < length n x ->
  (2%:R - norm_growth u ul uq n) * length n x <= r <= norm_growth u ul uq n * length n x ->
  (forall i, (i < n)%N -> y`_i = fl (x`_i / r)) ->
  1 - u <= norm_growth u ul uq n * length n y /\ (2%:R - norm_growth u ul uq n) * length n y <= 1 + u.
Proof.
  set P := norm_growth _ _ _ _. set L := length n x. move=> HP HL /andP [H1 H2] Hy.
  have HP2 : 0 < 2%:R - P by rewrite subr_gt0.
  have Hr : 0 < r by apply: lt_le_trans H1; rewrite mulr_gt0.
  have Hd i : (i < n)%N -> `|y`_i - x`_i / r| <= u * (`|x`_i| / r).
  { move=> Hi. rewrite Hy //. case: Hfl => _ _ /(_ (x`_i / r)). by rewrite addr0 normrM normfV (gtr0_norm Hr). }
  have Hup : length n y <= (1 + u) / r * L.
  { apply: (@length_scale_le F (fun i => y`_i)); first exact: divr_ge0 (addr_ge0 ler01 Hu) (ltW Hr).
    move=> i Hi. have := Hd i Hi. have -> : (1 + u) / r * `|x`_i| = u * (`|x`_i| / r) + `|x`_i / r|.
    { by rewrite normrM normfV (gtr0_norm Hr) mulrAC mulrDl mul1r addrC mulrDl mulrA. }
    rewrite -ler_subl_addr. apply: le_trans. exact: ler_sub_dist. }
  have Hlo : u <= 1 -> (1 - u) / r * L <= length n y.
  { move=> Hu1. apply: (@length_scale_ge F (fun i => y`_i)); first by apply: divr_ge0 (ltW Hr); rewrite subr_ge0.
    move=> i Hi. have := Hd i Hi. have -> : (1 - u) / r * `|x`_i| = `|x`_i / r| - u * (`|x`_i| / r).
    { by rewrite normrM normfV (gtr0_norm Hr) mulrAC mulrBl mul1r mulrBl mulrA. }
    rewrite ler_subl_addl -ler_subl_addr => H. apply: le_trans H. rewrite distrC. exact: ler_sub_dist. }
  have AA X Y Z : X * (Y * Z * L) = Y * (X * L * Z) by rewrite -[Y * Z * L]mulrA mulrCA [Z * L]mulrC !mulrA.
  have HP0 : 0 < P. { rewrite -(@pmulr_lgt0 _ L) //. exact: lt_le_trans H2. }
  split.
  - case: (leP u 1) => Hu1; last first.
    { apply: le_trans (_ : 0 <= _); first by rewrite subr_le0 ltW.
      by rewrite mulr_ge0 ?sqrtr_ge0 ?(ltW HP0). }
    apply: le_trans (_ : P * ((1 - u) / r * L) <= _); last by rewrite ler_pmul2l //; exact: Hlo.
    have -> : P * ((1 - u) / r * L) = (1 - u) * ((P * L) / r).
    { by rewrite AA. }
    rewrite ler_pemulr ?subr_ge0 //. by rewrite ler_pdivl_mulr // mul1r.
  - apply: le_trans (_ : (2%:R - P) * ((1 + u) / r * L) <= _); first by rewrite ler_pmul2l.
    have -> : (2%:R - P) * ((1 + u) / r * L) = (1 + u) * (((2%:R - P) * L) / r).
    { by rewrite AA. }
    apply: ler_pimulr; first exact: addr_ge0 ler01 Hu. by rewrite ler_pdivr_mulr // mul1r.
Qed.

End Unit.

(** Integers whose sums stay below the limit are not rounded at all. *)
Section Exact.
Variable F : rcfType.
Variables fl fll : F -> F.
Variable M : nat.
Hypothesis Kfl : keeps_integers fl M.
Hypothesis Kfll : keeps_integers fll M.
Implicit Types (A b c data : seq F) (idx ptr : seq nat).

Definition isint (v : F) : Prop := exists z : int, v = z%:~R.

Lemma isint_add v w : isint v -> isint w -> isint (v + w).
Proof. move=> [z ->] [z' ->]. exists (z + z'). by rewrite rmorphD. Qed.

Lemma isint_mul v w : isint v -> isint w -> isint (v * w).
Proof. move=> [z ->] [z' ->]. exists (z * z'). by rewrite rmorphM. Qed.

Lemma isint0 : isint 0.
Proof. by exists 0. Qed.

Lemma isint_sum (I : Type) (r : seq I) (P : pred I) (f : I -> F) :
  (forall i, isint (f i)) -> isint (\sum_(i <- r | P i) f i).
Proof. move=> H. apply: (big_ind isint) => //; [exact: isint0|exact: isint_add]. Qed.

Lemma keepE fl' v : keeps_integers fl' M -> isint v -> `|v| <= M%:R -> fl' v = v.
Proof.
  move=> K [z ->]. rewrite -intr_norm -[M%:R]/((M : int)%:~R) ler_int => Hz. apply: K. lia.
Qed.

Lemma sum_widen (f : nat -> F) (p : pred nat) lo k hi : (lo <= k)%N -> (k <= hi)%N ->
  (forall j, 0 <= f j) -> \sum_(lo <= j < k | p j) f j <= \sum_(lo <= j < hi | p j) f j.
Proof.
  move=> H1 H2 Hf. rewrite [X in _ <= X](big_cat_nat _ _ _ H1 H2) /= ler_addl.
  exact: sumr_ge0.
Qed.

Lemma sum_one (f : nat -> F) (p : pred nat) lo j hi : (lo <= j < hi)%N -> p j ->
  (forall j, 0 <= f j) -> f j <= \sum_(lo <= j < hi | p j) f j.
Proof.
  move=> /andP [H1 H2] Hp Hf. apply: le_trans (sum_widen p (leqW H1) H2 Hf).
  rewrite big_mkcond big_nat_recr //= Hp ler_addr. by apply: sumr_ge0 => i _; case: ifP.
Qed.

Section Line.
Variables (A b : seq F) (ia ib : nat -> nat).
Hypothesis IA : integers A.
Hypothesis Ib : integers b.

Let tm j : F := A`_(ia j) * b`_(ib j).

Let tm_int j : isint (tm j). Proof. apply: isint_mul; [exact: IA|exact: Ib]. Qed.

Lemma partial_le lo lo' hi' hi : (lo <= lo')%N -> (lo' <= hi')%N -> (hi' <= hi)%N ->
  `|\sum_(lo' <= j < hi') tm j| <= pabs A b ia ib lo hi.
Proof.
  move=> H1 H2 H3. apply: le_trans (ler_norm_sum _ _ _) _.
  have H : \sum_(lo' <= j < hi') `|tm j| <= \sum_(lo <= j < hi') `|tm j|.
  { rewrite [X in _ <= X](big_cat_nat _ _ _ H1 H2) /= ler_addr. exact: sumr_ge0. }
  apply: le_trans H _. rewrite /pabs.
  have -> : \sum_(lo <= j < hi') `|tm j| = \sum_(lo <= j < hi') `|A`_(ia j)| * `|b`_(ib j)|.
  { apply: eq_bigr => j _. by rewrite normrM. }
  apply: sum_widen => //; first exact: leq_trans H2. move=> j. exact: mulr_ge0.
Qed.

Lemma fl_partial fl' lo lo' hi' hi : keeps_integers fl' M -> pabs A b ia ib lo hi <= M%:R ->
  (lo <= lo')%N -> (lo' <= hi')%N -> (hi' <= hi)%N ->
  fl' (\sum_(lo' <= j < hi') tm j) = \sum_(lo' <= j < hi') tm j.
Proof.
  move=> K Hs H1 H2 H3. apply: keepE => //; first exact: isint_sum.
  exact: le_trans (partial_le H1 H2 H3) Hs.
Qed.

Lemma term_exact lo hi j : pabs A b ia ib lo hi <= M%:R -> (lo <= j < hi)%N ->
  (ia j < size A)%N -> (ib j < size b)%N ->
  RoundModel.term fl A (ia j) b (ib j) = Some (tm j).
Proof.
  move=> Hs /andP [H1 H2] HA Hb. rewrite /RoundModel.term (rdE 0 HA) /= (rdE 0 Hb) /=.
  have := fl_partial Kfl Hs H1 (leqnSn j) H2. by rewrite big_nat1 => ->.
Qed.

Lemma add_term_exact lo hi j : pabs A b ia ib lo hi <= M%:R -> (lo <= j < hi)%N ->
  (ia j < size A)%N -> (ib j < size b)%N ->
  RoundModel.add_term fl fll A (ia j) b (ib j) (\sum_(lo <= j < j) tm j)
  = Some (\sum_(lo <= j < j.+1) tm j).
Proof.
  move=> Hs Hj HA Hb. have [H1 H2] := andP Hj.
  rewrite /RoundModel.add_term (term_exact Hs Hj HA Hb) /=.
  rewrite -(big_nat_recr _ _ _ H1) (fl_partial Kfll Hs (leqnn _)) //. exact: leq_trans (leqnSn _).
Qed.

Lemma plain_exact lo hi : pabs A b ia ib lo hi <= M%:R ->
  (forall j, (lo <= j < hi)%N -> (ia j < size A)%N) ->
  (forall j, (lo <= j < hi)%N -> (ib j < size b)%N) ->
  for_ lo hi 1 (fun j sum => RoundModel.add_term fl fll A (ia j) b (ib j) sum) 0
  = Some (\sum_(lo <= j < hi) tm j).
Proof.
  move=> Hs HA Hb.
  case: (leqP hi lo) => Hle; first by rewrite for_empty // big_geq.
  pose I k (s : F) := s = \sum_(lo <= j < k) tm j.
  have [s' -> ->] : exists2 s', for_ lo hi 1 (fun j sum => RoundModel.add_term fl fll A (ia j) b (ib j) sum) 0 = Some s'
      & I hi s'; last by [].
  apply: for1_inv; [exact: ltnW|by rewrite /I big_geq|].
  move=> k s' Hk ->. rewrite (add_term_exact Hs Hk (HA _ Hk) (Hb _ Hk)).
  by eexists; first reflexivity.
Qed.

End Line.

Lemma unrolled_exact A b (ia : nat -> nat) (ia5 : nat -> nat -> nat) n :
  integers A -> integers b -> pabs A b ia id 0 n <= M%:R ->
  (n <= size b)%N -> (forall j, (j < n)%N -> (ia j < size A)%N) ->
  (forall j k, ia5 j k = ia (j + k)%N) ->
  let chunked := (n - n %% 5)%N in
  (do sum <- for_ 0 chunked 5 (fun j sum => RoundModel.five fl fll A (ia5 j) b j sum) 0;
   for_ chunked n 1 (fun j sum => RoundModel.add_term fl fll A (ia j) b j sum) sum)
  = Some (\sum_(0 <= j < n) A`_(ia j) * b`_j).
Proof.
  move=> IA Ib HS Hb HA Hia chunked.
  have Hc : (chunked <= n)%N by apply: leq_subr.
  have Hd : (5 %| chunked - 0)%N.
  { rewrite subn0 /chunked {1}(divn_eq n 5) addnK. exact: dvdn_mull. }
  pose I k (s : F) := s = \sum_(0 <= j < k) A`_(ia j) * b`_j.
  have [s -> Hs] : exists2 s, for_ 0 chunked 5 (fun j sum => RoundModel.five fl fll A (ia5 j) b j sum) 0 = Some s
      & I chunked s.
  { apply: for_inv => //; first by rewrite /I big_geq.
    move=> k s _ Hk ->.
    have Hkn : (k + 5 <= n)%N by apply: leq_trans Hc.
    have Hlt : forall d, (d < 5)%N -> (k + d < n)%N.
    { move=> d Hd5. apply: leq_trans Hkn. by rewrite -addnS leq_add2l. }
    have H : forall d, (d < 5)%N -> RoundModel.term fl A (ia5 k d) b (k + d)%N
        = Some (A`_(ia (k + d)%N) * b`_(k + d)).
    { move=> d Hd5. rewrite Hia.
      apply: (term_exact (ia := ia) (ib := id) IA Ib HS); rewrite ?leq0n ?Hlt //; first exact: HA (Hlt _ Hd5).
      exact: leq_trans (Hlt _ Hd5) Hb. }
    rewrite /RoundModel.five. have := H 0%N isT. rewrite addn0 => -> /=.
    rewrite !H //=. eexists; first reflexivity.
    have P d : (d <= 5)%N -> fl (\sum_(k <= j < k + d) A`_(ia j) * b`_j) = \sum_(k <= j < k + d) A`_(ia j) * b`_j.
    { move=> Hd5. apply: (fl_partial (ib := id) IA Ib Kfl HS) => //; first exact: leq_addr.
      apply: leq_trans Hkn. by rewrite leq_add2l. }
    have Q d : (d < 5)%N -> \sum_(k <= j < k + d.+1) A`_(ia j) * b`_j =
       \sum_(k <= j < k + d) A`_(ia j) * b`_j + A`_(ia (k + d)%N) * b`_(k + d).
    { move=> _. by rewrite addnS big_nat_recr //= leq_addr. }
    have E1 : A`_(ia k) * b`_k = \sum_(k <= j < k + 1) A`_(ia j) * b`_j.
    { by rewrite addn1 big_nat1. }
    rewrite E1 -Q // P // -Q // P // -Q // P // -Q // P //.
    rewrite /I -(big_cat_nat _ _ _ (leq0n k) (leq_addr 5 k)) /=.
    exact: (fl_partial (ib := id) IA Ib Kfll HS). }
  rewrite /=.
  have [s' -> ->] : exists2 s', for_ chunked n 1 (fun j sum => RoundModel.add_term fl fll A (ia j) b j sum) s = Some s'
      & I n s'; last by [].
  apply: for1_inv => // k s' /andP [Hk1 Hk2] ->.
  rewrite (add_term_exact (ib := id) IA Ib HS) ?Hk2 //; first by eexists; first reflexivity.
  - exact: HA.
  - exact: leq_trans Hk2 Hb.
Qed.

Lemma store_exact (f : nat -> option F) n c (v : 'cV[F]_n) :
  (n <= size c)%N -> (forall i : 'I_n, f i = Some (v i 0)) -> (forall i : 'I_n, fl (v i 0) = v i 0) ->
  writes c v (for_ 0 n 1 (fun i c => do s <- f i; RoundModel.store fl c i s) c).
Proof.
  move=> Hn Hf Hv.
  have := @store_loop _ (fun i => omap fl (f i)) n c v Hn.
  have E : for_ 0 n 1 (fun i c => do s <- omap fl (f i); KernelModel.store c i s) c
         = for_ 0 n 1 (fun i c => do s <- f i; RoundModel.store fl c i s) c.
  { suff H fuel i bound c0 : loop fuel i bound 1 (fun i c => do s <- omap fl (f i); KernelModel.store c i s) c0
         = loop fuel i bound 1 (fun i c => do s <- f i; RoundModel.store fl c i s) c0 by exact: H.
    elim: fuel i c0 => [|fuel IH] i c0 //=.
    case: ifP => // _. case: (f i) => //= s. rewrite /KernelModel.store /RoundModel.store.
    case: (wr c0 i (fl s)) => //= c1. }
  rewrite E. apply => i. by rewrite Hf /= Hv.
Qed.

Lemma dense_matvec_exact A b m n rm c :
  integers A -> integers b ->
  (forall i : 'I_m, (absmx (dense_matrix m n rm A) *m absmx (vec n b)) i 0 <= M%:R) ->
  (m * n <= size A)%N -> (n <= size b)%N -> (m <= size c)%N ->
  writes c (dense_matrix m n rm A *m vec n b) (RoundModel.dense_matvec fl fll A b m n rm c).
Proof.
  move=> IA Ib HS HA Hb Hc.
  pose ia i j := if rm then (i * n + j)%N else (i + m * j)%N.
  have HS' (i : 'I_m) : pabs A b (ia i) id 0 n <= M%:R.
  { have := HS i. by rewrite -dense_absE mxE. }
  rewrite -dense_mulE. apply: store_exact => // i; last first.
  { rewrite mxE. exact: (fl_partial (ia := ia i) (ib := id) IA Ib Kfl (HS' i)). }
  rewrite mxE. move: (HS' i). rewrite /ia. clear HS HS' ia. case: rm => HS'.
  - apply: (@unrolled_exact A b (fun j => (i * n + j)%N) (fun j k => (i * n + j + k)%N)) => //.
    + move=> j Hj. apply: leq_trans HA. exact: dense_index_row.
    + move=> j k. by rewrite addnA.
  - apply: (@plain_exact A b (fun j => (i + m * j)%N) id) => //.
    + move=> j /andP [_ Hj]. apply: leq_trans HA. exact: dense_index_col.
    + move=> j /andP [_ Hj]. exact: leq_trans Hb.
Qed.

Lemma gather_exact data idx ptr b lines width i :
  integers data -> integers b -> compressed_ok lines width data idx ptr -> (width <= size b)%N -> (i < lines)%N ->
  \sum_(nth 0%N ptr i <= q < nth 0%N ptr i.+1) `|data`_q| * `|b`_(nth 0%N idx q)| <= M%:R ->
  RoundModel.gather fl fll data idx ptr b i =
  Some (\sum_(nth 0%N ptr i <= q < nth 0%N ptr i.+1) data`_q * b`_(nth 0%N idx q)).
Proof.
  move=> IA Ib [Hp Hok] Hb Hi HS. rewrite /RoundModel.gather (rdE 0%N (ltn_trans Hi Hp)) /=.
  rewrite (rdE 0%N (leq_ltn_trans Hi Hp : i.+1 < size ptr)%N) /=.
  case: (leqP (nth 0%N ptr i.+1) (nth 0%N ptr i)) => Hle.
  { by rewrite for_empty // big_geq. }
  pose I k (s : F) := s = \sum_(nth 0%N ptr i <= q < k) data`_q * b`_(nth 0%N idx q).
  set f := (fun q sum => _).
  have [s' -> ->] : exists2 s', for_ (nth 0%N ptr i) (nth 0%N ptr i.+1) 1 f 0 = Some s'
      & I (nth 0%N ptr i.+1) s'; last by [].
  apply: for1_inv; [exact: ltnW|by rewrite /I big_geq|].
  move=> k s' Hk ->. have [H1 H2 H3] := Hok i k Hi Hk.
  rewrite /f (rdE 0%N H2) /=.
  rewrite (add_term_exact (ia := id) (ib := nth 0%N idx) IA Ib HS Hk H1 (leq_trans H3 Hb)).
  by eexists; first reflexivity.
Qed.

Lemma csr_matvec_exact data idx ptr b m n c :
  integers data -> integers b ->
  (forall i : 'I_m, (csr_matrix m n (absarray data) idx ptr *m absmx (vec n b)) i 0 <= M%:R) ->
  compressed_ok m n data idx ptr -> (n <= size b)%N -> (m <= size c)%N ->
  writes c (csr_matrix m n data idx ptr *m vec n b) (RoundModel.csr_matvec fl fll data idx ptr b m c).
Proof.
  move=> IA Ib HS Hok Hb Hc. rewrite -csr_mulE //.
  have HS' (i : 'I_m) : pabs data b id (nth 0%N idx) (nth 0%N ptr i) (nth 0%N ptr i.+1) <= M%:R.
  { have := HS i. by rewrite -csr_absE // mxE. }
  apply: store_exact => // i; rewrite mxE; first exact: gather_exact IA Ib Hok Hb (ltn_ord i) (HS' i).
  case: (leqP (nth 0%N ptr i) (nth 0%N ptr i.+1)) => Hle.
  - exact: (fl_partial (ia := id) (ib := nth 0%N idx) IA Ib Kfl (HS' i)).
  - rewrite big_geq; last exact: ltnW. apply: keepE => //; [exact: isint0|by rewrite normr0 ler0n].
Qed.

Section ScatterExact.
Variables (data b : seq F) (idx ptr : seq nat) (lines : nat).
Hypothesis IA : integers data.
Hypothesis Ib : integers b.

Let T i q : F := data`_q * b`_i.
Let Tint i q : isint (T i q). Proof. apply: isint_mul; [exact: IA|exact: Ib]. Qed.

(** The sum at position k after line i' < i and the entries before e of line i. *)
Let part i e k : F :=
  \sum_(0 <= i' < i) \sum_(nth 0%N ptr i' <= q < nth 0%N ptr i'.+1 | nth 0%N idx q == k) T i' q +
  \sum_(nth 0%N ptr i <= q < e | nth 0%N idx q == k) T i q.

Lemma part_int i e k : isint (part i e k).
Proof.
  apply: isint_add; apply: isint_sum => // i'. exact: isint_sum.
Qed.

Lemma magnitudeE k : magnitude data idx ptr b lines k =
  \sum_(0 <= i < lines) \sum_(nth 0%N ptr i <= q < nth 0%N ptr i.+1 | nth 0%N idx q == k) `|T i q|.
Proof.
  rewrite /magnitude /scattered. apply: eq_bigr => i _. apply: eq_bigr => q _.
  by rewrite !nth_abs mul1r normrM.
Qed.

Lemma part_le i e k : (i < lines)%N -> (nth 0 ptr i <= e <= nth 0 ptr i.+1)%N ->
  `|part i e k| <= magnitude data idx ptr b lines k.
Proof.
  move=> Hi /andP [He1 He2]. rewrite magnitudeE /part.
  apply: le_trans (ler_norm_add _ _) _.
  have H0 i' : 0 <= \sum_(nth 0%N ptr i' <= q < nth 0%N ptr i'.+1 | nth 0%N idx q == k) `|T i' q|
    by apply: sumr_ge0.
  apply: le_trans (_ : \sum_(0 <= i' < i.+1)
     \sum_(nth 0%N ptr i' <= q < nth 0%N ptr i'.+1 | nth 0%N idx q == k) `|T i' q| <= _); last first.
  { exact: (@sum_widen _ xpredT). }
  rewrite big_nat_recr //=. apply: ler_add.
  - apply: le_trans (ler_norm_sum _ _ _) _. apply: ler_sum => i' _. exact: ler_norm_sum.
  - apply: le_trans (ler_norm_sum _ _ _) _. exact: sum_widen.
Qed.

Lemma scatter_exact width c :
  (forall k, (k < width)%N -> magnitude data idx ptr b lines k <= M%:R) ->
  compressed_ok lines width data idx ptr -> (lines <= size b)%N -> (width <= size c)%N ->
  writes c (\col_(k < width) scattered data idx ptr b 1 lines k)
    (do c <- RoundModel.zero_fill width c;
     for_ 0 lines 1 (fun i c => RoundModel.scatter fl data idx ptr b i c) c).
Proof.
  move=> HM [Hp Hok] Hb Hc.
  have [c1 E1 [Hs1 H1]] : exists2 c', RoundModel.zero_fill width c = Some c' &
    size c' = size c /\ forall k, c'`_k = if (k < width)%N then 0 else c`_k.
  { exact: (write_loop (v := fun _ _ => 0) Hc). }
  rewrite E1 /=.
  pose J i (c' : seq F) := [/\ size c' = size c, forall k, (width <= k)%N -> c'`_k = c`_k &
    forall k, (k < width)%N -> c'`_k = part i (nth 0%N ptr i) k].
  have [c' -> [Hs Hrest Hk]] : exists2 c', for_ 0 lines 1
      (fun i c => RoundModel.scatter fl data idx ptr b i c) c1 = Some c' & J lines c'; last first.
  { exists c'; split => //.
    apply/matrixP => k o. rewrite !mxE Hk // /part [X in _ + X]big_geq // addr0 /scattered.
    apply: eq_bigr => i _. apply: eq_bigr => q _. by rewrite mul1r. }
  apply: for1_inv => //.
  { split => // k Hk; rewrite H1; first by rewrite ltnNge Hk.
    by rewrite Hk /part !big_geq // addr0. }
  move=> i c' /andP [_ Hi] [Hs Hrest Hk].
  rewrite /RoundModel.scatter (rdE 0%N (ltn_trans Hi Hp)) /=.
  rewrite (rdE 0%N (leq_ltn_trans Hi Hp : i.+1 < size ptr)%N) /=.
  have Hend (c2 : seq F) e : e = nth 0%N ptr i.+1 \/ (nth 0%N ptr i.+1 <= nth 0%N ptr i)%N /\ e = nth 0%N ptr i ->
     (forall k, (k < width)%N -> c2`_k = part i e k) ->
     forall k, (k < width)%N -> c2`_k = part i.+1 (nth 0%N ptr i.+1) k.
  { move=> Hcase H k Hkw. rewrite H // /part [in RHS]big_nat_recr //= [X in _ = _ + X]big_geq // addr0.
    congr (_ + _). case: Hcase => [-> //|[Hle ->]]. by rewrite !big_geq. }
  case: (leqP (nth 0%N ptr i.+1) (nth 0%N ptr i)) => Hle.
  { exists c'; first by rewrite for_empty. split => //. apply: Hend Hk. by right. }
  pose I e (c2 : seq F) := [/\ size c2 = size c, forall k, (width <= k)%N -> c2`_k = c`_k &
    forall k, (k < width)%N -> c2`_k = part i e k].
  have [c2 E2 [Hs2 Hrest2 Hk2]] : exists2 c2, for_ (nth 0%N ptr i) (nth 0%N ptr i.+1) 1
    (fun q c => do k <- rd idx q; do t <- RoundModel.term fl data q b i; RoundModel.accumulate fl c k t) c'
    = Some c2 & I (nth 0%N ptr i.+1) c2; last first.
  { exists c2 => //. split => //. apply: Hend Hk2. by left. }
  apply: for1_inv => //; first exact: ltnW.
  move=> q c2 Hq [Hs2 Hrest2 Hk2]. have [H2 H3 H4] := Hok i q Hi Hq. have [Hq1 Hq2] := andP Hq.
  rewrite (rdE 0%N H3) /= /RoundModel.term (rdE 0 H2) /= (rdE 0 (leq_trans Hi Hb)) /=.
  have Hkc : (nth 0%N idx q < size c2)%N by rewrite Hs2; apply: leq_trans Hc.
  rewrite /RoundModel.accumulate (rdE 0 Hkc) /= Hk2 //.
  have Hstep k : part i q.+1 k = part i q k + (if nth 0%N idx q == k then T i q else 0).
  { rewrite /part -addrA. congr (_ + _).
    by rewrite [LHS]big_mkcond big_nat_recr //= -big_mkcond. }
  have Ht : fl (T i q) = T i q.
  { apply: keepE => //. apply: le_trans (HM _ H4). rewrite magnitudeE.
    pose g i' := \sum_(nth 0%N ptr i' <= q0 < nth 0%N ptr i'.+1 | nth 0%N idx q0 == nth 0%N idx q) `|T i' q0|.
    have Hg i' : 0 <= g i' by apply: sumr_ge0.
    apply: le_trans (_ : g i <= _); last by apply: (@sum_one g xpredT).
    exact: (@sum_one (fun q => `|T i q|) (fun q0 => nth 0%N idx q0 == nth 0%N idx q)). }
  rewrite -/(T i q) Ht.
  have Hw : fl (part i q (nth 0%N idx q) + T i q) = part i q.+1 (nth 0%N idx q).
  { rewrite Hstep eqxx. apply: keepE => //.
    - apply: isint_add => //. exact: part_int.
    - have := @part_le i q.+1 (nth 0%N idx q) Hi. rewrite Hstep eqxx => H.
      apply: le_trans (HM _ H4). apply: H. by rewrite Hq2 (leqW Hq1). }
  rewrite Hw. set w := part i q.+1 _.
  have E : wr c2 (nth 0%N idx q) w = Some (set_nth w c2 (nth 0%N idx q) w) by rewrite wrE.
  rewrite E. eexists; first reflexivity. split; first by rewrite (size_wr E).
  - move=> k Hwk. rewrite (nth_wr 0 k E) Hrest2 //. case: eqP => // Ek.
    by move: H4; rewrite -Ek ltnNge Hwk.
  - move=> k Hkw. rewrite (nth_wr 0 k E) Hk2 // Hstep eq_sym. case: eqP => [<-|_]; last by rewrite addr0.
    by rewrite /w Hstep eqxx.
Qed.

End ScatterExact.

Lemma csc_matvec_exact data idx ptr b m n c :
  integers data -> integers b ->
  (forall i : 'I_m, (csc_matrix m n (absarray data) idx ptr *m absmx (vec n b)) i 0 <= M%:R) ->
  compressed_ok n m data idx ptr -> (n <= size b)%N -> (m <= size c)%N ->
  writes c (csc_matrix m n data idx ptr *m vec n b) (RoundModel.csc_matvec fl data idx ptr b m n c).
Proof.
  move=> IA Ib HS Hok Hb Hc. rewrite -[_ *m vec n b]scale1r -csc_scattered.
  apply: scatter_exact => // k Hk. have := HS (Ordinal Hk).
  by rewrite -vec_abs -[_ *m vec n (_ b)]scale1r -csc_scattered mxE.
Qed.

End Exact.
