(** From bounds on resolvents to bounds on logarithms, over the real numbers. *)
From Coq Require Import Reals Lra List.
From Coquelicot Require Import Coquelicot.
Import ListNotations.
Local Open Scope R_scope.

(** The sum of w h(d) over the pairs (w, d) of a list *)
Fixpoint wsum (l : list (R * R)) (h : R -> R) : R :=
  match l with [] => 0 | (w, d) :: l' => w * h d + wsum l' h end.

Definition weights (l : list (R * R)) (lo hi : R) : Prop :=
  wsum l (fun _ => 1) = 1 /\ List.Forall (fun x => 0 <= fst x /\ lo <= snd x <= hi) l.

Lemma wsum_derive l lo hi s : 0 < lo -> 0 <= s -> List.Forall (fun x => 0 <= fst x /\ lo <= snd x <= hi) l ->
  is_derive (fun s => wsum l (fun d => ln (d + s))) s (wsum l (fun d => / (d + s))).
Proof.
intros Hlo Hs H. induction H as [|[w d] l [_ Hd] Hl IH]; simpl in *.
- exact (is_derive_const 0 s).
- apply (is_derive_plus (fun s => w * ln (d + s)) (fun s => wsum l (fun d => ln (d + s))) s); [|exact IH].
  auto_derive; [lra|]. field. lra.
Qed.

Lemma wsum_le l h h' (P : R -> Prop) : List.Forall (fun x => 0 <= fst x /\ P (snd x)) l ->
  (forall d, P d -> h d <= h' d) -> wsum l h <= wsum l h'.
Proof.
intros H Hh. induction H as [|[w d] l [Hw Hd] Hl IH]; simpl in *; [lra|].
pose proof (Rmult_le_compat_l w (h d) (h' d) Hw (Hh d Hd)). lra.
Qed.

Lemma wsum_const l c : wsum l (fun _ => c) = wsum l (fun _ => 1) * c.
Proof. induction l as [|[w d] l IH]; simpl; [ring|]. rewrite IH. ring. Qed.

Lemma ln_le_ x y : 0 < x -> x <= y -> ln x <= ln y.
Proof. intros Hx [H|H]; [left; now apply ln_increasing|right; now rewrite H]. Qed.

Lemma ln_1p x : 0 < x -> ln (1 + x) <= x.
Proof.
intros Hx. rewrite <- (ln_exp x) at 2. apply ln_le_; [lra|]. generalize (exp_ineq1 x). intros H.
assert (Hn : x <> 0) by lra. generalize (H Hn). lra.
Qed.

Lemma one_side l l' lo hi (G G' : R -> R) : 0 < lo -> lo <= hi -> weights l lo hi -> weights l' lo hi ->
  (forall s, 0 <= s -> is_derive G s (G' s)) -> (forall s, 0 <= s -> 0 <= G s) ->
  (forall s, 0 <= s -> G' s <= wsum l (fun d => / (d + s)) - wsum l' (fun d => / (d + s))) ->
  wsum l ln - wsum l' ln <= G 0.
Proof.
intros Hlo Hhi [S1 W1] [S2 W2] HG HG0 Hb.
set (F := fun s => wsum l (fun d => ln (d + s)) - wsum l' (fun d => ln (d + s))).
assert (HF0 : F 0 = wsum l ln - wsum l' ln).
{ assert (E : forall k, wsum k (fun d => ln (d + 0)) = wsum k ln).
  { induction k as [|[w d] k IH]; simpl; [reflexivity|]. now rewrite IH, Rplus_0_r. }
  unfold F. now rewrite !E. }
rewrite <- HF0.
assert (HH : forall s, 0 < s -> F 0 - G 0 <= hi / s).
{ intros s Hs.
  destruct (MVT_cor2 (fun s => F s - G s) (fun s => wsum l (fun d => / (d + s)) - wsum l' (fun d => / (d + s)) - G' s) 0 s Hs)
    as [c [Hc1 Hc2]].
  { intros c Hc. apply is_derive_Reals.
    apply (is_derive_minus F G); [|now apply HG].
    apply (is_derive_minus (fun s => wsum l (fun d => ln (d + s))) (fun s => wsum l' (fun d => ln (d + s))));
      apply wsum_derive with (lo := lo) (hi := hi); trivial; lra. }
  assert (Hc3 : 0 <= (wsum l (fun d => / (d + c)) - wsum l' (fun d => / (d + c)) - G' c) * (s - 0)).
  { apply Rmult_le_pos; [|lra]. assert (Hc0 : 0 <= c) by lra. generalize (Hb c Hc0). lra. }
  assert (Hs0 : 0 <= s) by lra. generalize (HG0 s Hs0). intros HGs.
  assert (U : wsum l (fun d => ln (d + s)) <= ln (hi + s)).
  { apply Rle_trans with (wsum l (fun _ => ln (hi + s))); [|rewrite wsum_const, S1; lra].
    apply wsum_le with (P := fun d => lo <= d <= hi); [exact W1|]. intros d Hd. apply ln_le_; lra. }
  assert (L : ln s <= wsum l' (fun d => ln (d + s))).
  { apply Rle_trans with (wsum l' (fun _ => ln s)); [rewrite wsum_const, S2; lra|].
    apply wsum_le with (P := fun d => lo <= d <= hi); [exact W2|]. intros d Hd. apply ln_le_; lra. }
  assert (Q : ln (hi + s) = ln (1 + hi / s) + ln s).
  { rewrite <- ln_mult; [f_equal; field; lra| |lra].
    assert (0 < hi / s) by (apply Rdiv_lt_0_compat; lra). lra. }
  assert (Q2 : ln (1 + hi / s) <= hi / s) by (apply ln_1p, Rdiv_lt_0_compat; lra).
  unfold F in *. lra. }
destruct (Rle_or_lt (F 0) (G 0)) as [|H]; [assumption|].
assert (Hp : 0 < 2 * hi / (F 0 - G 0)) by (apply Rdiv_lt_0_compat; lra).
generalize (HH _ Hp). replace (hi / (2 * hi / (F 0 - G 0))) with ((F 0 - G 0) / 2) by (field; lra). lra.
Qed.

Lemma log_from_resolvent l l' lo hi (G G' : R -> R) : 0 < lo -> lo <= hi -> weights l lo hi -> weights l' lo hi ->
  (forall s, 0 <= s -> derivable_pt_lim G s (G' s)) -> (forall s, 0 <= s -> 0 <= G s) ->
  (forall s, 0 <= s -> Rabs (wsum l (fun d => / (d + s)) - wsum l' (fun d => / (d + s))) <= - G' s) ->
  Rabs (wsum l ln - wsum l' ln) <= G 0.
Proof.
intros Hlo Hhi W1 W2 HG0' HG0 Hb.
assert (HG : forall s, 0 <= s -> is_derive G s (G' s)) by (intros s Hs; apply is_derive_Reals; now apply HG0').
apply Rabs_le. split.
- assert (H : wsum l' ln - wsum l ln <= G 0); [|lra].
  apply (one_side l' l lo hi G G'); auto. intros s Hs. generalize (Hb s Hs). intros H.
  generalize (Rle_abs (wsum l (fun d => / (d + s)) - wsum l' (fun d => / (d + s)))). lra.
- apply (one_side l l' lo hi G G'); auto. intros s Hs. generalize (Hb s Hs). intros H.
  generalize (Rle_abs (- (wsum l (fun d => / (d + s)) - wsum l' (fun d => / (d + s))))). rewrite Rabs_Ropp. lra.
Qed.

(** The two bounding functions *)
Lemma first_rate c lo s : 0 < lo -> 0 <= s -> derivable_pt_lim (fun s => c / (lo + s)) s (- (c / (lo + s) ^ 2)).
Proof. intros H1 H2. apply is_derive_Reals. auto_derive; [lra|]. field. lra. Qed.

Lemma second_rate K S j s : 0 < S -> 0 <= s ->
  derivable_pt_lim (fun s => K / (S + 2 * s) ^ (Datatypes.S j)) s (- (2 * INR (Datatypes.S j) * K / (S + 2 * s) ^ (Datatypes.S (Datatypes.S j)))).
Proof.
intros H1 H2. assert (Hp : 0 < S + 2 * s) by lra. apply is_derive_Reals. auto_derive.
{ assert (0 < (S + 2 * s) ^ (Datatypes.S j)) by (apply pow_lt; lra). simpl in *. lra. }
change (match j with 0%nat => 1 | Datatypes.S _ => INR j + 1 end) with (INR (Datatypes.S j)).
generalize (INR (Datatypes.S j)). intros q. simpl pow. field.
assert (0 < (S + 2 * s) ^ j) by (apply pow_lt; lra). split; lra.
Qed.
