(** The grid points of generate_points: C43. *)
From mathcomp Require Import all_ssreflect all_algebra.
From mathcomp Require Import zify.
From Verif Require Import GridModel.
Set Implicit Arguments.
Unset Strict Implicit.
Unset Printing Implicit Defensive.
Import GRing.Theory Num.Theory.
Local Open Scope ring_scope.

(** Digit i of k in base n *)
Definition digit (n k i : nat) : nat := (k %/ n ^ i) %% n.

Section Grid.
Variable F : realFieldType.
Variable n : nat.
Hypothesis Hn : (1 < n)%N.
Implicit Types (d k i : nat).

Let row k d : seq F := [seq (digit n k i)%:R | i <- iota 0 d].

Lemma digitS k i : digit n k i.+1 = digit n (k %/ n) i.
Proof. by rewrite /digit expnS divnMA. Qed.

Lemma rowS k d : row k d.+1 = (k %% n)%:R :: row (k %/ n) d.
Proof.
rewrite /row /= {1}/digit expn0 divn1. congr (_ :: _).
rewrite -[1%N]/(1 + 0)%N iotaDl -map_comp. apply: eq_map => i /=. by rewrite add1n digitS.
Qed.

Lemma next_false s : next_point n false s = s :> seq F.
Proof. by elim: s => //= x s ->. Qed.

Lemma next_row k d : next_point n true (row k d) = row k.+1 d.
Proof.
elim: d k => [|d IH] k //. rewrite !rowS /=.
have -> : (n%:R - 1 <= (k %% n)%:R :> F) = (n.-1 <= k %% n)%N.
  have -> : n%:R - 1 = n.-1%:R :> F by rewrite -subn1 natrB // ltnW.
  by rewrite ler_nat.
have Hm : (k %% n < n)%N by rewrite ltn_mod; lia.
have E := divn_eq k n.
case: leqP => H.
  have E1 : (k.+1 = (k %/ n).+1 * n + 0)%N.
    by move: E Hm H; move: (k %/ n)%N (k %% n)%N => q r E Hm H; rewrite mulSn; lia.
  by rewrite IH E1 modnMDl mod0n divnMDl ?div0n ?addn0 //; lia.
rewrite next_false.
have E1 : (k.+1 = (k %/ n) * n + (k %% n).+1)%N by rewrite addnS -E.
have H1 : ((k %% n).+1 < n)%N by move: (k %% n)%N H => r H; lia.
have -> : (k.+1 %% n = (k %% n).+1)%N by rewrite E1 modnMDl modn_small.
have -> : (k.+1 %/ n = k %/ n)%N by rewrite {1}E1 divnMDl ?(divn_small H1) ?addn0 //; lia.
by rewrite -[(k %% n).+1]addn1 natrD.
Qed.

Lemma points_from k d m : grid_points n (row k d) m = [seq row j d | j <- iota k m].
Proof. by elim: m k => [|m IH] k //=; rewrite next_row IH. Qed.

(** Point k has the base-n digits of k, divided by n - 1, as coordinates *)
Theorem C43_points d :
  generate_points F n d =
  [seq [seq Some ((digit n k i)%:R / n.-1%:R) | i <- iota 0 d] | k <- iota 0 (n ^ d)].
Proof.
rewrite /generate_points.
have -> : nseq d 0 = row 0 d.
  by elim: d => //= d ->; rewrite [RHS]rowS mod0n div0n.
have Hd : n%:R - 1 = n.-1%:R :> F by rewrite -subn1 natrB // ltnW.
have Hd0 : n.-1%:R != 0 :> F by rewrite pnatr_eq0; lia.
rewrite points_from -map_comp. apply: eq_map => k /=. rewrite -map_comp. apply: eq_map => i /=.
by rewrite /scale_coord Hd (negbTE Hd0) div1r.
Qed.

Lemma digit_lt k i : (digit n k i < n)%N.
Proof. by rewrite ltn_mod; lia. Qed.

(** Every coordinate is in [0, 1] *)
Theorem C43_range d p x : p \in generate_points F n d -> x \in p ->
  exists2 y, x = Some y & 0 <= y <= 1.
Proof.
rewrite C43_points => /mapP [k _ ->] /mapP [i _ ->]. eexists; first by [].
have Hd0 : (0 : F) < n.-1%:R by rewrite ltr0n; lia.
rewrite divr_ge0 ?ler0n // ler_pdivr_mulr // mul1r ler_nat. by have := digit_lt k i; lia.
Qed.

Lemma digits_inj d j k : (j < n ^ d)%N -> (k < n ^ d)%N ->
  (forall i, (i < d)%N -> digit n j i = digit n k i) -> j = k.
Proof.
elim: d j k => [|d IH] j k; first by rewrite expn0; lia.
rewrite expnS => Hj Hk H. rewrite (divn_eq j n) (divn_eq k n).
have H0 := H 0%N isT. rewrite /digit expn0 !divn1 in H0. rewrite H0. congr (_ * _ + _)%N.
apply: IH; rewrite ?ltn_divLR 1?mulnC //; try lia. by move=> i Hi; rewrite -!digitS; apply: H.
Qed.

(** The points are pairwise distinct, and there are n^d of them *)
Theorem C43_distinct d : uniq (generate_points F n d) /\ size (generate_points F n d) = (n ^ d)%N.
Proof.
rewrite C43_points size_map size_iota map_inj_in_uniq ?iota_uniq //.
move=> j k. rewrite !mem_iota /= !add0n => Hj Hk E. apply: (@digits_inj d) => // i Hi.
have := congr1 (fun s => nth None s i) E. rewrite !(nth_map 0%N) ?size_iota // !nth_iota // add0n.
case=> /eqP. have Hd0 : n.-1%:R != 0 :> F by rewrite pnatr_eq0; lia.
rewrite -subr_eq0 -mulrBl mulf_eq0 invr_eq0 (negbTE Hd0) orbF subr_eq0 eqr_nat. by move/eqP.
Qed.

(** Every combination of axis positions 0, 1/(n-1), ..., 1 is a point *)
Theorem C43_complete (t : seq nat) : all (fun x => x < n)%N t ->
  [seq Some (x%:R / n.-1%:R) | x <- t] \in generate_points F n (size t).
Proof.
move=> Ht. rewrite C43_points.
suff [k Hk Ek] : exists2 k, (k < n ^ size t)%N & t = [seq digit n k i | i <- iota 0 (size t)].
  apply/mapP. exists k; first by rewrite mem_iota add0n. by rewrite {1}Ek -map_comp.
elim: t Ht => [|x t IH] /=; first by exists 0%N.
move=> /andP [Hx /IH [k Hk Ek]]. exists (k * n + x)%N; first by rewrite expnS; nia.
rewrite {1}/digit expn0 divn1 modnMDl modn_small //. congr (_ :: _).
rewrite -[1%N]/(1 + 0)%N iotaDl -map_comp {1}Ek. apply: eq_map => i /=.
by rewrite add1n digitS divnMDl ?divn_small ?addn0; lia.
Qed.
End Grid.

(** With one point along each axis every coordinate is not a number *)
Theorem C43_single_refuted (F : realFieldType) d : generate_points F 1 d = [:: nseq d None].
Proof. by rewrite /generate_points exp1n /= /scale_coord subrr eqxx map_nseq. Qed.

(** A case: 3 points along each of 2 axes *)
Example C43_case : generate_points [realFieldType of rat] 3 2 =
  [seq [seq Some x | x <- p] | p <-
    [:: [:: 0; 0]; [:: 1 / 2%:R; 0]; [:: 1; 0];
        [:: 0; 1 / 2%:R]; [:: 1 / 2%:R; 1 / 2%:R]; [:: 1; 1 / 2%:R];
        [:: 0; 1]; [:: 1 / 2%:R; 1]; [:: 1; 1]]].
Proof. apply/eqP. by vm_compute. Qed.

Definition C43_assumptions := (@C43_points, @C43_range, @C43_distinct, @C43_complete, @C43_single_refuted).
Print Assumptions C43_assumptions.
