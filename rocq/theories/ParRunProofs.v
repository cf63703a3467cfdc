(** * Proofs about a run on several threads *)
From Coq Require Import ZArith NArith.
From mathcomp Require Import all_ssreflect all_algebra.
From mathcomp Require Import zify.
From Verif Require Import Mem KernelModel KernelSpec LanczosSpec LanczosMath ConvModel ConvSpec ConvProofs RngModel.
From Verif Require Import SlqRunModel SlqRunSpec SlqRunProofs ParRunModel ParRunSpec.
From Verif Require PropRng PropConv HutchVecModel.
Set Implicit Arguments.
Unset Strict Implicit.
Unset Printing Implicit Defensive.
Import Order.TTheory GRing.Theory Num.Theory.
Local Open Scope ring_scope.

Local Opaque rng_initialize.
Local Arguments SlqRunProofs.flag : simpl never.
Local Arguments SlqRunProofs.used : simpl never.

Section Run.
Variable R : rcfType.
Notation num := (num R).
Notation F := (@Fin R).
Variable sample : seq bool -> seq R -> seq R -> option (seq bool * seq R).
Variables T n mn mx : nat.
Variables z zo atol rtol : R.
Hypothesis z_ge0 : 0 <= z.
Variable g : nat -> xstate.
Variable val : nat -> nat -> R.
Notation signs_of t c := (signs n (advance n c (g t))).
Hypothesis sampleE : forall t c, (t < T)%N ->
  exists2 r, sample [:: false] [seq HutchVecModel.entry R b | b <- signs_of t c] [:: 0] = Some r &
    r.2`_0 = val t c.

Notation step := (step sample n mn (F z) (F atol) (F rtol)).
Notation execute := (execute sample T n mn (F z) (F atol) (F rtol)).

(** The value of the k-th processed sample, given the log of threads. *)
Definition X (ws : seq nat) (k j : nat) : R :=
  val (nth 0%N ws k) (count_mem (nth 0%N ws k) (take k ws)).

Notation sat ws := (satisfied z atol rtol mn (X ws) 0).
Notation flag ws := (flag mn z atol rtol false (X ws) 0).
Notation used ws := (used mn z atol rtol false (X ws) 0).

Definition index (p : place) : option nat :=
  match p with
  | Idle | Inside _ | Leave _ _ => None
  | Test i | Draw i | Look i | Work i _ | Enter i => Some i
  end.
Definition flying (p : place) : bool :=
  match p with Look _ | Work _ _ | Enter _ => true | _ => false end.
Definition critical (p : place) : bool :=
  match p with Inside _ | Leave _ _ => true | _ => false end.

Definition ords (s : pstate R) : seq nat := take (ps_count s) (ps_order s).
Definition cell (s : pstate R) (i : nat) : num := nth NaN (nth [::] (ps_samples s) i) 0.

Record inv (ws : seq nat) (d : nat) (s : pstate R) : Prop := Inv {
  i_count : ps_count s = size ws;
  i_ws : forall t, t \in ws -> (t < T)%N;
  i_osize : size (ps_order s) = mx;
  i_count_le : (ps_count s <= mx)%N;
  i_ouniq : uniq (ords s);
  i_olt : forall i, i \in ords s -> (i < mx)%N;
  i_tuniq : uniq (ps_todo s);
  i_todo : forall i, i \in ps_todo s -> (i < mx)%N /\ i \notin ords s;
  i_held : forall t i, (t < T)%N -> index (ps_place s t) = Some i ->
    [/\ (i < mx)%N, i \notin ps_todo s & i \notin ords s];
  i_apart : forall t t' i, (t < T)%N -> (t' < T)%N -> index (ps_place s t) = Some i ->
    index (ps_place s t') = Some i -> t = t';
  i_table : forall t, (t < T)%N ->
    List.nth_error (ps_table s) t = Some (advance n (count_mem t ws + flying (ps_place s t)) (g t));
  i_vector : forall t, (t < T)%N -> size (ps_vector s t) = n;
  i_drawn : forall t, (t < T)%N -> flying (ps_place s t) ->
    ps_vector s t = signs_of t (count_mem t ws);
  i_rows : size (ps_samples s) = mx /\ forall i, (i < mx)%N -> size (nth [::] (ps_samples s) i) = 1%N;
  i_out : out_shaped 1 (ps_out s);
  i_conv : nth false (co_converged (ps_out s)) 0 = flag ws d;
  i_used : nth 0%N (co_used (ps_out s)) 0 = used ws d;
  i_seen : forall t i, (t < T)%N -> ps_place s t = Work i true -> flag ws d;
  i_entry : forall t i, (t < T)%N -> ps_place s t = Enter i ->
    cell s i = F (val t (count_mem t ws)) \/ (cell s i = NaN /\ flag ws d);
  i_cells : forall k, (k < ps_count s)%N ->
    cell s (nth 0%N (ps_order s) k) = F (X ws k 0) \/
    [/\ cell s (nth 0%N (ps_order s) k) = NaN, flag ws d & (used ws d <= k)%N];
  i_fresh : forall i, (i < mx)%N -> i \notin ords s ->
    (forall t, (t < T)%N -> ps_place s t <> Enter i) -> cell s i = NaN;
  i_lock1 : forall t, (t < T)%N -> critical (ps_place s t) -> ps_lock s = Some t;
  i_lock2 : forall t, ps_lock s = Some t -> (t < T)%N /\ critical (ps_place s t);
  i_open : ps_lock s = None -> d = ps_count s /\ ps_all s = flag ws d;
  i_inside : forall t i, (t < T)%N -> ps_place s t = Inside i -> ps_count s = d.+1;
  i_leave : forall t i b, (t < T)%N -> ps_place s t = Leave i b -> d = ps_count s /\ b = flag ws d;
  i_all : ps_all s -> flag ws d;
  i_cover : flag ws d \/ forall i, (i < mx)%N ->
    [\/ i \in ps_todo s, i \in ords s | exists2 t, (t < T)%N & index (ps_place s t) = Some i] }.

Lemma putE (A : Type) (f : nat -> A) k v : put f k v k = v.
Proof. by rewrite /put eqxx. Qed.
Lemma putN (A : Type) (f : nat -> A) k v k' : k' <> k -> put f k v k' = f k'.
Proof. by rewrite /put => /eqP /negbTE ->. Qed.

Lemma X_rcons ws t k j : (k < size ws)%N -> X (rcons ws t) k j = X ws k j.
Proof. move=> Hk. by rewrite /X nth_rcons Hk -cats1 takel_cat // ltnW. Qed.
Lemma X_last ws t j : X (rcons ws t) (size ws) j = val t (count_mem t ws).
Proof. by rewrite /X nth_rcons ltnn eqxx -cats1 takel_cat // take_size. Qed.

Lemma sat_ext ws ws' k : (forall i, (i < k)%N -> X ws i 0 = X ws' i 0) -> sat ws k = sat ws' k.
Proof.
  move=> H. rewrite /satisfied. have -> // : first_samples (X ws) 0 k = first_samples (X ws') 0 k.
  apply/eq_in_map => i. rewrite mem_iota add0n => /= Hi. exact: H.
Qed.
Lemma sat_rcons ws t k : (k <= size ws)%N -> sat (rcons ws t) k = sat ws k.
Proof. move=> Hk. apply: sat_ext => i Hi. apply: X_rcons. exact: leq_trans Hi Hk. Qed.

Lemma flag_rcons ws t d : (d <= size ws)%N -> flag (rcons ws t) d = flag ws d.
Proof.
  move=> Hd. rewrite /SlqRunProofs.flag. apply: eq_in_has => k. rewrite mem_iota => Hk. apply: sat_rcons. lia.
Qed.
Lemma used_rcons ws t d : (d <= size ws)%N -> used (rcons ws t) d = used ws d.
Proof.
  move=> Hd. rewrite /SlqRunProofs.used. congr (minn d _.+1). apply: eq_in_find => k. rewrite mem_iota => Hk.
  apply: sat_rcons. lia.
Qed.
Lemma flag_low ws d : (d < mn)%N -> flag ws d = false.
Proof. exact: (@flag_lt R 1 mn z atol rtol isT z_ge0). Qed.
Lemma usedS' ws d : ~~ flag ws d -> used ws d.+1 = d.+1.
Proof. move=> Hf. exact: (@usedS R 1 mn z atol rtol isT z_ge0 false (X ws) 0 d). Qed.
Lemma flagS' ws d : ~~ flag ws d -> flag ws d.+1 = sat ws d.+1.
Proof. move=> Hf. exact: (@flagS R mn z atol rtol false (X ws) 0 d). Qed.
Lemma flag_keep' ws d : flag ws d -> flag ws d.+1 /\ used ws d.+1 = used ws d.
Proof. exact: (@flag_keep R mn z atol rtol false (X ws) 0 d isT). Qed.
Lemma flag_mono ws d : flag ws d -> flag ws d.+1.
Proof. by rewrite /SlqRunProofs.flag iota_rcons has_rcons orbC => ->. Qed.

(** ** Steps *)
Lemma inv_goto ws d s t p : inv ws d s -> (t < T)%N -> ~~ critical (ps_place s t) -> ~~ critical p ->
  flying p = flying (ps_place s t) ->
  index p = index (ps_place s t) \/ (index p = None /\ flag ws d) ->
  (forall i, p = Work i true -> flag ws d) ->
  (forall i, p = Enter i -> cell s i = F (val t (count_mem t ws)) \/ (cell s i = NaN /\ flag ws d)) ->
  (forall i, ps_place s t <> Enter i) -> inv ws d (goto s t p).
Proof.
  move=> H Ht Hc0 Hc Hf Hi Hw He Hne.
  have Hix t' i : index (put (ps_place s) t p t') = Some i -> index (ps_place s t') = Some i.
  { case: (eqVneq t' t) => [->|/eqP Hn]; last by rewrite putN.
    rewrite putE. by case: Hi => [->|[-> _]]. }
  have Hfl t' : flying (put (ps_place s) t p t') = flying (ps_place s t').
  { case: (eqVneq t' t) => [->|/eqP Hn]; last by rewrite putN. by rewrite putE. }
  have Hcr t' : critical (put (ps_place s) t p t') = critical (ps_place s t').
  { case: (eqVneq t' t) => [->|/eqP Hn]; last by rewrite putN. by rewrite putE (negbTE Hc) (negbTE Hc0). }
  have Hpl t' p' : critical p' -> put (ps_place s) t p t' = p' -> ps_place s t' = p'.
  { case: (eqVneq t' t) => [->|/eqP Hn]; last by rewrite putN. rewrite putE => Hp' E. by rewrite E Hp' in Hc. }
  have Hcov0 := i_cover H. have Hfr := i_fresh H.
  case: H => *; split=> //=.
  - move=> t' i Ht' /Hix E. eauto.
  - move=> t1 t2 i H1 H2 /Hix E1 /Hix E2. eauto.
  - move=> t' Ht'. rewrite Hfl. eauto.
  - move=> t' Ht'. rewrite Hfl. eauto.
  - move=> t' i Ht'. case: (eqVneq t' t) => [->|/eqP Hn]; last by rewrite putN //; eauto. rewrite putE. exact: Hw.
  - move=> t' i Ht'. case: (eqVneq t' t) => [->|/eqP Hn]; last by rewrite putN //; eauto. rewrite putE. exact: He.
  - move=> i Him Hio Hnot. apply: Hfr => // t' Ht'. case: (eqVneq t' t) => [->|/eqP Hn]; first exact: Hne.
    have := Hnot t' Ht'. by rewrite putN.
  - move=> t' Ht'. rewrite Hcr. eauto.
  - move=> t'. rewrite Hcr. eauto.
  - move=> t' i Ht' /Hpl E. have := E isT. eauto.
  - move=> t' i b Ht' /Hpl E. have := E isT. eauto.
  - case: Hcov0 => [|Hcov]; first by left.
    case: Hi => [Hi|[_ Hi]]; last by left. right=> i Him. case: (Hcov i Him) => [?|?|[t' Ht' E]]; [by constructor 1|by constructor 2|].
    constructor 3. exists t' => //. case: (eqVneq t' t) => [Et|/eqP Hn]; last by rewrite putN. by rewrite Et putE Hi -Et.
Qed.

Lemma inv_take ws d s t i0 : inv ws d s -> (t < T)%N -> ps_place s t = Idle -> i0 \in ps_todo s ->
  inv ws d (goto (with_todo s (rem i0 (ps_todo s))) t (Test i0)).
Proof.
  move=> H Ht Hp Hi0. have [Hi0m Hi0o] := i_todo H Hi0. have Hu := i_tuniq H.
  have Hix t' i : t' <> t -> index (put (ps_place s) t (Test i0) t') = Some i -> index (ps_place s t') = Some i.
  { move=> Hn. by rewrite putN. }
  have Hfl t' : flying (put (ps_place s) t (Test i0) t') = flying (ps_place s t').
  { case: (eqVneq t' t) => [->|/eqP Hn]; last by rewrite putN. by rewrite putE Hp. }
  have Hpl t' p' : p' <> Test i0 -> put (ps_place s) t (Test i0) t' = p' -> ps_place s t' = p'.
  { case: (eqVneq t' t) => [->|/eqP Hn]; last by rewrite putN. rewrite putE. by move=> Hn /esym E. }
  have Hcr t' : critical (put (ps_place s) t (Test i0) t') = critical (ps_place s t').
  { case: (eqVneq t' t) => [->|/eqP Hn]; last by rewrite putN. by rewrite putE Hp. }
  split=> /=.
  - exact: (i_count H).
  - exact: (i_ws H).
  - exact: (i_osize H).
  - exact: (i_count_le H).
  - exact: (i_ouniq H).
  - exact: (i_olt H).
  - exact: rem_uniq.
  - move=> i /mem_rem Hi. exact: (i_todo H).
  - move=> t' i Ht'. case: (eqVneq t' t) => [->|/eqP Hn].
    + rewrite putE => -[<-]. split=> //. by rewrite mem_rem_uniq // inE eqxx.
    + move=> /(Hix _ _ Hn) E. have [A B C] := i_held H Ht' E. split=> //. apply: contra B. exact: mem_rem.
  - move=> t1 t2 i H1 H2. case: (eqVneq t1 t) => [->|/eqP Hn1]; case: (eqVneq t2 t) => [->|/eqP Hn2] //.
    + rewrite putE => -[<-] /(Hix _ _ Hn2) E. have [_ B _] := i_held H H2 E. by rewrite Hi0 in B.
    + move=> /(Hix _ _ Hn1) E. rewrite putE => -[Ei]. have [_ B _] := i_held H H1 E. by rewrite -Ei Hi0 in B.
    + move=> /(Hix _ _ Hn1) E1 /(Hix _ _ Hn2) E2. exact: (i_apart H H1 H2 E1 E2).
  - move=> t' Ht'. rewrite Hfl. exact: (i_table H).
  - exact: (i_vector H).
  - move=> t' Ht'. rewrite Hfl. exact: (i_drawn H).
  - exact: (i_rows H).
  - exact: (i_out H).
  - exact: (i_conv H).
  - exact: (i_used H).
  - move=> t' i Ht' /Hpl E. exact: (i_seen H Ht' (E _)).
  - move=> t' i Ht' /Hpl E. exact: (i_entry H Ht' (E _)).
  - exact: (i_cells H).
  - move=> k Hkm Hko Hnot. apply: (i_fresh H) => // t' Ht'. case: (eqVneq t' t) => [->|/eqP Hn]; first by rewrite Hp.
    have := Hnot t' Ht'. by rewrite putN.
  - move=> t' Ht'. rewrite Hcr. exact: (i_lock1 H).
  - move=> t'. rewrite Hcr. exact: (i_lock2 H).
  - exact: (i_open H).
  - move=> t' i Ht' /Hpl E. exact: (i_inside H Ht' (E _)).
  - move=> t' i b Ht' /Hpl E. exact: (i_leave H Ht' (E _)).
  - exact: (i_all H).
  - case: (i_cover H) => [|Hcov]; [by left|right=> i Him]. case: (eqVneq i i0) => [->|Hni].
    + constructor 3. exists t => //. by rewrite putE.
    + case: (Hcov i Him) => [Hi|Hi|[t' Ht' E]].
      * constructor 1. by rewrite mem_rem_uniq // inE Hni.
      * by constructor 2.
      * constructor 3. exists t' => //. rewrite putN // => Et. by rewrite Et Hp in E.
Qed.

Lemma nth_errorP (A : Type) (d : A) s k : List.nth_error s k = (if (k < size s)%N then Some (nth d s k) else None).
Proof. elim: s k => [|x s IH] [|k] //=. by rewrite IH. Qed.

Lemma generate_table table t g0 v : List.nth_error table t = Some g0 -> size v = n ->
  exists2 r, generate_random_array table t v n = Some r &
    [/\ r.2 = signs n g0, List.nth_error r.1 t = Some (Nat.iter (Nat.div n 64 + 1) xoshiro_step g0) &
        forall u, u <> t -> List.nth_error r.1 u = List.nth_error table u].
Proof.
  move=> Hg Sv. have Hl : (n <= length v)%coq_nat by apply: ssrnat.leP; rewrite -Sv; exact: leqnn.
  have [t' [a [-> [H1 [H2 [_ [H4 [H5 _]]]]]]]] := PropRng.C01_random_array_is_rademacher table t g0 v n Hg Hl.
  exists (t', a) => //. split=> //.
  have Sa : size a = n by rewrite -Sv; exact: H1.
  apply: (@eq_from_nth _ Z0); first by rewrite Sa size_map size_iota.
  move=> k. rewrite Sa => Hk. rewrite (nth_map 0%N) ?size_iota // nth_iota // add0n.
  have := H2 k (ssrnat.ltP Hk). rewrite (nth_errorE Z0) ?Sa // => -[->]. reflexivity.
Qed.

Lemma inv_draw ws d s t i : inv ws d s -> (t < T)%N -> ps_place s t = Draw i ->
  exists2 r, generate_random_array (ps_table s) t (ps_vector s t) n = Some r &
    inv ws d (goto (with_draw s r.1 t r.2) t (Look i)).
Proof.
  move=> H Ht Hp. have Htab := i_table H Ht. rewrite Hp addn0 in Htab.
  have [r E [R1 R2 R3]] := generate_table Htab (i_vector H Ht). exists r; first exact: E.
  have Hix t' : index (put (ps_place s) t (Look i) t') = index (ps_place s t').
  { case: (eqVneq t' t) => [->|/eqP Hn]; last by rewrite putN. by rewrite putE Hp. }
  have Hpl t' p' : p' <> Look i -> put (ps_place s) t (Look i) t' = p' -> ps_place s t' = p'.
  { case: (eqVneq t' t) => [->|/eqP Hn]; last by rewrite putN. rewrite putE. by move=> Hn /esym E'. }
  have Hcr t' : critical (put (ps_place s) t (Look i) t') = critical (ps_place s t').
  { case: (eqVneq t' t) => [->|/eqP Hn]; last by rewrite putN. by rewrite putE Hp. }
  split=> /=.
  - exact: (i_count H).
  - exact: (i_ws H).
  - exact: (i_osize H).
  - exact: (i_count_le H).
  - exact: (i_ouniq H).
  - exact: (i_olt H).
  - exact: (i_tuniq H).
  - exact: (i_todo H).
  - move=> t' k Ht'. rewrite Hix. exact: (i_held H).
  - move=> t1 t2 k H1 H2. rewrite !Hix. exact: (i_apart H).
  - move=> t' Ht'. case: (eqVneq t' t) => [->|/eqP Hn]; last by rewrite putN // R3 //; exact: (i_table H).
    by rewrite R2 putE -advanceS -addn1.
  - move=> t' Ht'. case: (eqVneq t' t) => [->|/eqP Hn]; last by rewrite putN //; exact: (i_vector H).
    by rewrite putE R1 size_map size_iota.
  - move=> t' Ht'. case: (eqVneq t' t) => [->|/eqP Hn]; last by rewrite !putN //; exact: (i_drawn H).
    by rewrite !putE R1.
  - exact: (i_rows H).
  - exact: (i_out H).
  - exact: (i_conv H).
  - exact: (i_used H).
  - move=> t' k Ht' /Hpl E'. exact: (i_seen H Ht' (E' _)).
  - move=> t' k Ht' /Hpl E'. exact: (i_entry H Ht' (E' _)).
  - exact: (i_cells H).
  - move=> k Hkm Hko Hnot. apply: (i_fresh H) => // t' Ht'. case: (eqVneq t' t) => [->|/eqP Hn]; first by rewrite Hp.
    have := Hnot t' Ht'. by rewrite putN.
  - move=> t' Ht'. rewrite Hcr. exact: (i_lock1 H).
  - move=> t'. rewrite Hcr. exact: (i_lock2 H).
  - exact: (i_open H).
  - move=> t' k Ht' /Hpl E'. exact: (i_inside H Ht' (E' _)).
  - move=> t' k b Ht' /Hpl E'. exact: (i_leave H Ht' (E' _)).
  - exact: (i_all H).
  - case: (i_cover H) => [|Hcov]; [by left|right=> k Him]. case: (Hcov k Him) => [Hi|Hi|[t' Ht' E']].
    * by constructor 1.
    * by constructor 2.
    * constructor 3. exists t' => //. by rewrite Hix.
Qed.

Lemma storeP (samples : seq (seq num)) i x : (i < size samples)%N -> size (nth [::] samples i) = 1%N ->
  exists2 samples', store samples i x = Some samples' &
    [/\ size samples' = size samples, nth [::] samples' i = [:: x] &
        forall k, k <> i -> nth [::] samples' k = nth [::] samples k].
Proof.
  move=> Hi Hr. rewrite /store (rdE [::] Hi) [obind _ _]/=.
  case Er: (nth [::] samples i) Hr => [|y [|y' row]] //= _.
  have E := wrE [:: x] Hi. exists (set_nth [:: x] samples i [:: x]); first exact: E.
  split; [exact: size_wr E|by rewrite (nth_wr _ _ E) eqxx|].
  move=> k /eqP Hk. by rewrite (nth_wr _ _ E) (negbTE Hk).
Qed.

Lemma inv_write ws d s t i : inv ws d s -> (t < T)%N -> ps_place s t = Work i false ->
  exists2 samples', store (ps_samples s) i (F (val t (count_mem t ws))) = Some samples' &
    inv ws d (goto (with_samples s samples') t (Enter i)).
Proof.
  move=> H Ht Hp. have [Hi Hit Hio] := i_held H Ht (etrans (congr1 index Hp) erefl).
  have [Ssz Hrow] := i_rows H. have Hi' : (i < size (ps_samples s))%N by rewrite Ssz.
  have [ss E [S1 S2 S3]] := storeP (F (val t (count_mem t ws))) Hi' (Hrow i Hi).
  exists ss; first exact: E.
  have Hix t' : index (put (ps_place s) t (Enter i) t') = index (ps_place s t').
  { case: (eqVneq t' t) => [->|/eqP Hn]; last by rewrite putN. by rewrite putE Hp. }
  have Hfl t' : flying (put (ps_place s) t (Enter i) t') = flying (ps_place s t').
  { case: (eqVneq t' t) => [->|/eqP Hn]; last by rewrite putN. by rewrite putE Hp. }
  have Hpl t' p' : p' <> Enter i -> put (ps_place s) t (Enter i) t' = p' -> ps_place s t' = p'.
  { case: (eqVneq t' t) => [->|/eqP Hn]; last by rewrite putN. rewrite putE. by move=> Hn /esym E'. }
  have Hcr t' : critical (put (ps_place s) t (Enter i) t') = critical (ps_place s t').
  { case: (eqVneq t' t) => [->|/eqP Hn]; last by rewrite putN. by rewrite putE Hp. }
  set s' := goto _ _ _.
  have Hcell k : k <> i -> cell s' k = cell s k by move=> Hk; rewrite /cell /= S3.
  have Hown : cell s' i = F (val t (count_mem t ws)) by rewrite /cell /= S2.
  rewrite /s'; split=> /=; rewrite -/s'.
  - exact: (i_count H).
  - exact: (i_ws H).
  - exact: (i_osize H).
  - exact: (i_count_le H).
  - exact: (i_ouniq H).
  - exact: (i_olt H).
  - exact: (i_tuniq H).
  - exact: (i_todo H).
  - move=> t' k Ht'. rewrite Hix. exact: (i_held H).
  - move=> t1 t2 k H1 H2. rewrite !Hix. exact: (i_apart H).
  - move=> t' Ht'. rewrite Hfl. exact: (i_table H).
  - exact: (i_vector H).
  - move=> t' Ht'. rewrite Hfl. exact: (i_drawn H).
  - split; first by rewrite S1. move=> k Hk. case: (eqVneq k i) => [->|/eqP Hn]; first by rewrite S2.
    rewrite S3 //. exact: Hrow.
  - exact: (i_out H).
  - exact: (i_conv H).
  - exact: (i_used H).
  - move=> t' k Ht' /Hpl E'. exact: (i_seen H Ht' (E' _)).
  - move=> t' k Ht'. case: (eqVneq t' t) => [->|/eqP Hn].
    + rewrite putE => -[<-]. left. exact: Hown.
    + rewrite putN // => E'. rewrite Hcell; first exact: (i_entry H Ht' E').
      move=> Ek. apply: Hn. apply: (i_apart H Ht' Ht (i := i)); first by rewrite E' Ek. by rewrite Hp.
  - move=> k Hk. rewrite Hcell; first exact: (i_cells H Hk).
    move=> Ek. have : nth 0%N (ps_order s) k \in ords s; last by rewrite Ek (negbTE Hio).
    rewrite -(nth_take 0%N Hk). apply: mem_nth. rewrite size_take (i_osize H). case: (ltnP (ps_count s) mx) => // _. exact: (leq_trans Hk (i_count_le H)).
  - move=> k Hkm Hko Hnot. rewrite Hcell; last by move=> Ek; apply: (Hnot t Ht); rewrite putE Ek.
    apply: (i_fresh H) => // t' Ht'. case: (eqVneq t' t) => [->|/eqP Hn]; first by rewrite Hp.
    have := Hnot t' Ht'. by rewrite putN.
  - move=> t' Ht'. rewrite Hcr. exact: (i_lock1 H).
  - move=> t'. rewrite Hcr. exact: (i_lock2 H).
  - exact: (i_open H).
  - move=> t' k Ht' /Hpl E'. exact: (i_inside H Ht' (E' _)).
  - move=> t' k b Ht' /Hpl E'. exact: (i_leave H Ht' (E' _)).
  - exact: (i_all H).
  - case: (i_cover H) => [|Hcov]; [by left|right=> k Him]. case: (Hcov k Him) => [Hj|Hj|[t' Ht' E']].
    * by constructor 1.
    * by constructor 2.
    * constructor 3. exists t' => //. by rewrite Hix.
Qed.

Lemma take_wr (o : seq nat) k i : (k < size o)%N ->
  exists2 o', wr o k i = Some o' & [/\ size o' = size o, take k.+1 o' = rcons (take k o) i &
    forall l, (l < k)%N -> nth 0%N o' l = nth 0%N o l] /\ nth 0%N o' k = i.
Proof.
  move=> Hk. have E := wrE i Hk. exists (set_nth i o k i); first exact: E.
  have Es := size_wr E. have Hn l := nth_wr 0%N l E.
  split; last by rewrite Hn eqxx. split=> //.
  - apply: (@eq_from_nth _ 0%N).
    + rewrite size_rcons !size_take Es Hk. case: (ltnP k.+1 (size o)) => // Hle; by apply/eqP; rewrite eqn_leq Hle Hk.
    + move=> l. rewrite size_takel ?Es // => Hl.
      rewrite nth_take // Hn nth_rcons size_take Hk. case: (ltngtP l k) => Hlk; [by rewrite nth_take|by rewrite ltnS leqNgt Hlk in Hl|by []].
  - move=> l Hl. by rewrite Hn (ltn_eqF Hl).
Qed.

Lemma inv_enter ws d s t i : inv ws d s -> (t < T)%N -> ps_place s t = Enter i -> ps_lock s = None ->
  exists2 o', wr (ps_order s) (ps_count s) i = Some o' &
    inv (rcons ws t) d (goto (with_record s t o') t (Inside i)).
Proof.
  move=> H Ht Hp Hlock. have [Hi Hit Hio] := i_held H Ht (etrans (congr1 index Hp) erefl).
  have [Hd Hall] := i_open H Hlock.
  have Sor : size (ords s) = ps_count s by rewrite size_take (i_osize H); have := i_count_le H; case: ltngtP.
  have Hlt : (ps_count s < mx)%N.
  { have Hu : uniq (i :: ords s) by rewrite /= Hio (i_ouniq H).
    have Hs : {subset i :: ords s <= iota 0 mx}.
    { move=> k. rewrite inE mem_iota add0n => /orP [/eqP ->|Hk] //. exact: (i_olt H). }
    have := uniq_leq_size Hu Hs. by rewrite /= size_iota Sor. }
  have Hlt' : (ps_count s < size (ps_order s))%N by rewrite (i_osize H).
  have [o' E [[O1 O2 O3] O4]] := take_wr i Hlt'. exists o'; first exact: E.
  have Hsz : (d <= size ws)%N by rewrite Hd (i_count H).
  have Ef := flag_rcons t Hsz. have Eu := used_rcons t Hsz.
  set s' := goto _ _ _. have Eo : ords s' = rcons (ords s) i by rewrite /ords /= O2.
  have Hix t' k : index (put (ps_place s) t (Inside i) t') = Some k -> t' <> t /\ index (ps_place s t') = Some k.
  { case: (eqVneq t' t) => [->|/eqP Hn]; first by rewrite putE. by rewrite putN. }
  have Hpl t' p' : p' <> Inside i -> put (ps_place s) t (Inside i) t' = p' -> t' <> t /\ ps_place s t' = p'.
  { case: (eqVneq t' t) => [->|/eqP Hn]; last by rewrite putN. rewrite putE. by move=> Hn /esym E'. }
  have Hnc t' : (t' < T)%N -> critical (ps_place s t') = false.
  { move=> Ht'. apply/negP => /(i_lock1 H Ht'). by rewrite Hlock. }
  have Hcnt t' : t' <> t -> count_mem t' (rcons ws t) = count_mem t' ws.
  { move=> Hn. rewrite -cats1 count_cat /= addn0. case: eqP => [E'|_]; last by rewrite addn0. by case: Hn. }
  rewrite /s'; split=> /=; rewrite -/s' ?Ef ?Eu.
  - by rewrite size_rcons (i_count H).
  - move=> t'. rewrite mem_rcons inE => /orP [/eqP ->|] //. exact: (i_ws H).
  - by rewrite O1 (i_osize H).
  - exact: Hlt.
  - by rewrite Eo rcons_uniq Hio (i_ouniq H).
  - move=> k. rewrite Eo mem_rcons inE => /orP [/eqP ->|] //. exact: (i_olt H).
  - exact: (i_tuniq H).
  - move=> k Hk. have [A B] := i_todo H Hk. split=> //. rewrite Eo mem_rcons inE negb_or B andbT.
    by apply: contraNneq Hit => <-.
  - move=> t' k Ht' /Hix [Hn Ei]. have [A B C] := i_held H Ht' Ei. split=> //.
    rewrite Eo mem_rcons inE negb_or C andbT. apply/eqP => Ek. apply: Hn.
    apply: (i_apart H Ht' Ht Ei). by rewrite Hp Ek.
  - move=> t1 t2 k H1 H2 /Hix [_ E1] /Hix [_ E2]. exact: (i_apart H H1 H2 E1 E2).
  - move=> t' Ht'. rewrite (i_table H Ht'). case: (eqVneq t' t) => [->|/eqP Hn].
    + rewrite putE Hp addn0 -cats1 count_cat /= eqxx addn0. by [].
    + by rewrite putN // Hcnt.
  - exact: (i_vector H).
  - move=> t' Ht'. case: (eqVneq t' t) => [->|/eqP Hn]; first by rewrite putE.
    rewrite putN // Hcnt //. exact: (i_drawn H).
  - exact: (i_rows H).
  - exact: (i_out H).
  - exact: (i_conv H).
  - exact: (i_used H).
  - move=> t' k Ht' /Hpl E'. have [//|_ E2] := E'. exact: (i_seen H Ht' E2).
  - move=> t' k Ht' /Hpl E'. have [//|Hn E2] := E'. rewrite Hcnt //. exact: (i_entry H Ht' E2).
  - move=> k. rewrite ltnS leq_eqVlt => /orP [/eqP ->|Hk].
    + rewrite O4 {1}(i_count H) X_last. case: (i_entry H Ht Hp) => [Ec|[Ec Hf]]; [by left|right].
      split=> //. rewrite -Hd. exact: used_le.
    + rewrite O3 // X_rcons -?(i_count H) //. exact: (i_cells H Hk).
  - move=> k Hkm. rewrite Eo mem_rcons inE negb_or => /andP [/eqP Hki Hko] Hnot.
    apply: (i_fresh H) => // t' Ht'. case: (eqVneq t' t) => [->|/eqP Hn]; first by rewrite Hp => -[/esym].
    have := Hnot t' Ht'. by rewrite putN.
  - move=> t' Ht'. case: (eqVneq t' t) => [->|/eqP Hn] //. by rewrite putN // Hnc.
  - move=> t' [<-]. by rewrite putE.
  - by [].
  - move=> t' k Ht'. by rewrite Hd.
  - move=> t' k b Ht' /Hpl E'. have [//|Hn E2] := E'. have := Hnc t' Ht'. by rewrite E2.
  - exact: (i_all H).
  - case: (i_cover H) => [|Hcov]; [by left|right=> k Him]. case: (Hcov k Him) => [Hj|Hj|[t' Ht' E']].
    * by constructor 1.
    * constructor 2. by rewrite Eo mem_rcons inE Hj orbT.
    * case: (eqVneq t' t) => [Et|/eqP Hn].
      -- constructor 2. rewrite Eo mem_rcons inE. move: E'. rewrite Et Hp => -[->]. by rewrite eqxx.
      -- constructor 3. exists t' => //. by rewrite putN.
Qed.

Lemma inv_inside ws d s t i : inv ws d s -> (t < T)%N -> ps_place s t = Inside i ->
  exists2 c, check_convergence (F z) (F atol) (F rtol) (ps_samples s) mn 1 (ps_order s) (ps_count s) (ps_out s) =
      Some c &
    inv ws d.+1 (goto (with_out s c.2) t (Leave i c.1)).
Proof.
  move=> H Ht Hp. have Hcd := i_inside H Ht Hp. have Hlock : ps_lock s = Some t by apply: (i_lock1 H Ht); rewrite Hp.
  have [Ssz Hrow] := i_rows H. set k := ps_count s in Hcd *.
  have Hkmx : (k <= size (ps_order s))%N by rewrite (i_osize H); exact: (i_count_le H).
  have Hord l : (l < k)%N -> (nth 0%N (ps_order s) l < mx)%N.
  { move=> Hl. apply: (i_olt H). rewrite -(nth_take 0%N Hl). apply: mem_nth.
    by rewrite size_takel. }
  have Hw : well_shaped (ps_samples s) (ps_order s) 1 k.
  { split=> // l Hl. have Hm := Hord l Hl. by rewrite Ssz Hrow. }
  have [a [o' [E Ho' Ea Hj]]] := PropConv.C27_convergence_test atol rtol mn z_ge0 Hw (i_out H).
  exists (a, o'); first exact: E.
  have := Hj 0%N isT. cbv zeta. rewrite (i_conv H) (i_used H) => Hj0.
  have Hval : ~~ flag ws d -> PropConv.values (ps_samples s) (ps_order s) k 0 (first_samples (X ws) 0 k).
  { move=> Hf. split=> //; first by rewrite size_map size_iota. move=> l Hl.
    have -> : (first_samples (X ws) 0 k)`_l = X ws l 0.
      by rewrite /first_samples (nth_map 0%N) ?size_iota // nth_iota // add0n.
    case: (i_cells H Hl) => // -[_ Hf' _]. by rewrite Hf' in Hf. }
  have [Hf1 Hu1] : nth false (co_converged o') 0 = flag ws d.+1 /\ nth 0%N (co_used o') 0 = used ws d.+1.
  { move: Hj0. case: (ltnP k mn) => Hmn.
    - case=> -> _ ->. have Hf : flag ws d = false by apply: flag_low; move: Hmn; rewrite Hcd => /ltnW.
      rewrite -Hcd flag_low // Hcd usedS' ?Hf //.
    - case: ifP => [Hf|/negbT Hf].
      + have [E1 E2] := flag_keep' Hf. by case=> -> _ ->; rewrite E1 E2.
      + rewrite (usedS' Hf) (flagS' Hf) -Hcd. case=> -> [H1 H2]. split=> //.
        case: (leqP k 1) => Hk1.
        * rewrite (H1 Hk1). by rewrite /satisfied [(1 < _)%N]ltnNge Hk1 /= andbF.
        * have [_ ->] := H2 _ (Hval Hf) Hk1. by rewrite /satisfied Hmn Hk1. }
  have Eall : a = flag ws d.+1.
  { rewrite Ea -Hf1. have -> : [forall j : 'I_1, nth false (co_converged o') j] = nth false (co_converged o') 0.
    { apply/forallP/idP => [/(_ 0)|Hh j] //. by rewrite ord1. }
    case: leqP => Hmn //=. by rewrite Hf1 -Hcd flag_low. }
  have Hmono := @flag_mono ws d.
  have Hused : flag ws d -> used ws d.+1 = used ws d.
  { move=> Hf. by have [_ ->] := flag_keep' Hf. }
  have Hix t' : index (put (ps_place s) t (Leave i a) t') = index (ps_place s t').
  { case: (eqVneq t' t) => [->|/eqP Hn]; last by rewrite putN. by rewrite putE Hp. }
  have Hfl t' : flying (put (ps_place s) t (Leave i a) t') = flying (ps_place s t').
  { case: (eqVneq t' t) => [->|/eqP Hn]; last by rewrite putN. by rewrite putE Hp. }
  have Hpl t' p' : ~~ critical p' -> put (ps_place s) t (Leave i a) t' = p' -> ps_place s t' = p'.
  { case: (eqVneq t' t) => [->|/eqP Hn]; last by rewrite putN. rewrite putE. by move=> Hc E'; rewrite -E' in Hc. }
  have Hcr t' : critical (put (ps_place s) t (Leave i a) t') = critical (ps_place s t').
  { case: (eqVneq t' t) => [->|/eqP Hn]; last by rewrite putN. by rewrite putE Hp. }
  have Honly t' : (t' < T)%N -> critical (ps_place s t') -> t' = t.
  { move=> Ht' /(i_lock1 H Ht'). by rewrite Hlock => -[]. }
  split=> /=.
  - exact: (i_count H).
  - exact: (i_ws H).
  - exact: (i_osize H).
  - exact: (i_count_le H).
  - exact: (i_ouniq H).
  - exact: (i_olt H).
  - exact: (i_tuniq H).
  - exact: (i_todo H).
  - move=> t' l Ht'. rewrite Hix. exact: (i_held H).
  - move=> t1 t2 l H1 H2. rewrite !Hix. exact: (i_apart H).
  - move=> t' Ht'. rewrite Hfl. exact: (i_table H).
  - exact: (i_vector H).
  - move=> t' Ht'. rewrite Hfl. exact: (i_drawn H).
  - exact: (i_rows H).
  - exact: Ho'.
  - exact: Hf1.
  - exact: Hu1.
  - move=> t' l Ht' /Hpl E'. exact: Hmono (i_seen H Ht' (E' isT)).
  - move=> t' l Ht' /Hpl E'. case: (i_entry H Ht' (E' isT)) => [|[E1 E2]]; [by left|right].
    split; [exact: E1|exact: Hmono].
  - move=> l Hl. case: (i_cells H Hl) => [|[E1 E2 E3]]; [by left|right].
    split; [exact: E1|exact: Hmono|by rewrite Hused].
  - move=> l Hlm Hlo Hnot. apply: (i_fresh H) => // t' Ht'. case: (eqVneq t' t) => [->|/eqP Hn]; first by rewrite Hp.
    have := Hnot t' Ht'. by rewrite putN.
  - move=> t' Ht'. rewrite Hcr. exact: (i_lock1 H).
  - move=> t'. rewrite Hcr. exact: (i_lock2 H).
  - by rewrite Hlock.
  - move=> t' l Ht'. case: (eqVneq t' t) => [->|/eqP Hn]; first by rewrite putE.
    rewrite putN // => E'. have : t' = t by apply: Honly => //; rewrite E'. by [].
  - move=> t' l b Ht'. case: (eqVneq t' t) => [->|/eqP Hn].
    + rewrite putE => -[_ <-]. by split.
    + rewrite putN // => E'. have : t' = t by apply: Honly => //; rewrite E'. by [].
  - move=> /(i_all H). exact: Hmono.
  - case: (i_cover H) => [/Hmono|Hcov]; [by left|right=> l Him]. case: (Hcov l Him) => [Hl|Hl|[t' Ht' E']].
    * by constructor 1.
    * by constructor 2.
    * constructor 3. exists t' => //. by rewrite Hix.
Qed.

Lemma inv_leave ws d s t i b : inv ws d s -> (t < T)%N -> ps_place s t = Leave i b ->
  inv ws d (goto (with_all s b) t Idle).
Proof.
  move=> H Ht Hp. have [Hd Hb] := i_leave H Ht Hp.
  have Hlock : ps_lock s = Some t by apply: (i_lock1 H Ht); rewrite Hp.
  have Hix t' : index (put (ps_place s) t Idle t') = index (ps_place s t').
  { case: (eqVneq t' t) => [->|/eqP Hn]; last by rewrite putN. by rewrite putE Hp. }
  have Hfl t' : flying (put (ps_place s) t Idle t') = flying (ps_place s t').
  { case: (eqVneq t' t) => [->|/eqP Hn]; last by rewrite putN. by rewrite putE Hp. }
  have Hpl t' p' : p' <> Idle -> put (ps_place s) t Idle t' = p' -> t' <> t /\ ps_place s t' = p'.
  { case: (eqVneq t' t) => [->|/eqP Hn]; last by rewrite putN. rewrite putE. by move=> Hn /esym E'. }
  have Honly t' : (t' < T)%N -> critical (ps_place s t') -> t' = t.
  { move=> Ht' /(i_lock1 H Ht'). by rewrite Hlock => -[]. }
  split=> /=.
  - exact: (i_count H).
  - exact: (i_ws H).
  - exact: (i_osize H).
  - exact: (i_count_le H).
  - exact: (i_ouniq H).
  - exact: (i_olt H).
  - exact: (i_tuniq H).
  - exact: (i_todo H).
  - move=> t' l Ht'. rewrite Hix. exact: (i_held H).
  - move=> t1 t2 l H1 H2. rewrite !Hix. exact: (i_apart H).
  - move=> t' Ht'. rewrite Hfl. exact: (i_table H).
  - exact: (i_vector H).
  - move=> t' Ht'. rewrite Hfl. exact: (i_drawn H).
  - exact: (i_rows H).
  - exact: (i_out H).
  - exact: (i_conv H).
  - exact: (i_used H).
  - move=> t' l Ht' /Hpl E'. have [//|_ E2] := E'. exact: (i_seen H Ht' E2).
  - move=> t' l Ht' /Hpl E'. have [//|_ E2] := E'. exact: (i_entry H Ht' E2).
  - exact: (i_cells H).
  - move=> k Hkm Hko Hnot. apply: (i_fresh H) => // t' Ht'. case: (eqVneq t' t) => [->|/eqP Hn]; first by rewrite Hp.
    have := Hnot t' Ht'. by rewrite putN.
  - move=> t' Ht'. case: (eqVneq t' t) => [->|/eqP Hn]; first by rewrite putE.
    rewrite putN // => /(Honly t' Ht') E'. by case: Hn.
  - by [].
  - by [].
  - move=> t' l Ht' /Hpl E'. have [//|Hn E2] := E'. case: Hn. apply: Honly => //. by rewrite E2.
  - move=> t' l b' Ht' /Hpl E'. have [//|Hn E2] := E'. case: Hn. apply: Honly => //. by rewrite E2.
  - by rewrite Hb.
  - case: (i_cover H) => [|Hcov]; [by left|right=> l Him]. case: (Hcov l Him) => [Hl|Hl|[t' Ht' E']].
    * by constructor 1.
    * by constructor 2.
    * constructor 3. exists t' => //. by rewrite Hix.
Qed.

(** What is still to do, in steps. *)
Definition rank (p : place) : nat :=
  match p with
  | Idle => 0 | Leave _ _ => 1 | Inside _ => 2 | Enter _ => 3 | Work _ _ => 4 | Look _ => 5
  | Draw _ => 6 | Test _ => 7
  end.
Definition remaining (s : pstate R) : nat :=
  (8 * size (ps_todo s) + \sum_(t < T) rank (ps_place s t))%N.

Lemma rank_put (h : place -> nat) (f : nat -> place) t p : (t < T)%N ->
  (\sum_(u < T) h (put f t p u) + h (f t) = \sum_(u < T) h (f u) + h p)%N.
Proof.
  move=> Ht. rewrite (bigD1 (Ordinal Ht)) //= [in RHS](bigD1 (Ordinal Ht)) //= putE.
  rewrite (eq_bigr (fun u : 'I_T => h (f u))); first by lia.
  move=> u Hu. rewrite putN //. move=> E. case/eqP: Hu. exact: val_inj.
Qed.

Lemma less s s' t p : (t < T)%N -> ps_place s' = put (ps_place s) t p ->
  (8 * size (ps_todo s') + rank p < 8 * size (ps_todo s) + rank (ps_place s t))%N -> (remaining s' < remaining s)%N.
Proof.
  move=> Ht E Hlt. rewrite /remaining E. have := rank_put rank (ps_place s) p Ht.
  set a := (\sum_(u < T) rank (put _ _ _ _))%N. set b := (\sum_(u < T) rank (ps_place s u))%N. move=> Hab.
  move: (8 * _)%N (8 * _)%N Hlt Hab => x y. move: a b (rank _) (rank _) => a b u v. lia.
Qed.

(** Every step keeps the invariant; only taking an iteration that is gone and
    entering an occupied critical section are impossible. *)
Lemma step_inv ws d s t i0 : inv ws d s -> (t < T)%N ->
  (exists s', [/\ step t i0 s = Next s', exists ws' d', inv ws' d' s' & (remaining s' < remaining s)%N]) \/
  step t i0 s = Blocked R /\
    (ps_place s t = Idle /\ i0 \notin ps_todo s \/ exists2 i, ps_place s t = Enter i & ps_lock s != None).
Proof.
  move=> H Ht. rewrite /ParRunModel.step.
  case Ep: (ps_place s t) => [|i|i|i|i b|i|i|i b].
  - case: ifP => Hi; last by right; split=> //; left.
    left. eexists. split; [by []|by exists ws, d; exact: inv_take|].
    apply: (less Ht); first reflexivity. rewrite Ep size_rem //.
    have : (0 < size (ps_todo s))%N by case: (ps_todo s) Hi. rewrite /rank. move: (size _) => a. lia.
  - left. eexists. split; [by []|exists ws, d; apply: inv_goto => //; rewrite ?Ep //|].
    + by case: ps_all.
    + by case: ps_all.
    + case Ea: (ps_all s); [right|by left]. split=> //. exact: (i_all H).
    + by case: ps_all.
    + by case: ps_all.
    + apply: (less Ht); first reflexivity. rewrite Ep ltn_add2l. by case: ps_all.
  - have [r -> Hinv] := inv_draw H Ht Ep. left. eexists. split; [by []|by exists ws, d|].
    apply: (less Ht); first reflexivity. by rewrite Ep ltn_add2l.
  - have [_ _ Sc] := i_out H.
    rewrite (rdE false) ?Sc // /= (i_conv H). left. eexists. split; [by []|exists ws, d; apply: inv_goto => //; rewrite ?Ep //|].
    + by left.
    + by move=> j [_ ->].
    + apply: (less Ht); first reflexivity. by rewrite Ep ltn_add2l.
  - have [_ _ Sc] := i_out H. rewrite (rdE false) ?Sc // /= (i_conv H). case Ef: (flag ws d).
    + left. eexists. split; [by []|exists ws, d; apply: inv_goto => //; rewrite ?Ep //|].
      * by left.
      * move=> j [<-]. right. split=> //.
        have [A _ C] := i_held H Ht (etrans (congr1 index Ep) erefl).
        apply: (i_fresh H A C) => u Hu Eu. have Eq : u = t by apply: (i_apart H Hu Ht (i := i)); rewrite ?Eu ?Ep.
        by rewrite Eq Ep in Eu.
      * apply: (less Ht); first reflexivity. by rewrite Ep ltn_add2l.
    + case: b Ep => Ep; first by have := i_seen H Ht Ep; rewrite Ef.
      have Hfl : flying (ps_place s t) by rewrite Ep.
      rewrite (i_drawn H Ht Hfl). have [r -> Er] := sampleE (count_mem t ws) Ht.
      rewrite [or_fault _ _]/= Er.
      have [ss -> Hinv] := inv_write H Ht Ep. left. eexists. split; [by []|by exists ws, d|].
      apply: (less Ht); first reflexivity. by rewrite Ep ltn_add2l.
  - case El: (ps_lock s) => [u|].
    + right. split=> //. right. by exists i.
    + have [o' -> Hinv] := inv_enter H Ht Ep El. left. eexists. split; [by []|by exists (rcons ws t), d|].
      apply: (less Ht); first reflexivity. by rewrite Ep ltn_add2l.
  - have [c -> Hinv] := inv_inside H Ht Ep. left. eexists. split; [by []|by exists ws, d.+1|].
    apply: (less Ht); first reflexivity. by rewrite Ep ltn_add2l.
  - have Hinv := inv_leave H Ht Ep. left. eexists. split; [by []|by exists ws, d|].
    apply: (less Ht); first reflexivity. by rewrite Ep ltn_add2l.
Qed.

(** ** The start *)
Lemma inv_start clock seed vector error : (forall t, (t < T)%N -> List.nth_error (rng_initialize T clock seed) t = Some (g t)) ->
  (forall t, (t < T)%N -> size (vector t) = n) -> size error = 1%N ->
  inv [::] 0 (pstart T mx clock seed vector error).
Proof.
  move=> Hg Hv He. set s := pstart _ _ _ _ _ _.
  have Hc i : (i < mx)%N -> cell s i = NaN by move=> Hi; rewrite /cell /= nth_nseq Hi.
  split=> //.
  - by rewrite size_nseq.
  - rewrite /ords take0. exact: erefl.
  - by move=> i; rewrite /ords take0.
  - exact: iota_uniq.
  - move=> i. rewrite mem_iota add0n => /= Hi. by rewrite /ords take0.
  - split; first by rewrite size_nseq. move=> i Hi. by rewrite nth_nseq Hi.
  - move=> i Hi _ _. exact: Hc.
  - right=> i Hi. constructor 1. by rewrite mem_iota.
Qed.

(** ** Executions *)
Lemma execute_inv schedule s ws d : inv ws d s ->
  match execute schedule s with
  | Next s' => (exists ws' d', inv ws' d' s') /\ (size schedule + remaining s' <= remaining s)%N
  | Blocked => True
  | Fault => False
  end.
Proof.
  elim: schedule s ws d => [|[t i] rest IH] s ws d H /=; first by split; [exists ws, d|].
  case: (ltnP t T) => Ht //. case: (step_inv i H Ht) => [[s' [-> [ws' [d' H']] Hr]]|[-> _]] //.
  have := IH s' ws' d' H'. case: (execute rest s') => // s2 [Hex Hle]. split=> //. lia.
Qed.

Definition idle (p : place) : bool := if p is Idle then true else false.

Lemma progress s ws d : (0 < T)%N -> inv ws d s -> ~ finished T s ->
  exists t i s', [/\ (t < T)%N, step t i s = Next s', exists ws' d', inv ws' d' s' & (remaining s' < remaining s)%N].
Proof.
  move=> HT H Hnf.
  have Hgo t i : (t < T)%N -> (ps_place s t = Idle -> i \in ps_todo s) -> (forall k, ps_place s t = Enter k -> ps_lock s = None) ->
    exists t i s', [/\ (t < T)%N, step t i s = Next s', exists ws' d', inv ws' d' s' & (remaining s' < remaining s)%N].
  { move=> Ht H1 H2. case: (step_inv i H Ht) => [[s' [E Hi Hr]]|[_ [[E Hn]|[k E Hl]]]].
    - by exists t, i, s'.
    - by rewrite H1 in Hn.
    - by rewrite (H2 k E) in Hl. }
  case El: (ps_lock s) => [t|].
  - have [Ht Hc] := i_lock2 H El. apply: (Hgo t 0%N Ht); by move: Hc; case: (ps_place s t).
  - case: (boolP [exists t : 'I_T, ~~ idle (ps_place s t)]) => [/existsP [t Hi]|/existsPn Hall].
    + apply: (Hgo t 0%N (ltn_ord t)); last by []. move=> E. by rewrite E in Hi.
    + have Hidle t : (t < T)%N -> ps_place s t = Idle.
      { move=> Ht. have := Hall (Ordinal Ht). rewrite negbK /=. by case: (ps_place s t). }
      case Et: (ps_todo s) => [|i l]; first by case: Hnf.
      apply: (Hgo 0%N i HT); last by []. by rewrite Et inE eqxx.
Qed.

Lemma finished_dec (s : pstate R) : finished T s \/ ~ finished T s.
Proof.
  case: (boolP ((ps_todo s == [::]) && [forall t : 'I_T, idle (ps_place s t)])) => [/andP [/eqP H1 /forallP H2]|Hn].
  - left. split=> // t Ht. have := H2 (Ordinal Ht). rewrite /=. by case: (ps_place s t).
  - right=> -[H1 H2]. case/negP: Hn. rewrite H1 eqxx /=. apply/forallP => t. by rewrite H2.
Qed.

Lemma execute_finishes s ws d : (0 < T)%N -> inv ws d s ->
  exists rest s', execute rest s = Next s' /\ finished T s'.
Proof.
  move=> HT. move: {2}(remaining s) (leqnn (remaining s)) => b.
  elim: b s ws d => [|b IH] s ws d Hb H; case: (finished_dec s) => Hf; try by exists [::], s.
  - have [t [i [s' [_ _ _ Hr]]]] := progress HT H Hf. lia.
  - have [t [i [s' [Ht E [ws' [d' H']] Hr]]]] := progress HT H Hf.
    have Hb' : (remaining s' <= b)%N by lia.
    have [rest [s2 [E2 F2]]] := IH s' ws' d' Hb' H'. exists ((t, i) :: rest), s2. by rewrite /= Ht E.
Qed.

(** ** The end *)
Lemma flag_sat' ws d : (0 < d)%N -> flag ws d = sat ws (used ws d).
Proof.
  move=> Hd. rewrite /SlqRunProofs.flag /SlqRunProofs.used. case: (boolP (has (sat ws) (iota 1 d))) => Hh.
  - have Hf := Hh. rewrite has_find size_iota in Hf. rewrite (minn_idPr Hf).
    have := nth_find 0%N Hh. by rewrite nth_iota // add1n => ->.
  - rewrite hasNfind // size_iota (minn_idPl (leqnSn _)). apply/esym/negbTE.
    apply: contra Hh => Hst. apply/hasP. exists d; last exact: Hst. by rewrite mem_iota Hd add1n /=.
Qed.
Lemma used_pos ws d : (0 < d)%N -> (0 < used ws d)%N.
Proof. move=> Hd. by rewrite /SlqRunProofs.used leq_min Hd. Qed.
Lemma used_notflag ws d : ~~ flag ws d -> used ws d = d.
Proof.
  rewrite /SlqRunProofs.flag /SlqRunProofs.used => Hf. rewrite hasNfind // size_iota. exact: (minn_idPl (leqnSn _)).
Qed.

Lemma before_used ws d k : (0 < k < used ws d)%N -> ~~ sat ws k.
Proof.
  move=> /andP [H0 Hk]. move: Hk. rewrite /SlqRunProofs.used leq_min => /andP [Hk1 Hk2].
  have Hb : (k.-1 < find (sat ws) (iota 1 d))%N by rewrite prednK.
  have := before_find 0%N Hb. rewrite nth_iota; last by rewrite prednK // ltnW.
  by rewrite add1n prednK // => ->.
Qed.

Lemma inv_finish ws d s : (0 < mx)%N -> inv ws d s -> finished T s ->
  [/\ stops_at z atol rtol mn mx (X ws) 0 (used ws d), (used ws d <= size ws)%N &
      exists2 r, finish (F z) (F zo) s = Some r & parallel_reports z atol rtol mn mx (X ws ^~ 0%N) zo (used ws d) r].
Proof.
  move=> Hmx H [Htodo Hidle].
  have Hlock : ps_lock s = None.
  { case El: (ps_lock s) => [t|] //. have [Ht Hc] := i_lock2 H El. by rewrite (Hidle t Ht) in Hc. }
  have [Hd Hall] := i_open H Hlock. have [Ssz Hrow] := i_rows H.
  have Hcmx := i_count_le H.
  have Sor : size (ords s) = ps_count s by rewrite size_takel // (i_osize H).
  have Hfull : ~~ flag ws d -> d = mx.
  { move=> Hf. case: (i_cover H) => [|Hcov]; first by rewrite (negbTE Hf).
    have Hs : {subset iota 0 mx <= ords s}.
    { move=> i. rewrite mem_iota add0n => /= Hi. case: (Hcov i Hi) => [|//|[t Ht]]; first by rewrite Htodo.
      by rewrite (Hidle t Ht). }
    have := uniq_leq_size (iota_uniq 0 mx) Hs. rewrite size_iota Sor Hd => Hle. by apply/eqP; rewrite eqn_leq Hle Hcmx. }
  have Hd0 : (0 < d)%N.
  { case: (posnP d) => // E0. have Hf : ~~ flag ws d by rewrite E0. by rewrite -(Hfull Hf) E0 in Hmx. }
  have Hule : (used ws d <= d)%N by exact: used_le.
  have Hsat := flag_sat' ws Hd0.
  set K := used ws d in Hule Hsat *.
  have Hst : stops_at z atol rtol mn mx (X ws) 0 K.
  { split.
    - by rewrite used_pos // (leq_trans Hule) // Hd.
    - exact: before_used.
    - rewrite -Hsat. case: (boolP (flag ws d)) => Hf; [by left|right]. by rewrite /K used_notflag // Hfull. }
  split; [exact: Hst|by rewrite -(i_count H) -Hd|].
  have Hcell k : (k < K)%N -> cell s (nth 0%N (ps_order s) k) = F (X ws k 0).
  { move=> Hk. have Hkc : (k < ps_count s)%N by rewrite -Hd (leq_trans Hk).
    case: (i_cells H Hkc) => // -[_ _]. by rewrite leqNgt Hk. }
  have Hord k : (k < K)%N -> (nth 0%N (ps_order s) k < mx)%N.
  { move=> Hk. have Hkc : (k < ps_count s)%N by rewrite -Hd (leq_trans Hk).
    apply: (i_olt H). rewrite -(nth_take 0%N Hkc). apply: mem_nth. by rewrite -/(ords s) Sor. }
  have Hr k : (k < K)%N -> nth [::] (ps_samples s) (nth 0%N (ps_order s) k) = [:: F (X ws k 0)].
  { move=> Hk. have := Hrow _ (Hord k Hk). have := Hcell k Hk. rewrite /cell.
    by case: (nth [::] (ps_samples s) _) => [|x [|? ?]] //= ->. }
  have [_ Su Sc] := i_out H.
  have Eu : co_used (ps_out s) = [:: K].
  { have := i_used H. by case: (co_used _) Su => [|x [|? ?]] //= _ ->. }
  have Ec : co_converged (ps_out s) = [:: flag ws d].
  { have := i_conv H. by case: (co_converged _) Sc => [|x [|? ?]] //= _ ->. }
  pose xs := [seq X ws k 0 | k <- iota 0 K].
  have Hcol : ConvModel.column (ps_samples s) (ps_order s) K 0 = Some (map F xs).
  { apply/columnP. split.
    - by rewrite !size_map size_iota.
    - by rewrite (i_osize H) (leq_trans Hule) // Hd.
    - move=> k Hk. rewrite /ConvModel.entry (rdE [::]) ?Ssz ?Hord // Hr // [obind _ _]/=.
      by rewrite (nth_map 0) ?size_map ?size_iota // (nth_map 0%N) ?size_iota // nth_iota. }
  have Hq j : (j < 1)%N -> exists k col, rd (co_used (ps_out s)) j = Some k /\
    ConvModel.column (ps_samples s) (ps_order s) k j = Some col.
  { case: j => // _. exists K, (map F xs). by rewrite Eu. }
  have [res [Eres [Sr Hres]]] := @PropConv.C29_all_inquiries R (F z) (F zo) (ps_samples s) (ps_order s) (co_used (ps_out s)) 1 Hq.
  have E0 : nth (0%N, NaN, NaN) res 0 = average_column (F z) (F zo) (map F xs).
  { apply: (Hres 0%N K (map F xs)) => //. by rewrite Eu. }
  have Er : res = [:: average_column (F z) (F zo) (map F xs)].
  { by case: res Sr E0 {Eres Hres} => [|x [|? ?]] //= _ ->. }
  rewrite /finish Eres [obind _ _]/=. eexists; first reflexivity.
  have Hsat' : satisfied z atol rtol mn (fun k (_ : nat) => X ws k 0) 0 K = flag ws d by rewrite Hsat.
  rewrite Er Eu Ec Hall /parallel_reports Hsat'. split=> //=.
  - split; [exact: i_osize H| |exact: Hord]. have := i_ouniq H.
    have -> : take K (ps_order s) = take K (ords s) by rewrite /ords take_take // -Hd.
    exact: take_uniq.
  - exists (average_column (F z) (F zo) (map F xs)).1.2, (average_column (F z) (F zo) (map F xs)).2,
      (average_column (F z) (F zo) (map F xs)).1.1.
    split=> //. split.
    + move=> H1 H2. have [no [er [-> A _ _ _]]] := PropConv.C29_mean_of_inliers z H1 H2. by [].
    + move=> H1. have H2 : inliers zo xs != [::] by rewrite -size_eq0 -lt0n ltnW.
      have H3 : (1 < size xs)%N by rewrite (leq_trans H1) // size_filter count_size.
      have [no [er [-> _ A _ _]]] := PropConv.C29_mean_of_inliers z H3 H2. exact: A.
    + move=> x Ex H1 H2. have Exs : xs = [:: x] by exact: Ex. by rewrite Exs (PropConv.C29_one_sample x H1 H2).
Qed.

(** ** Samples processed after convergence *)
Definition active (p : place) : bool :=
  match p with Draw _ | Look _ | Work _ _ | Enter _ => true | _ => false end.
Definition actives (f : nat -> place) : nat := (\sum_(u < T) active (f u))%N.

Lemma actives_put f t p : (t < T)%N -> (actives (put f t p) + active (f t) = actives f + active p)%N.
Proof. exact: (rank_put (fun p => nat_of_bool (active p))). Qed.
Lemma actives_same f t p : (t < T)%N -> active p = active (f t) -> actives (put f t p) = actives f.
Proof. move=> Ht Ha. have := actives_put f p Ht. by rewrite Ha => /addIn. Qed.
Lemma actives_lt f t : (t < T)%N -> ~~ active (f t) -> (actives f < T)%N.
Proof.
  move=> Ht Ha. rewrite /actives (bigD1 (Ordinal Ht)) //= (negbTE Ha) add0n.
  apply: (@leq_trans (\sum_(u < T | u != Ordinal Ht) 1).+1).
  - rewrite ltnS. apply: leq_sum => u _. exact: leq_b1.
  - rewrite sum1_card. have := cardC1 (Ordinal Ht). rewrite card_ord => ->. by case: (T) Ht.
Qed.

Notation conv s := (nth false (co_converged (ps_out s)) 0).
Notation reused s := (nth 0%N (co_used (ps_out s)) 0).

Record exc (s : pstate R) : Prop := Exc {
  e_all : ps_all s -> (ps_count s + actives (ps_place s) < reused s + T)%N;
  e_new : ~~ ps_all s -> conv s -> ps_count s = reused s;
  e_inside : forall t i, (t < T)%N -> ps_place s t = Inside i -> ps_all s = conv s }.

Lemma exc_goto s t p : exc s -> (t < T)%N -> (ps_all s -> active p -> active (ps_place s t)) ->
  (forall i, p <> Inside i) -> exc (goto s t p).
Proof.
  move=> [H1 H2 H3] Ht Ha Hp. split=> //=.
  - move=> Hall. have := actives_put (ps_place s) p Ht. have := H1 Hall. have := Ha Hall.
    case: (active p) => [/(_ isT) -> /=|_]; rewrite ?addn0; lia.
  - move=> t' i Ht'. case: (eqVneq t' t) => [->|/eqP Hn]; first by rewrite putE => /Hp.
    rewrite putN //. exact: H3.
Qed.

Lemma step_exc ws d s t i0 s' : inv ws d s -> exc s -> (t < T)%N -> step t i0 s = Next s' -> exc s'.
Proof.
  move=> H He Ht. rewrite /ParRunModel.step.
  have Honly t' : critical (ps_place s t) -> (t' < T)%N -> critical (ps_place s t') -> t' = t.
  { move=> /(i_lock1 H Ht) Hl Ht' /(i_lock1 H Ht'). by rewrite Hl => -[]. }
  case Ep: (ps_place s t) => [|i|i|i|i b|i|i|i b].
  - case: ifP => // _ [<-]. apply: exc_goto => //=; rewrite ?Ep //. by case: He.
  - case=> <-. apply: exc_goto => //; last by case: ps_all.
    by move=> ->.
  - have [r -> Hinv] := inv_draw H Ht Ep. case=> <-. apply: exc_goto => //=; rewrite ?Ep //. by case: He.
  - have [_ _ Sc] := i_out H. rewrite (rdE false) ?Sc //=. case=> <-. apply: exc_goto => //. by rewrite Ep.
  - have [_ _ Sc] := i_out H. rewrite (rdE false) ?Sc //=. case: (conv s); first by case=> <-; apply: exc_goto; rewrite ?Ep.
    case: b Ep => Ep //. case: (sample _ _ _) => //= r. case: (store _ _ _) => //= ss [<-].
    apply: exc_goto => //=; rewrite ?Ep //. by case: He.
  - case El: (ps_lock s) => [//|]. have [o' -> Hinv] := inv_enter H Ht Ep El. case=> <-.
    have [_ Hall] := i_open H El. split=> /=.
    + move=> Ha. have := e_all He Ha. have := actives_put (ps_place s) (Inside i) Ht. rewrite Ep /=. lia.
    + rewrite Hall (i_conv H). by case: (flag _ _).
    + by rewrite Hall (i_conv H).
  - have [c -> Hinv] := inv_inside H Ht Ep. case=> <-.
    have Ec := i_conv Hinv. have Eu := i_used Hinv. rewrite /= in Ec Eu.
    have Ha := e_inside He Ht Ep. rewrite (i_conv H) in Ha. have Hcd := i_inside H Ht Ep.
    split=> /=.
    + move=> Hall. rewrite Hall in Ha. rewrite actives_same ?Ep //. have := e_all He Hall.
      rewrite (i_used H) Eu. by have [_ ->] := flag_keep' (esym Ha).
    + move=> Hn. rewrite Ha in Hn. by rewrite Eu (usedS' Hn).
    + move=> t' k Ht'. case: (eqVneq t' t) => [->|/eqP Hn]; first by rewrite putE.
      rewrite putN // => E. case: Hn. apply: Honly => //; by rewrite ?Ep ?E.
  - case=> <-. have [Hd Eb] := i_leave H Ht Ep. split=> /=.
    + move=> Hb. rewrite actives_same ?Ep //. case: (boolP (ps_all s)) => Hall; first exact: e_all.
      have Hc : conv s by rewrite (i_conv H) -Eb.
      rewrite -(e_new He Hall Hc) ltn_add2l. apply: (actives_lt Ht). by rewrite Ep.
    + by rewrite (i_conv H) -Eb => /negbTE ->.
    + move=> t' k Ht'. case: (eqVneq t' t) => [->|/eqP Hn]; first by rewrite putE.
      rewrite putN // => E. case: Hn. apply: Honly => //; by rewrite ?Ep ?E.
Qed.

Lemma exc_start clock seed vector error : exc (pstart T mx clock seed vector error).
Proof. by split. Qed.

Lemma execute_exc schedule s s' ws d : inv ws d s -> exc s -> execute schedule s = Next s' -> exc s'.
Proof.
  elim: schedule s ws d => [|[t i] rest IH] s ws d H He /=; first by case=> <-.
  case: (ltnP t T) => Ht //. case Es: (step t i s) => [| |s2] //.
  have He2 := step_exc H He Ht Es. case: (step_inv i H Ht) => [[s3 [E [ws' [d' H']] _]]|[E _]].
  - move: E. rewrite Es => -[E]. rewrite -E in H'. exact: IH H' He2.
  - by rewrite E in Es.
Qed.

(** At most threads - 1 samples are processed in vain. *)
Lemma finish_excess ws d s : (0 < T)%N -> inv ws d s -> exc s -> finished T s -> (size ws < used ws d + T)%N.
Proof.
  clear sampleE z_ge0. move=> HT H He [Htodo Hidle].
  have Hlock : ps_lock s = None.
  { case El: (ps_lock s) => [t|] //. have [Ht Hc] := i_lock2 H El. by rewrite (Hidle t Ht) in Hc. }
  have [Hd Hall] := i_open H Hlock. rewrite -(i_count H). case: (boolP (flag ws d)) => Hf.
  - have Ha : ps_all s by rewrite Hall. have := e_all He Ha. rewrite (i_used H). lia.
  - rewrite used_notflag // -Hd. lia.
Qed.

End Run.
