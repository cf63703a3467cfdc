(** The test vectors of the Hutchinson method: C66. *)
From Coq Require Import ZArith NArith.
From mathcomp Require Import all_ssreflect all_algebra.
From mathcomp Require Import zify.
From mathcomp.real_closed Require Import realalg.
From Verif Require Import Mem KernelModel KernelSpec KernelProofs LanczosModel LanczosSpec
  LanczosMath LanczosProofs OrthoModel OrthoProofs RngModel RngProofs.
From Verif Require FillModel PropFill.
From Verif Require Import ConvModel ConvSpec MatSpec HutchModel HutchRunModel HutchRunSpec
  PropHutch PropHutchRun PropLanczos HutchVecModel HutchVecProofs.
Set Implicit Arguments.
Unset Strict Implicit.
Unset Printing Implicit Defensive.
Import GRing.Theory Num.Theory Order.TTheory.
Local Open Scope ring_scope.

(** ** The random arrays *)

Definition is_sign (z : Z) : Prop := z = Zpos xH \/ z = Zneg xH.

Lemma nth_error_nth (T : Type) (d : T) (s : seq T) k x : List.nth_error s k = Some x -> nth d s k = x.
Proof. elim: s k => [|y s IH] [|k] //=; [by case|exact: IH]. Qed.

Lemma nth_error_lt (T : Type) (s : seq T) k x : List.nth_error s k = Some x -> (k < size s)%N.
Proof. elim: s k => [|y s IH] [|k] //= H; rewrite ltnS. exact: IH H. Qed.

Lemma lengthE (T : Type) (s : seq T) : length s = size s.
Proof. by []. Qed.

Lemma rng_size T clock seed : length (rng_initialize T clock seed) = T.
Proof. by rewrite /rng_initialize List.map_length List.seq_length. Qed.

Lemma rng_first clock seed : exists g, List.nth_error (rng_initialize 1 clock seed) 0 = Some g.
Proof.
  case E : (List.nth_error _ 0) => [g|]; first by exists g.
  move/List.nth_error_None: E. rewrite rng_size. by move/ssrnat.leP.
Qed.

Local Opaque rng_initialize.

(** Whatever the order of the threads, every entry is a sign. *)
Lemma fill_signs lo T clock seed a0 a : (0 < T)%N ->
  PropFill.splits lo T (Nat.div (size a0) 64) ->
  may_fill lo T clock seed a0 a ->
  size a = size a0 /\ forall k, (k < size a0)%N -> is_sign (nth Z0 a k).
Proof.
  move=> HT Hs [sched [s [table' [Hr Hf He]]]].
  have [|||s' [Hr' /(_ _) H]] := @PropFill.C54_filled lo T (rng_initialize T clock seed) a0 (size a0) sched _ _ _ Hs.
  - exact/ssrnat.ltP.
  - exact: rng_size.
  - exact: le_n.
  rewrite Hr in Hr'. case: Hr' H => <- /(_ Hf) [t2 [a2 [Hf2 [Hl [Hsg _]]]]].
  rewrite He in Hf2. case: Hf2 => _ Ea. rewrite -Ea in Hl Hsg *. split=> [|k Hk]; first exact: Hl.
  have [|] := Hsg k (elimT ssrnat.ltP Hk).
  - move=> /(nth_error_nth Z0) ->. by left.
  - move=> /(nth_error_nth Z0) ->. by right.
Qed.

(** With one thread the array is the stream of the seed. *)
Lemma fill_one lo clock seed a0 a : PropFill.splits lo 1 (Nat.div (size a0) 64) ->
  may_fill lo 1 clock seed a0 a ->
  forall g, List.nth_error (rng_initialize 1 clock seed) 0 = Some g ->
  forall k, (k < size a0)%N ->
  nth Z0 a k = if N.testbit (nth_output g (Nat.div k 64)) (N.of_nat (Nat.modulo k 64)) then Zpos xH else Zneg xH.
Proof.
  move=> Hs [sched [s [table' [Hr Hf He]]]] g Hg k Hk.
  have Ho : PropFill.outcome lo 1 (rng_initialize 1 clock seed) a0 (size a0) a.
  { exists sched, s, table'. split; [exact Hr|split; [exact Hf|exact He]]. }
  have [H _] := PropFill.C54_one_thread lo (rng_initialize 1 clock seed) a0 a (size a0) (rng_size 1 clock seed) (le_n _) Hs.
  have [t1 H1] := H Ho.
  have [t2 [a2 [H2 [_ [H3 _]]]]] := generate_random_array_spec _ _ _ a0 (size a0) Hg (le_n _).
  rewrite H1 in H2. case: H2 => _ Ea. rewrite -Ea in H3.
  exact: nth_error_nth (H3 k (elimT ssrnat.ltP Hk)).
Qed.

Lemma alone_one clock seed n g : List.nth_error (rng_initialize 1 clock seed) 0 = Some g ->
  size (fill_alone clock seed n) = n /\ forall k, (k < n)%N ->
  nth Z0 (fill_alone clock seed n) k =
    if N.testbit (nth_output g (Nat.div k 64)) (N.of_nat (Nat.modulo k 64)) then Zpos xH else Zneg xH.
Proof.
  move=> Hg.
  have [|t2 [a2 [H2 [Hl [H3 _]]]]] := generate_random_array_spec _ _ _ (List.repeat Z0 n) n Hg _.
  { rewrite List.repeat_length. exact: le_n. }
  rewrite /fill_alone H2. split; first by rewrite -lengthE Hl List.repeat_length.
  move=> k Hk. exact: nth_error_nth (H3 k (elimT ssrnat.ltP Hk)).
Qed.

Lemma alone_signs clock seed n : size (fill_alone clock seed n) = n /\
  forall k, (k < n)%N -> is_sign (nth Z0 (fill_alone clock seed n) k).
Proof.
  have [g Hg] := rng_first clock seed. have [H1 H2] := alone_one n Hg. split; first exact: H1.
  move=> k Hk. rewrite (H2 k Hk). case: (N.testbit _ _); [by left|by right].
Qed.

(** With a seed and one thread a replacement repeats the first column. *)
Lemma alone_first lo clock clock' seed a0 a n : Z.le Z0 seed ->
  PropFill.splits lo 1 (Nat.div (size a0) 64) -> may_fill lo 1 clock seed a0 a ->
  (n <= size a0)%N -> forall k, (k < n)%N ->
  nth Z0 (fill_alone clock' seed n) k = nth Z0 a k.
Proof.
  move=> H0 Hs Hm Hn k Hk.
  have [g Hg] := rng_first clock seed.
  have Hg' : List.nth_error (rng_initialize 1 clock' seed) 0 = Some g.
  { rewrite (rng_initialize_clock 1 clock' clock _ H0). exact: Hg. }
  have [_ E] := alone_one n Hg'. rewrite (E k Hk).
  rewrite (fill_one Hs Hm Hg); [reflexivity|exact: leq_trans Hk Hn].
Qed.

Lemma alone_clock c c' seed n : Z.le Z0 seed -> fill_alone c seed n = fill_alone c' seed n.
Proof. move=> H. rewrite /fill_alone (rng_initialize_clock 1 c c' _ H). reflexivity. Qed.

Local Opaque fill_alone.

(** ** The columns *)
Section Columns.
Variable R : rcfType.
Notation F := (@Fin R).

(** The first [k] columns of E are orthonormal. *)
Definition orthonormal n (E : seq R) (k : nat) : Prop :=
  forall i j, (i < k)%N -> (j < k)%N -> ip (column n E i) (column n E j) = (i == j)%:R.

Lemma ov_loop_first (eps : R) fresh fuel n k V : (0 < k)%N ->
  ov_loop eps fresh fuel.+1 n k 0 true 0 0 V = ov_loop eps fresh fuel n k 1 true 0 0 V.
Proof. by move=> Hk /=; rewrite Hk. Qed.

Lemma ortho_ext (eps : R) fresh fresh' V n k : (forall l, fresh l = fresh' l) ->
  orthogonalize_vectors eps fresh V n k = orthogonalize_vectors eps fresh' V n k.
Proof.
  move=> H. rewrite /orthogonalize_vectors. case: ifP => // _.
  have G fuel : forall i su tr dr W, ov_loop eps fresh fuel n k i su tr dr W = ov_loop eps fresh' fuel n k i su tr dr W.
  { elim: fuel => [//|fuel IH] i su tr dr W /=. case: ifP => // _. case: ifP => // _.
    case: (ov_pass eps n i W) => // -[W1 fl]. rewrite [LHS]/= [RHS]/= H.
    case: fl; last exact: IH. case: (upd_at _ _ _) => // W'. exact: IH. }
  exact: G.
Qed.

Lemma columnE n (E : seq R) i : column n E i = slot n E i.
Proof. by apply/colP => r; rewrite slotE mxE. Qed.

Lemma entry_sign z : is_sign z -> entry R z = 1 \/ entry R z = -1.
Proof. by move=> [->|->]; [left|right]. Qed.

Lemma entry_sqr z : is_sign z -> entry R z * entry R z = 1.
Proof. by move/entry_sign => [->|->]; rewrite ?mulr1 // mulrNN mulr1. Qed.

Lemma normalizeE (V : seq R) n k : (k * n <= size V)%N ->
  exists2 E, normalize_columns V n k = Some E & size E = size V /\
    forall i, (i < k)%N -> slot n E i = (nrm (slot n V i))^-1 *: slot n V i.
Proof.
  move=> HV. rewrite /normalize_columns.
  pose I (j : nat) (W : seq R) := size W = size V /\
    forall i, slot n W i = if (i < j)%N then (nrm (slot n V i))^-1 *: slot n V i else slot n V i.
  have [W -> [S1 S2]] : exists2 W, for_ 0 k 1 (fun j V => do p <- normalize_at V (j * n) n; Some p.2) V
      = Some W & I k W.
  { apply: for1_inv; [exact: leq0n|by []|].
    move=> j W /andP [_ Hj] [W1 W2]. have HW : (k * n <= size W)%N by rewrite W1.
    have [W' [-> T1 T2]] := normalize_at_ok Hj HW. exists W' => //. split; first by rewrite T1.
    move=> i. rewrite T2 !W2 ltnn ltnS.
    case: ltngtP => [||->] //=. }
  exists W => //. split=> // i Hi. by rewrite S2 Hi.
Qed.

Lemma sign_slot n (a : seq Z) k : size a = (k * n)%N -> (forall l, (l < k * n)%N -> is_sign (nth Z0 a l)) ->
  forall i, (i < k)%N -> forall r : 'I_n, slot n [seq entry R z | z <- a] i r 0 = entry R (nth Z0 a (i * n + r)) /\
    is_sign (nth Z0 a (i * n + r)).
Proof.
  move=> Ha Hs i Hi r. have Hl : (i * n + r < k * n)%N.
  { apply: (@leq_trans (i.+1 * n)); last by rewrite leq_mul2r Hi orbT.
    by rewrite mulSn addnC ltn_add2r. }
  split; last exact: Hs. by rewrite slotE (nth_map Z0) ?Ha.
Qed.

Lemma sign_nrm n (a : seq Z) k : size a = (k * n)%N -> (forall l, (l < k * n)%N -> is_sign (nth Z0 a l)) ->
  forall i, (i < k)%N -> nrm (slot n [seq entry R z | z <- a] i) = Num.sqrt n%:R.
Proof.
  move=> Ha Hs i Hi. rewrite /nrm; congr Num.sqrt. rewrite /ip.
  rewrite (eq_bigr (fun _ => 1)) => [|r _]; first by rewrite sumr_const card_ord.
  have [-> Hz] := sign_slot Ha Hs Hi r. exact: entry_sqr.
Qed.

Section Call.
Variables (eps : R) (lo : nat -> nat) (num_threads : nat) (clock : nat -> N) (clocks : nat -> nat -> N).
Variables (seed : Z) (a0 : seq Z) (n k : nat).
Hypothesis eps_range : 0 < eps <= 1.
Hypothesis threads_gt0 : (0 < num_threads)%N.
Hypothesis n_gt0 : (0 < n)%N.
Hypothesis a0_size : size a0 = (k * n)%N.
Hypothesis schedule : PropFill.splits lo num_threads (Nat.div (k * n) 64).

Notation fresh := (fun l => [seq entry R z | z <- fill_alone (clocks l) seed n]).

Lemma fresh_size l : size (fresh l) = n.
Proof. rewrite size_map. by case: (alone_signs (clocks l) seed n). Qed.

Lemma filled a : may_fill lo num_threads clock seed a0 a ->
  [/\ size a = (k * n)%N, forall l, (l < k * n)%N -> is_sign (nth Z0 a l) &
      forall i, (i < k)%N -> eps * Num.sqrt n%:R <= nrm (slot n [seq entry R z | z <- a] i)].
Proof.
  move=> Hm. have H := fill_signs threads_gt0 _ Hm. rewrite a0_size in H. have [H1 H2] := H schedule.
  split=> // i Hi. rewrite (sign_nrm H1 H2 Hi). case/andP: eps_range => _ He.
  by rewrite ler_pimull // sqrtr_ge0.
Qed.

(** With orthogonalize=True, every call that returns gives orthonormal columns,
    in every schedule and for every seed.  What is missing from the full claim:
    the call may abort (below). *)
Theorem C66_orthonormal_partial r : (k <= n)%N ->
  may_generate eps lo num_threads clock clocks seed true a0 n k r ->
  r = Some None \/ exists2 E, r = Some (Some E) & size E = (k * n)%N /\ orthonormal n E k.
Proof.
  move=> Hk [a Hm ->]. have [H1 H2 H3] := filled Hm. case/andP: eps_range => He _.
  rewrite /column_vectors. set V := [seq _ | z <- a].
  have SV : size V = (k * n)%N by rewrite size_map.
  case: (posnP k) => Hk0.
  { right. rewrite /orthogonalize_vectors Hk0 /=. rewrite Hk0 mul0n in SV. exists V; first by [].
    rewrite mul0n. split=> //. }
  have [|[V'|] [-> Hr]] := C22_orthogonalize_vectors_partial He n_gt0 fresh_size SV; last by left.
  { have := H3 0%N Hk0. by rewrite /slot mul0n drop0. }
  right. have [S1 S2 S3] := Hr V' erefl. rewrite [obind _ _]/=.
  have HV' : (k * n <= size V')%N by rewrite S1 SV.
  have [E -> [T1 T2]] := normalizeE HV'. exists E => //. rewrite T1 S1 SV. split=> // i j Hi Hj.
  rewrite !columnE !T2 // ipZr ipC ipZr.
  have Hz i0 : (i0 < k)%N -> nrm (slot n V' i0) != 0 by move=> H; rewrite nrm_eq0; exact: S2.
  case: (ltngtP i j) => Hij.
  - rewrite [ip _ _]ipC (S3 i j) //; last by lia. by rewrite !mulr0.
  - rewrite (S3 j i) //; last by lia. by rewrite !mulr0.
  - rewrite -Hij -nrm_sqr expr2. rewrite mulKf ?mulVf //; exact: Hz.
Qed.

(** With orthogonalize=False the columns are sign vectors divided by sqrt n. *)
Theorem C66_plain r : may_generate eps lo num_threads clock clocks seed false a0 n k r ->
  exists2 E, r = Some (Some E) & size E = (k * n)%N /\
    forall i, (i < k)%N -> nrm (column n E i) = 1 /\
      forall l, column n E i l 0 = (Num.sqrt n%:R)^-1 \/ column n E i l 0 = - (Num.sqrt n%:R)^-1.
Proof.
  move=> [a Hm ->]. have [H1 H2 H3] := filled Hm. rewrite /column_vectors [obind _ _]/=.
  set V := [seq _ | z <- a]. have SV : size V = (k * n)%N by rewrite size_map.
  have HV : (k * n <= size V)%N by rewrite SV.
  have [E -> [T1 T2]] := normalizeE HV. exists E => //. rewrite T1 SV. split=> // i Hi.
  rewrite columnE T2 // (sign_nrm H1 H2 Hi).
  have Hs : Num.sqrt n%:R != 0 :> R by rewrite gt_eqF // sqrt_n_gt0.
  split; first by rewrite nrmZ (sign_nrm H1 H2 Hi) ger0_norm ?invr_ge0 ?sqrtr_ge0 // mulVf.
  move=> l. rewrite mxE. have [-> /entry_sign] := sign_slot H1 H2 Hi l.
  by case=> ->; [left|right]; rewrite ?mulr1 // mulrN1.
Qed.

(** The call returns, without replacing a vector, if each random vector is not
    nearly a combination of the preceding ones: further than eps sqrt n. *)
Theorem C66_returns_partial r a : (k <= n)%N -> may_fill lo num_threads clock seed a0 a ->
  r = column_vectors eps clocks seed true [seq entry R z | z <- a] n k ->
  (forall i x, (i < k)%N -> combination (column n [seq entry R z | z <- a]) i x ->
     eps * Num.sqrt n%:R <= nrm (column n [seq entry R z | z <- a] i - x)) ->
  exists2 E, r = Some (Some E) & orthonormal n E k.
Proof.
  move=> Hk Hm Hr Hfar. have [H1 H2 H3] := filled Hm. case/andP: eps_range => He _.
  have Hg : may_generate eps lo num_threads clock clocks seed true a0 n k r by exists a.
  have [Ha|[E -> [_ HE]]] := C66_orthonormal_partial Hk Hg; last by exists E.
  exfalso. move: Ha. rewrite Hr /column_vectors. set V := [seq _ | z <- a].
  have SV : (k * n <= size V)%N by rewrite size_map H1.
  have Hloop : exists V', orthogonalize_vectors eps fresh V n k = Some (Some V') /\ size V' = size V.
  { rewrite /orthogonalize_vectors. case: ltnP => Hk2; first by exists V.
    have Hk0 : (0 < k)%N by exact: ltnW.
    set fuel := (k * 22)%N. rewrite ov_loop_first //.
    have Hf a1 : (a1 < k)%N -> far eps (slot n V) a1.
    { move=> Ha x Hx. rewrite -columnE. apply: Hfar => //. apply: comb_ext Hx => b _. by rewrite columnE. }
    have Hfs l : (n <= size (fresh l))%N by rewrite fresh_size.
    have K1 : kept_all eps n V V 1. { apply: kept_first. exact: (H3 0%N Hk0). }
    have Hi : (0 < 1 <= k)%N by rewrite Hk0.
    have Hfu : (k - 1 < fuel)%N by rewrite /fuel; lia.
    have [V' -> [KS _ _ _]] := loop_far He fresh n_gt0 Hk 0 0 SV Hi Hf K1 Hfu.
    by exists V'. }
  have [V' [-> S1]] := Hloop. rewrite [obind _ _]/=.
  have HV' : (k * n <= size V')%N by rewrite S1.
  by have [E -> _] := normalizeE HV'.
Qed.

(** A matrix with fewer rows than the vectors asked for: the process ends. *)
Theorem C66_wide_refuted r : (n < k)%N ->
  may_generate eps lo num_threads clock clocks seed true a0 n k r -> r = Some None.
Proof.
  move=> Hk [a Hm ->]. have [H1 H2 H3] := filled Hm. case/andP: eps_range => He _.
  rewrite /column_vectors. set V := [seq _ | z <- a].
  have SV : size V = (k * n)%N by rewrite size_map.
  rewrite (C22_too_many_vectors_abort He n_gt0 fresh_size SV _ Hk) //.
  have Hk0 : (0 < k)%N by exact: leq_ltn_trans Hk.
  have := H3 0%N Hk0. by rewrite /slot mul0n drop0.
Qed.

(** Some order of the threads ends the call. *)
Theorem C66_ends orthogonalize : exists r, may_generate eps lo num_threads clock clocks seed orthogonalize a0 n k r.
Proof.
  have HT : (0 < num_threads)%coq_nat by exact/ssrnat.ltP.
  have Hl : (k * n <= length a0)%coq_nat by rewrite lengthE a0_size.
  have Ht := rng_size num_threads clock seed.
  have [[rest [s' [Hr Hf]]] _] := PropFill.C54_completes lo num_threads _ a0 (k * n) nil _ HT Ht Hl schedule erefl.
  have [s [Hr' H]] := PropFill.C54_filled lo num_threads _ a0 (k * n) rest HT Ht Hl schedule.
  rewrite Hr in Hr'. case: Hr' H => <- /(_ Hf) [t1 [a [Ha _]]].
  exists (column_vectors eps clocks seed orthogonalize [seq entry R z | z <- a] n k).
  exists a => //. exists rest, s', t1. split; [exact Hr|exact Hf|rewrite a0_size; exact Ha].
Qed.

Lemma plain_inj a a' : may_fill lo num_threads clock seed a0 a -> may_fill lo num_threads clock seed a0 a' ->
  column_vectors eps clocks seed false [seq entry R z | z <- a] n k =
  column_vectors eps clocks seed false [seq entry R z | z <- a'] n k -> a = a'.
Proof.
  move=> Hm Hm'. have [H1 H2 _] := filled Hm. have [G1 G2 _] := filled Hm'.
  rewrite /column_vectors [obind _ _]/= [X in _ = X]/=.
  set V := [seq _ | z <- a]. set W := [seq _ | z <- a'].
  have HV : (k * n <= size V)%N by rewrite size_map H1.
  have HW : (k * n <= size W)%N by rewrite size_map G1.
  have [E -> [_ T]] := normalizeE HV. have [E' -> [_ T']] := normalizeE HW. case=> EE.
  apply: (@eq_from_nth _ Z0) => [|l]; rewrite H1 ?G1 // => Hl.
  have Hi : (l %/ n < k)%N by rewrite ltn_divLR.
  have Hr : (l %% n < n)%N by rewrite ltn_mod.
  have := T _ Hi. rewrite EE T' // (sign_nrm H1 H2 Hi) (sign_nrm G1 G2 Hi) => /colP /(_ (Ordinal Hr)).
  have [S1 S2] := sign_slot H1 H2 Hi (Ordinal Hr). have [U1 U2] := sign_slot G1 G2 Hi (Ordinal Hr).
  rewrite -/V in S1. rewrite -/W in U1. rewrite mxE [X in _ = X -> _]mxE S1 U1 /= -divn_eq.
  rewrite /= -divn_eq in S2. rewrite /= -divn_eq in U2.
  move=> /mulfI Heq. have {Heq} : entry R (nth Z0 a' l) = entry R (nth Z0 a l).
  { apply: Heq. by rewrite invr_eq0 gt_eqF // sqrt_n_gt0. }
  have E1 : (1 == -1 :> R) = false by rewrite -subr_eq0 opprK -mulr2n pnatr_eq0.
  case: S2 => ->; case: U2 => -> //; rewrite /entry /= => /eqP; by rewrite ?[-1 == 1]eq_sym E1.
Qed.

End Call.

(** ** One thread and a seed *)
Section Seeded.
Variables (eps : R) (lo : nat -> nat) (seed : Z) (n k : nat).
Hypothesis eps_range : 0 < eps <= 1.
Hypothesis n_gt0 : (0 < n)%N.
Hypothesis schedule : PropFill.splits lo 1 (Nat.div (k * n) 64).
Hypothesis seed_ge0 : Z.le Z0 seed.

Lemma fill_unique clock clock' a0 a0' a a' : size a0 = (k * n)%N -> size a0' = (k * n)%N ->
  may_fill lo 1 clock seed a0 a -> may_fill lo 1 clock' seed a0' a' -> a = a'.
Proof.
  move=> S S' Hm Hm'.
  have Hs : PropFill.splits lo 1 (Nat.div (size a0) 64) by rewrite S.
  have Hs' : PropFill.splits lo 1 (Nat.div (size a0') 64) by rewrite S'.
  have T1 : (0 < 1)%N by [].
  have [E1 _] := fill_signs T1 Hs Hm. have [E2 _] := fill_signs T1 Hs' Hm'.
  apply: (@eq_from_nth _ Z0); first by rewrite E1 E2 S S'.
  move=> l Hl. rewrite E1 in Hl.
  rewrite -(alone_first clock seed_ge0 Hs Hm (leqnn _) Hl).
  have Hl' : (l < size a0')%N by rewrite S' -S.
  rewrite S -S'. exact: (alone_first clock seed_ge0 Hs' Hm' (leqnn _) Hl').
Qed.

(** A seed fixes the vectors. *)
Theorem C66_reproducible_partial clock clock' clocks clocks' orthogonalize a0 a0' r r' :
  size a0 = (k * n)%N -> size a0' = (k * n)%N ->
  may_generate eps lo 1 clock clocks seed orthogonalize a0 n k r ->
  may_generate eps lo 1 clock' clocks' seed orthogonalize a0' n k r' -> r = r'.
Proof.
  move=> S S' [a Hm ->] [a' Hm' ->]. rewrite (fill_unique S S' Hm Hm').
  have E c c' : fill_alone c seed n = fill_alone c' seed n.
  { exact: alone_clock. }
  have Ef V : orthogonalize_vectors eps (fun l => [seq entry R z | z <- fill_alone (clocks l) seed n]) V n k =
              orthogonalize_vectors eps (fun l => [seq entry R z | z <- fill_alone (clocks' l) seed n]) V n k.
  { apply: ortho_ext => l. rewrite (E (clocks l) (clocks' l)). reflexivity. }
  rewrite /column_vectors. case: orthogonalize; last reflexivity.
  exact (f_equal (fun x => do r <- x; if r is Some V then omap Some (normalize_columns V n k) else Some None)
    (Ef [seq entry R z | z <- a'])).
Qed.

(** With a seed and one thread, the process ends as soon as one random vector
    is a combination of the preceding ones: the replacement is the first vector
    again, twenty times. *)
Theorem C66_seed_abort_refuted clock clocks a0 a i r : (k <= n)%N -> size a0 = (k * n)%N ->
  may_fill lo 1 clock seed a0 a ->
  r = column_vectors eps clocks seed true [seq entry R z | z <- a] n k ->
  (0 < i < k)%N ->
  combination (column n [seq entry R z | z <- a]) i (column n [seq entry R z | z <- a] i) ->
  r = Some None.
Proof.
  move=> Hk S Hm -> Hi Hc. have /andP [Hi0 Hik] := Hi. have Hk0 : (0 < k)%N by exact: ltn_trans Hik.
  have Hs : PropFill.splits lo 1 (Nat.div (size a0) 64) by rewrite S.
  have T1 : (0 < 1)%N by [].
  have [H1 H2 H3] := filled eps_range T1 S schedule Hm. case/andP: eps_range => He _.
  rewrite /column_vectors. set V := [seq _ | z <- a]. set fresh := fun l : nat => [seq entry R z | z <- _].
  have SV : size V = (k * n)%N by rewrite size_map.
  have HV : (k * n <= size V)%N by rewrite SV.
  have Hf l : size (fresh l) = n by exact: fresh_size.
  have Hf' l : (n <= size (fresh l))%N by rewrite Hf.
  have [|[V'|] [E _]] := C22_orthogonalize_vectors_partial He n_gt0 Hf SV; last by rewrite E.
  { have := H3 0%N Hk0. by rewrite /slot mul0n drop0. }
  exfalso. move: E. rewrite /orthogonalize_vectors.
  have -> : (k < 2)%N = false by apply/negbTE; rewrite -leqNgt; exact: leq_ltn_trans Hi0 Hik.
  rewrite ov_loop_first //.
  have Hn0 : (n <= size a0)%N by rewrite S; exact: leq_pmull.
  have Hsame l : vec n (fresh l) = slot n V 0.
  { apply/colP => q. rewrite slotE mxE mul0n add0n.
    rewrite !(nth_map Z0); first last.
    - have [-> _] := alone_signs (clocks l) seed n. exact: ltn_ord.
    - rewrite H1. apply: leq_trans (ltn_ord q) _. exact: leq_pmull.
    by rewrite (alone_first (clocks l) seed_ge0 Hs Hm Hn0 (ltn_ord q)). }
  have K1 : kept_all eps n V V 1 by apply: kept_first; exact: (H3 0%N Hk0).
  have Hi1 : (0 < 1 <= k)%N by rewrite Hk0.
  move=> /(loop_same He n_gt0 Hf' Hk HV Hsame Hi1 K1 erefl) K.
  apply: (kept_independent He n_gt0 Hk K Hi).
  rewrite -columnE. apply: comb_ext Hc => b _. by rewrite columnE.
Qed.

End Seeded.

(** ** A full set of vectors gives the exact value *)

(** What the run computes from the i-th column (HutchModel). *)
Definition estimate_of n (A : 'M[R]_n) (B C : option 'M[R]_n) gram p (E : seq R) (i : nat) : option (num R) :=
  omap F (hutchinson_sample A B C gram p (column n E i)).

Lemma orthonormal_trace n (E : seq R) (Op : 'M[R]_n) : orthonormal n E n ->
  \sum_(i < n) ((column n E i)^T *m Op *m column n E i) 0 0 = \tr Op.
Proof.
  move=> HE. pose M : 'M[R]_n := \matrix_(r, i) column n E i r 0.
  have HM : M^T *m M = 1%:M.
  { apply/matrixP => i j. rewrite !mxE -(HE i j (ltn_ord i) (ltn_ord j)).
    apply: eq_bigr => r _. by rewrite !mxE. }
  rewrite -[in RHS](mulmx1 Op) -(mulmx1C HM) mulmxA mxtrace_mulC mulmxA.
  apply: eq_bigr => i _. rewrite !mxE. apply: eq_bigr => r _. rewrite !mxE. congr (_ * _).
  apply: eq_bigr => q _. by rewrite !mxE.
Qed.

Lemma kept_whole (zo : R) xs : 0 <= zo -> ((size xs)%:R <= zo ^+ 2) -> kept zo xs = xs.
Proof.
  move=> Hzo Hs. apply/all_filterP/allP => x Hx.
  have Hn : (0 < size xs)%N by case: (xs) Hx.
  set S := \sum_(x <- xs) (x - mean xs) ^+ 2.
  have HS : (x - mean xs) ^+ 2 <= S.
  { rewrite /S (perm_big _ (perm_to_rem Hx)) big_cons /= ler_addl sumr_ge0 // => y _. exact: sqr_ge0. }
  have S0 : 0 <= S by apply: le_trans HS; exact: sqr_ge0.
  rewrite -ler_sqr ?nnegrE ?mulr_ge0 // ?sqrtr_ge0 // real_normK ?num_real //.
  rewrite exprMn sqr_sqrtr ?divr_ge0 ?ler0n // -/S.
  apply: le_trans HS _. rewrite mulrA ler_pdivl_mulr ?ltr0n // [S * _]mulrC. exact: ler_wpmul2r.
Qed.

(** With orthogonalize=True and at least n samples asked for, the value returned
    for an n x n matrix is exact, in every run that returns its vectors, unless
    estimates are discarded as outliers; none are if the outlier quantile is at
    least sqrt n. *)
Theorem C66_exact eps lo num_threads clock clocks seed a0 n (A : 'M[R]_n) (B C : option 'M[R]_n)
    (gram : bool) (p : int) E (z zo atol rtol : R) mn mx :
  0 < eps <= 1 -> (0 < num_threads)%N -> (0 < n)%N -> size a0 = (n * n)%N ->
  PropFill.splits lo num_threads (Nat.div (n * n) 64) ->
  may_generate eps lo num_threads clock clocks seed true a0 n n (Some (Some E)) ->
  A \in unitmx -> -1 <= p ->
  (gram -> p = -1 -> B = None /\ C = None) -> (gram -> p = 1 -> B = None -> C = None) ->
  0 <= z -> 1 <= zo -> (n <= mn)%N -> (n <= mx)%N ->
  exists2 rep, hutchinson_run (estimate_of A B C gram p E) (F z) (F zo) (F atol) (F rtol) n mn mx = Returns rep &
    rp_used rep = n /\
    ((rp_outliers rep = 0%N \/ n%:R <= zo ^+ 2) -> rp_trace rep = F (documented_trace A B C gram p)).
Proof.
  move=> He HT Hn Ha Hs Hg HA Hp H1 H2 Hz Hzo Hmn Hmx.
  have [//|[E' [<-] [_ HE]]] := C66_orthonormal_partial He HT Hn Ha Hs (leqnn n) Hg.
  have [Op [HTr Hsm]] := C38_samples_partial HA Hp H1 H2.
  pose f (i : nat) : R := n%:R * ((column n E i)^T *m Op *m column n E i) 0 0.
  have Hmin1 : minn mn n = n by apply/minn_idPr.
  have Hmin2 : minn mx n = n by apply/minn_idPr.
  have HK : stopping_point z atol rtol (minn mn n) (minn mx n) f n.
  { rewrite Hmin1 Hmin2. split; [by rewrite Hn leqnn| |by right].
    move=> j /andP [_ Hj]. by rewrite /may_stop leqNgt Hj. }
  have Hest i : (i < n)%N -> estimate_of A B C gram p E i = Some (F (f i)).
  { by rewrite /estimate_of Hsm. }
  have Hzo0 : 0 <= zo by exact: le_trans ler01 Hzo.
  set xs := first_estimates f n. have Sxs : size xs = n by rewrite size_map size_iota.
  have Hkn : kept zo xs != [::].
  { apply: HutchRunProofs.kept_nonempty => //. by rewrite Sxs. }
  have [rep Hrep [Hu _ Ht _ [Ho _ _ _ _]]] := C63_run_partial Hz Hzo0 HK Hest Hkn.
  exists rep => //. split=> // Hc. rewrite Ht.
  have -> : kept zo xs = xs.
  { case: Hc => [Ho0|Hle]; last by apply: kept_whole; rewrite ?Sxs.
    have Hsz : size (kept zo xs) = size xs by move: Ho; rewrite Ho0 add0n Sxs.
    apply/all_filterP. by rewrite all_count -size_filter Hsz. }
  congr Fin. rewrite /mean Sxs -HTr -(orthonormal_trace Op HE).
  have Hnz : n%:R != 0 :> R by rewrite pnatr_eq0 -lt0n.
  rewrite /xs /first_estimates big_map -{1}[n]subn0 -/(index_iota 0 n) big_mkord -mulr_sumr mulrC mulKf //.
Qed.

End Columns.

(** ** Concrete calls *)
Section Cases.
Variable R : rcfType.
Notation F := (@Fin R).

(* The first four signs of seeds 0 and 1. *)
Lemma seed0 : fill_alone (fun _ => N0) Z0 4 = [:: Zneg xH; Zneg xH; Zpos xH; Zpos xH].
Proof. vm_compute. reflexivity. Qed.
Lemma seed1 : fill_alone (fun _ => N0) (Zpos xH) 4 = [:: Zneg xH; Zpos xH; Zpos xH; Zpos xH].
Proof. vm_compute. reflexivity. Qed.

Lemma fill4 lo clock seed a0 a : Z.le Z0 seed -> size a0 = 4%N -> PropFill.splits lo 1 (Nat.div 4 64) ->
  may_fill lo 1 clock seed a0 a -> a = fill_alone (fun _ => N0) seed 4.
Proof.
  move=> H0 S Hs Hm. have Hs' : PropFill.splits lo 1 (Nat.div (size a0) 64) by rewrite S.
  have T1 : (0 < 1)%N by [].
  have [E1 _] := fill_signs T1 Hs' Hm. have [E2 _] := alone_signs (fun _ => N0) seed 4.
  apply: (@eq_from_nth _ Z0); first by rewrite E1 S E2.
  move=> l Hl. rewrite E1 S in Hl. symmetry.
  apply: (alone_first (fun _ => N0) H0 Hs' Hm); [by rewrite S|exact: Hl].
Qed.

(** Every call for a 2 x 2 matrix with seed=0 and one thread ends the process,
    with the default orthogonalize=True. *)
Theorem C66_seed_zero_refuted (eps : R) lo clock clocks a0 r : 0 < eps <= 1 -> size a0 = 4%N ->
  PropFill.splits lo 1 (Nat.div 4 64) ->
  may_generate eps lo 1 clock clocks Z0 true a0 2 2 r -> r = Some None.
Proof.
  move=> He S Hs [a Hm Hr].
  have Hd : combination (column 2 [seq entry R z | z <- a]) 1 (column 2 [seq entry R z | z <- a] 1).
  { rewrite (fill4 (Z.le_refl _) S Hs Hm) seed0. exists (fun _ => -1). rewrite big_ord1.
    apply/colP => i. rewrite !mxE. by case: i => [[|[|//]] Hi] /=; rewrite mulrNN mulr1. }
  exact: (@C66_seed_abort_refuted R eps lo Z0 2 2 He isT Hs (Z.le_refl Z0) clock clocks a0 a 1 r
    (leqnn 2) S Hm Hr isT Hd).
Qed.

(* With seed=1 the same call returns orthonormal columns. *)
Example C66_returns_case (eps : R) lo clock clocks a0 r : 0 < eps <= 1 -> size a0 = 4%N ->
  PropFill.splits lo 1 (Nat.div 4 64) ->
  may_generate eps lo 1 clock clocks (Zpos xH) true a0 2 2 r ->
  exists2 E, r = Some (Some E) & orthonormal 2 E 2.
Proof.
  move=> He S Hs [a Hm Hr]. have H0 : Z.le Z0 (Zpos xH) by [].
  have T1 : (0 < 1)%N by []. have N0' : (0 < 2)%N by [].
  have Hs' : PropFill.splits lo 1 (Nat.div (2 * 2) 64) by exact: Hs.
  have S' : size a0 = (2 * 2)%N by exact: S.
  apply: (C66_returns_partial He T1 N0' S' Hs' (leqnn 2) Hm Hr) => i x.
  rewrite (fill4 H0 S Hs Hm) seed1 => Hi [c ->].
  have He1 : eps * Num.sqrt 2%:R <= Num.sqrt 2%:R by case/andP: He => _ He; rewrite ler_pimull ?sqrtr_ge0.
  apply: le_trans He1 _. rewrite /nrm. apply: ler_wsqrtr.
  rewrite /ip !big_ord_recl big_ord0 addr0. case: i Hi c => [|[|//]] Hi c.
  - rewrite big_ord0 !mxE /= !oppr0 !addr0 mulrNN !mulr1. by rewrite -[1 + 1]/(2%:R).
  - rewrite big_ord1 !mxE /= !mulrN1 !mulr1 opprK.
    have -> : (1 + c 0%N) * (1 + c 0%N) + (1 - c 0%N) * (1 - c 0%N) = 2%:R + c 0%N ^+ 2 *+ 2.
    { rewrite -!expr2 sqrrD sqrrB !expr1n !mul1r addrACA [1 + _ + _]addrACA.
      by rewrite subrr addr0 -mulr2n. }
    by rewrite ler_addl mulrn_wge0 // sqr_ge0.
Qed.

(** With two threads a seed does not determine the vectors: two calls for two
    columns of five entries may return different matrices. *)
Theorem C66_reproducible_refuted (eps : R) clocks : 0 < eps <= 1 ->
  exists lo clock r r',
    [/\ PropFill.splits lo 2 (Nat.div 10 64),
        may_generate eps lo 2 clock clocks Z0 false (nseq 10 Z0) 5 2 r,
        may_generate eps lo 2 clock clocks Z0 false (nseq 10 Z0) 5 2 r' & r <> r'].
Proof.
  move=> He. have [clock [a [a' [Hs [Ho [Ho' Hne]]]]]] := PropFill.C54_reproducible_refuted.
  set lo := FillModel.gomp_lo _ _ in Hs Ho Ho'.
  have Hm b : PropFill.outcome lo 2 (rng_initialize 2 clock Z0) (List.repeat Z0 10) 10 b ->
    may_fill lo 2 clock Z0 (nseq 10 Z0) b.
  { move=> [sched [s [table' [Hr [Hf Hi]]]]]. exists sched, s, table'. split; [exact Hr|exact Hf|exact Hi]. }
  exists lo, clock. eexists _, _. split; [exact Hs| | |].
  - exists a; [exact: (Hm _ Ho)|reflexivity].
  - exists a'; [exact: (Hm _ Ho')|reflexivity].
  - move=> Heq. apply: Hne.
    have T2 : (0 < 2)%N by []. have N5 : (0 < 5)%N by [].
    have Sz : size (nseq 10 Z0) = (2 * 5)%N by [].
    have Hs' : PropFill.splits lo 2 (Nat.div (2 * 5) 64) by exact: Hs.
    exact (plain_inj He T2 N5 Sz Hs' (Hm _ Ho) (Hm _ Ho') Heq).
Qed.

(* The hypotheses of [C66_exact] are met with seed=1 by every invertible 2 x 2
   matrix: some call returns vectors, and from them the run gives its trace. *)
Example C66_exact_case (eps : R) clock clocks (A : 'M[R]_2) (z : R) : 0 < eps <= 1 -> A \in unitmx -> 0 <= z ->
  exists E, may_generate eps (FillModel.gomp_lo 0 1) 1 clock clocks (Zpos xH) true (nseq 4 Z0) 2 2 (Some (Some E)) /\
  exists2 rep, hutchinson_run (estimate_of A None None false (-1) E) (F z) (F 2%:R) (F 0) (F 0) 2 10 50 = Returns rep &
    rp_trace rep = F (\tr A).
Proof.
  move=> He HA Hz. have Hs : PropFill.splits (FillModel.gomp_lo 0 1) 1 (Nat.div (2 * 2) 64).
  { exact: PropFill.C54_gomp_splits. }
  have Hs' : PropFill.splits (FillModel.gomp_lo 0 1) 1 (Nat.div 4 64) by exact: Hs.
  have T1 : (0 < 1)%N by []. have N2 : (0 < 2)%N by [].
  have S4 : size (nseq 4 Z0) = 4%N by []. have S22 : size (nseq 4 Z0) = (2 * 2)%N by [].
  have [r Hr] := C66_ends eps clock clocks (Zpos xH) T1 S22 Hs true.
  have [E Er _] := C66_returns_case He S4 Hs' Hr. rewrite Er in Hr. exists E. split=> //.
  have [|||rep Hrep [_ Ht]] := @C66_exact R eps _ 1 clock clocks (Zpos xH) (nseq 4 Z0) 2 A None None false (-1) E
     z 2%:R 0 0 10 50 He T1 N2 S22 Hs Hr HA (lexx _) _ _ Hz _ isT isT; rewrite ?ler1n //.
  exists rep => //. rewrite Ht.
  - by rewrite /documented_trace mul1mx opprK /mxpowz /mxpow /= ?mulmx1 ?mul1mx.
  - right. by rewrite expr2 -natrM ler_nat.
Qed.
End Cases.

Definition C66_assumptions :=
  (@C66_orthonormal_partial, @C66_plain, @C66_returns_partial, @C66_wide_refuted, @C66_ends,
   @C66_reproducible_partial, @C66_seed_abort_refuted, @C66_exact, @C66_seed_zero_refuted,
   @C66_reproducible_refuted).
Print Assumptions C66_assumptions.
