(** Combinations of the columns during orthogonalize_vectors *)
From mathcomp Require Import all_ssreflect all_algebra.
From mathcomp Require Import zify.
From Verif Require Import Mem KernelModel KernelSpec KernelProofs LanczosModel LanczosSpec
  LanczosMath LanczosProofs OrthoModel OrthoProofs.
Set Implicit Arguments.
Unset Strict Implicit.
Unset Printing Implicit Defensive.
Import GRing.Theory Num.Theory Order.TTheory.
Local Open Scope ring_scope.

Section Comb.
Variables (R : rcfType) (n : nat).
Implicit Types (v w : nat -> 'cV[R]_n) (x y : 'cV[R]_n).

(** x is a linear combination of v 0, ..., v (i-1) *)
Definition combination v (i : nat) x : Prop :=
  exists c : nat -> R, x = \sum_(b < i) c b *: v b.

Lemma comb0 v i : combination v i 0.
Proof. exists (fun _ => 0). by rewrite big1 // => b _; rewrite scale0r. Qed.

Lemma combD v i x y : combination v i x -> combination v i y -> combination v i (x + y).
Proof.
  move=> [c ->] [d ->]. exists (fun b => c b + d b). rewrite -big_split /=.
  by apply: eq_bigr => b _; rewrite scalerDl.
Qed.

Lemma combZ v i a x : combination v i x -> combination v i (a *: x).
Proof.
  move=> [c ->]. exists (fun b => a * c b). rewrite scaler_sumr.
  by apply: eq_bigr => b _; rewrite scalerA.
Qed.

Lemma combN v i x : combination v i x -> combination v i (- x).
Proof. by move=> H; rewrite -scaleN1r; exact: combZ. Qed.

Lemma combB v i x y : combination v i x -> combination v i y -> combination v i (x - y).
Proof. by move=> H1 H2; apply: combD => //; exact: combN. Qed.

Lemma comb_of v i a : (a < i)%N -> combination v i (v a).
Proof.
  move=> Ha. exists (fun b => (b == a)%:R).
  rewrite (bigD1 (Ordinal Ha)) //= eqxx scale1r big1 ?addr0 // => b Hb.
  have /negbTE -> : (b != a :> nat) by apply: contra Hb => /eqP E; apply/eqP/val_inj.
  by rewrite scale0r.
Qed.

Lemma comb_trans v w i j x : (forall a, (a < i)%N -> combination w j (v a)) ->
  combination v i x -> combination w j x.
Proof.
  move=> H [c ->]. elim/big_ind: _ => [||b _]; first exact: comb0.
  - by move=> y z; exact: combD.
  - apply: combZ. exact: H.
Qed.

Lemma comb_mono v i j x : (i <= j)%N -> combination v i x -> combination v j x.
Proof. move=> Hij. apply: comb_trans => a Ha. apply: comb_of. exact: leq_trans Hij. Qed.

Lemma comb_ext v w i x : (forall a, (a < i)%N -> v a = w a) -> combination v i x -> combination w i x.
Proof. move=> H [c ->]. exists c. by apply: eq_bigr => b _; rewrite H. Qed.

Lemma comb_orth v i x y : (forall a, (a < i)%N -> ip (v a) y = 0) -> combination v i x -> ip x y = 0.
Proof.
  move=> H [c ->]. rewrite ipC.
  elim/big_ind: _ => [|p q H1 H2|b _]; first by rewrite ip0r.
  - by rewrite ipDr H1 H2 addr0.
  - by rewrite ipZr ipC H // mulr0.
Qed.

(** v b is w b up to earlier w *)
Definition triangular v w i := forall a, (a < i)%N -> combination w a (v a - w a).

Lemma tri_sub v w i a : triangular v w i -> (a < i)%N -> combination w a.+1 (v a).
Proof.
  move=> H Ha. rewrite -(subrK (w a) (v a)). apply: combD; last exact: comb_of.
  by apply: comb_mono (H a Ha).
Qed.

Lemma tri_comb v w i x : triangular v w i -> combination v i x -> combination w i x.
Proof.
  move=> H. apply: comb_trans => a Ha. exact: comb_mono (tri_sub H Ha).
Qed.

Lemma tri_inv v w i a : triangular v w i -> (a < i)%N -> combination v a.+1 (w a).
Proof.
  move=> H. elim/ltn_ind: a => a IH Ha.
  rewrite -[w a](subKr (v a)). apply: combB; first exact: comb_of.
  apply: comb_trans (H a Ha) => b Hb. apply: comb_mono (IH b Hb _); last exact: ltn_trans Ha.
  exact: ltnW.
Qed.

Lemma tri_comb_inv v w i x : triangular v w i -> combination w i x -> combination v i x.
Proof. move=> H. apply: comb_trans => a Ha. exact: comb_mono (tri_inv H Ha). Qed.

End Comb.

Section Run.
Variable R : rcfType.
Variable eps : R.
Hypothesis eps_gt0 : 0 < eps.
Variable fresh : nat -> seq R.
Variable n : nat.
Hypothesis n_gt0 : (0 < n)%N.
Hypothesis fresh_size : forall l, (n <= size (fresh l))%N.
Variable k : nat.
Hypothesis k_le : (k <= n)%N.
Notation tl := (eps * Num.sqrt n%:R).

Lemma start0 i : (i < k)%N -> ov_start n i = 0%N.
Proof. move=> Hi. rewrite /ov_start ltnNge. have -> // : (i <= n)%N by apply: ltnW; exact: leq_trans Hi k_le. Qed.

Lemma pass_span V i V' fl : (k * n <= size V)%N -> (0 < i < k)%N -> done eps n V i ->
  ov_pass eps n i V = Some (V', fl) ->
  combination (slot n V) i (slot n V i - slot n V' i) /\ (fl -> nrm (slot n V' i) < tl).
Proof.
  move=> HV /andP [Hi0 Hi] [D1 D2]. rewrite /ov_pass.
  pose I (j : nat) (s : seq R * bool) := [/\ size s.1 = size V,
    (forall a, a != i -> slot n s.1 a = slot n V a),
    combination (slot n V) i (slot n V i - slot n s.1 i) &
    s.2 -> nrm (slot n s.1 i) < tl].
  have [s -> [_ _ H3 H4]] : exists2 s, for_ (ov_start n i) i 1
    (fun j s => if s.2 then Some s else ov_step eps n i j s.1) (V, false) = Some s & I i s.
  { apply: for1_inv; first by rewrite start0.
    - split => //=. rewrite subrr. exact: comb0.
    - move=> j [W fl'] /andP [Hj Hji] [/= I1 I2 I3 I4]. case: fl' I4 => I4 /=.
      { by exists (W, true). }
      have HW : (k * n <= size W)%N by rewrite I1.
      have Hjne : j != i by rewrite ltn_eqF.
      have Htl : tl <= nrm (slot n W j) by rewrite I2 //; exact: D1.
      have [W' [fl2 [E S1 S2 S3 S4]]] := ov_step_ok eps_gt0 n_gt0 HW Hi Hji Htl.
      exists (W', fl2) => //. split => /=; first by rewrite S1.
      + by move=> a Ha; rewrite S2 // I2.
      + rewrite S3 opprB addrA. rewrite addrAC. apply: combD => //.
        apply: combZ. rewrite (I2 j Hjne). exact: comb_of.
      + by rewrite S4. }
  case=> E. by rewrite E /= in H3 H4.
Qed.

(** A vector that is a combination of the finished ones is not accepted. *)
Lemma pass_dependent V i : (k * n <= size V)%N -> (0 < i < k)%N -> done eps n V i ->
  combination (slot n V) i (slot n V i) ->
  exists V', [/\ ov_pass eps n i V = Some (V', true), size V' = size V &
    forall a, a != i -> slot n V' a = slot n V a].
Proof.
  move=> HV Hi HD Hc. have /andP [Hi0 Hik] := Hi.
  have [V' [fl [E S1 S2 S3]]] := ov_pass_ok eps_gt0 n_gt0 HV Hi HD.
  exists V'. split=> //. have [Hs _] := pass_span HV Hi HD E.
  case: fl E S3 => // E S3. exfalso. have [H1 H2] := S3 erefl.
  have Hc' : combination (slot n V) i (slot n V' i).
  { rewrite -[slot n V' i](subKr (slot n V i)). exact: combB. }
  have H0 : ip (slot n V' i) (slot n V' i) = 0.
  { apply: (comb_orth _ Hc') => a Ha. have Hne : a != i by rewrite ltn_eqF.
    rewrite -(S2 a Hne). apply: H2. by rewrite start0. }
  move: H1. rewrite /nrm H0 sqrtr0 leNgt. by rewrite (tl_pos eps_gt0 n_gt0).
Qed.

(** The state of the loop when no vector was replaced. *)
Definition kept_all (V0 V : seq R) (i : nat) : Prop :=
  [/\ size V = size V0, done eps n V i, triangular (slot n V0) (slot n V) i &
      forall a, (i <= a)%N -> slot n V a = slot n V0 a].

Lemma kept_next V0 V V' i : (k * n <= size V)%N -> (0 < i < k)%N -> kept_all V0 V i ->
  ov_pass eps n i V = Some (V', false) -> kept_all V0 V' i.+1.
Proof.
  move=> HV Hi [K1 K2 K3 K4] E. have /andP [Hi0 Hik] := Hi.
  have [W [fl [E' S1 S2 S3]]] := ov_pass_ok eps_gt0 n_gt0 HV Hi K2.
  rewrite E in E'. case: E' S3 S1 S2 => <- <- S3 S1 S2.
  have [Hs _] := pass_span HV Hi K2 E. have [H1 H2] := S3 erefl. have [D1 D2] := K2.
  split; first by rewrite S1.
  - split=> [a|a b Ha1 Ha2].
    + rewrite ltnS leq_eqVlt => /orP [/eqP ->|Ha] //. rewrite S2 ?ltn_eqF //. exact: D1.
    + rewrite ltnS leq_eqVlt => /orP [/eqP Eb|Hb].
      { subst b. apply: H2. by rewrite Ha1. }
      rewrite !S2 ?ltn_eqF //; last exact: ltn_trans Hb. exact: D2.
  - move=> a. rewrite ltnS leq_eqVlt => /orP [/eqP ->|Ha].
    + rewrite -(K4 i) //. apply: comb_ext Hs => b Hb. by rewrite S2 // ltn_eqF.
    + rewrite (S2 a) ?ltn_eqF //. apply: comb_ext (K3 a Ha) => b Hb.
      by rewrite S2 // ltn_eqF // (ltn_trans Hb).
  - move=> a Ha. rewrite S2 ?gtn_eqF //. apply: K4. exact: ltnW.
Qed.

Lemma kept_first V0 : tl <= nrm (slot n V0 0) -> kept_all V0 V0 1.
Proof.
  move=> H. split=> //.
  - split=> [a|a b]; [by rewrite ltnS leqn0 => /eqP ->|by case: b].
  - move=> a _. rewrite subrr. exact: comb0.
Qed.

(** No vector is replaced if each is far from the combinations of the others. *)
Definition far (v : nat -> 'cV[R]_n) (i : nat) : Prop :=
  forall x, combination v i x -> tl <= nrm (v i - x).

Lemma loop_far V0 fuel i trials draws V : (k * n <= size V0)%N -> (0 < i <= k)%N ->
  (forall a, (a < k)%N -> far (slot n V0) a) -> kept_all V0 V i -> (k - i < fuel)%N ->
  exists2 V', ov_loop eps fresh fuel n k i true trials draws V = Some (Some V') & kept_all V0 V' k.
Proof.
  move=> HV0 + Hfar. elim: fuel i trials draws V => [//|fuel IH] i trials draws V /andP [Hi0 Hi] HK Hf.
  rewrite [ov_loop _ _ _ _ _ _ _ _ _ _]/=.
  case: (ltnP i k) => Hik; last by exists V => //; have -> : k = i by lia.
  have HV : (k * n <= size V)%N by case: HK => ->.
  have Hi' : (0 < i < k)%N by rewrite Hi0.
  have [K1 K2 K3 K4] := HK.
  have [W [fl [E S1 S2 S3]]] := ov_pass_ok eps_gt0 n_gt0 HV Hi' K2.
  have [Hs Hfl] := pass_span HV Hi' K2 E. rewrite E [obind _ _]/=.
  case: fl E Hfl S3 => E Hfl S3; cbn iota; last first.
  { have HK' := kept_next HV Hi' HK E. apply: IH => //. lia. }
  exfalso. have := Hfl isT. rewrite ltNge => /negP; apply.
  have := Hfar i Hik (slot n V i - slot n W i). rewrite -(K4 i (leqnn i)) subKr. apply.
  exact: tri_comb_inv Hs.
Qed.

(** If replacements repeat the first vector, a replaced vector is never accepted. *)
Variable V0 : seq R.
Hypothesis HV0 : (k * n <= size V0)%N.
Hypothesis fresh_same : forall l, vec n (fresh l) = slot n V0 0.

Lemma loop_replaced fuel i trials draws V V' : (k * n <= size V)%N -> (0 < i < k)%N ->
  done eps n V i -> slot n V 0 = slot n V0 0 -> slot n V i = slot n V0 0 ->
  ov_loop eps fresh fuel n k i false trials draws V <> Some (Some V').
Proof.
  move=> + Hi. elim: fuel trials draws V => [//|fuel IH] trials draws V HV HD H0 Hs.
  rewrite [ov_loop _ _ _ _ _ _ _ _ _ _]/=. have /andP [Hi0 Hik] := Hi. rewrite Hik.
  case: ifP => // _.
  have Hc : combination (slot n V) i (slot n V i) by rewrite Hs -H0; exact: comb_of.
  have [W [-> S1 S2]] := pass_dependent HV Hi HD Hc. rewrite [obind _ _]/=.
  have HW : (k * n <= size W)%N by rewrite S1.
  have [W' [-> T1 T2]] := upd_slot Hik HW (copy_vector_ok (fresh_size draws) (size_at Hik HW)).
  rewrite [obind _ _]/=. apply: IH.
  - by rewrite T1.
  - apply: done_ext HD => a Ha. by rewrite T2 (ltn_eqF Ha) S2 // ltn_eqF.
  - by rewrite T2 (ltn_eqF Hi0) S2 // ltn_eqF.
  - by rewrite T2 eqxx fresh_same.
Qed.

Lemma loop_same fuel i trials draws V V' : (0 < i <= k)%N -> kept_all V0 V i ->
  slot n V 0 = slot n V0 0 ->
  ov_loop eps fresh fuel n k i true trials draws V = Some (Some V') -> kept_all V0 V' k.
Proof.
  elim: fuel i trials draws V => [//|fuel IH] i trials draws V /andP [Hi0 Hi] HK H0.
  rewrite [ov_loop _ _ _ _ _ _ _ _ _ _]/=.
  case: (ltnP i k) => Hik; last by case=> <-; have -> : k = i by lia.
  have HV : (k * n <= size V)%N by case: HK => ->.
  have Hi' : (0 < i < k)%N by rewrite Hi0.
  have [K1 K2 K3 K4] := HK.
  have [W [fl [E S1 S2 S3]]] := ov_pass_ok eps_gt0 n_gt0 HV Hi' K2.
  rewrite E [obind _ _]/=. case: fl E S3 => E S3; cbn iota; last first.
  { apply: IH; first by lia. exact: kept_next HV Hi' HK E. by rewrite S2 // ltn_eqF. }
  have HW : (k * n <= size W)%N by rewrite S1.
  have [W' [-> T1 T2]] := upd_slot Hik HW (copy_vector_ok (fresh_size draws) (size_at Hik HW)).
  rewrite [obind _ _]/= => F. exfalso. move: F. apply: loop_replaced => //.
  - by rewrite T1.
  - apply: done_ext K2 => a Ha. by rewrite T2 (ltn_eqF Ha) S2 // ltn_eqF.
  - by rewrite T2 (ltn_eqF Hi0) S2 // ltn_eqF.
  - by rewrite T2 eqxx fresh_same.
Qed.

(** Kept vectors are independent. *)
Lemma kept_independent V i : kept_all V0 V k -> (0 < i < k)%N -> ~ combination (slot n V0) i (slot n V0 i).
Proof.
  move=> [K1 [D1 D2] K3 _] /andP [Hi0 Hik] Hc.
  have K3' : triangular (slot n V0) (slot n V) i by move=> a Ha; apply: K3; exact: ltn_trans Hik.
  have Hc' : combination (slot n V) i (slot n V i).
  { rewrite -[slot n V i](subKr (slot n V0 i)). apply: combB; last exact: K3.
    exact: tri_comb K3' Hc. }
  have H0 : ip (slot n V i) (slot n V i) = 0.
  { apply: (comb_orth _ Hc') => a Ha. apply: D2 => //. by rewrite start0. }
  have := D1 i Hik. rewrite /nrm H0 sqrtr0 leNgt. by rewrite (tl_pos eps_gt0 n_gt0).
Qed.

End Run.
