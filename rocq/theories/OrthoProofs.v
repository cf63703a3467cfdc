(** orthogonalize_vectors *)
From mathcomp Require Import all_ssreflect all_algebra.
From mathcomp Require Import zify.
From Verif Require Import Mem KernelModel KernelSpec KernelProofs LanczosModel LanczosSpec
  LanczosMath LanczosProofs OrthoModel.
Set Implicit Arguments.
Unset Strict Implicit.
Unset Printing Implicit Defensive.
Import GRing.Theory Num.Theory Order.TTheory.
Local Open Scope ring_scope.

Lemma ov_start_lt n i : (0 < n)%N -> (0 < i)%N -> (ov_start n i < i)%N.
Proof. rewrite /ov_start. case: (ltnP n i) => ?; lia. Qed.

Lemma ov_start_window n a b i : (ov_start n i <= a)%N -> (a < b)%N -> (b < i)%N ->
  (ov_start n b <= a)%N.
Proof. rewrite /ov_start. case: (ltnP n i) => ?; case: (ltnP n b) => ?; lia. Qed.

Section Ortho.
Variable R : rcfType.
Variable eps : R.
Hypothesis eps_gt0 : 0 < eps.
Variable fresh : nat -> seq R.
Variable n : nat.
Hypothesis n_gt0 : (0 < n)%N.
Hypothesis fresh_size : forall l, (n <= size (fresh l))%N.
Variable k : nat.

Notation tl := (eps * Num.sqrt n%:R).

(** The first i vectors are finished. *)
Definition done (V : seq R) (i : nat) : Prop :=
  (forall a, (a < i)%N -> tl <= nrm (slot n V a)) /\
  (forall a b, (ov_start n b <= a)%N -> (a < b)%N -> (b < i)%N ->
     ip (slot n V a) (slot n V b) = 0).

Lemma tl_pos : 0 < tl.
Proof. by rewrite mulr_gt0 // sqrt_n_gt0. Qed.

Lemma ov_step_ok V i j : (k * n <= size V)%N -> (i < k)%N -> (j < i)%N -> tl <= nrm (slot n V j) ->
  exists V' fl, [/\ ov_step eps n i j V = Some (V', fl), size V' = size V,
    (forall a, a != i -> slot n V' a = slot n V a),
    slot n V' i = slot n V i - (ip (slot n V i) (slot n V j) / ip (slot n V j) (slot n V j)) *: slot n V j &
    fl = (nrm (slot n V' i) < tl)].
Proof.
  move=> HV Hi Hj Htl. rewrite /ov_step /at_.
  have Hjk : (j < k)%N by exact: ltn_trans Hi.
  have Sj := size_at Hjk HV. have Si := size_at Hi HV.
  rewrite (euclidean_norm_nrm Sj) [obind _ _]/= (le_gtF Htl).
  rewrite (inner_product_ip Si Sj) [obind _ _]/= -/(slot n V i) -/(slot n V j).
  rewrite -expr2 nrm_sqr.
  have Hnz : ip (slot n V j) (slot n V j) != 0.
  { rewrite -nrm_sqr expf_neq0 // gt_eqF //. exact: lt_le_trans tl_pos Htl. }
  rewrite /dv (negbTE Hnz) [obind _ _]/=.
  set sc := _ / _.
  have [V' [-> SV' Hs]] := upd_slot Hi HV (subtract_scaled_vector_ok sc Sj Si).
  rewrite [obind _ _]/=.
  have HV' : (k * n <= size V')%N by rewrite SV'.
  rewrite (euclidean_norm_nrm (size_at Hi HV')) [obind _ _]/= -/(slot n V' i).
  exists V', (nrm (slot n V' i) < tl). split => //.
  - by move=> a Ha; rewrite Hs (negbTE Ha).
  - by rewrite Hs eqxx.
Qed.

Lemma ov_pass_ok V i : (k * n <= size V)%N -> (0 < i < k)%N -> done V i ->
  exists V' fl, [/\ ov_pass eps n i V = Some (V', fl), size V' = size V,
    (forall a, a != i -> slot n V' a = slot n V a) &
    fl = false -> tl <= nrm (slot n V' i) /\
      forall a, (ov_start n i <= a < i)%N -> ip (slot n V' a) (slot n V' i) = 0].
Proof.
  move=> HV /andP [Hi0 Hi] [D1 D2]. rewrite /ov_pass.
  pose I j (s : seq R * bool) := [/\ size s.1 = size V,
    (forall a, a != i -> slot n s.1 a = slot n V a) &
    s.2 = false -> ((ov_start n i < j)%N -> tl <= nrm (slot n s.1 i)) /\
      forall a, (ov_start n i <= a < j)%N -> ip (slot n V a) (slot n s.1 i) = 0].
  have Hst := ov_start_lt n_gt0 Hi0.
  have [[V' fl] -> [/= H1 H2 H3]] : exists2 s, for_ (ov_start n i) i 1
    (fun j s => if s.2 then Some s else ov_step eps n i j s.1) (V, false) = Some s & I i s.
  { apply: for1_inv; first exact: ltnW.
    - split => //= _. split; first by rewrite ltnn. move=> a; lia.
    - move=> j [W fl] /andP [Hj Hji] [/= I1 I2 I3]. case: fl I3 => I3 /=.
      { by exists (W, true). }
      have HW : (k * n <= size W)%N by rewrite I1.
      have Hjne : j != i by rewrite ltn_eqF.
      have Htl : tl <= nrm (slot n W j) by rewrite I2 //; exact: D1.
      have [W' [fl [E S1 S2 S3 S4]]] := ov_step_ok HW Hi Hji Htl.
      exists (W', fl) => //. split => /=; first by rewrite S1.
      + by move=> a Ha; rewrite S2 // I2.
      + move=> Hfl. have [_ I4] := I3 erefl. split=> [_|a /andP [Ha1 Ha2]].
        { move: S4. rewrite Hfl => /esym /negbT. by rewrite -leNgt. }
        rewrite S3 ipBr ipZr (I2 j Hjne).
        move: Ha2. rewrite ltnS leq_eqVlt => /orP [/eqP Ea|Ha2].
        * subst a. rewrite (ipC (slot n W i)) divfK ?subrr //.
          rewrite -nrm_sqr expf_neq0 // gt_eqF //. exact: lt_le_trans tl_pos (D1 _ Hji).
        * rewrite (I4 a) ?Ha1 // (D2 a j (ov_start_window Ha1 Ha2 Hji) Ha2 Hji).
          by rewrite mulr0 subr0. }
  exists V', fl. split=> // Hfl. have [H4 H5] := H3 Hfl. split; first exact: H4.
  move=> a Ha. rewrite H2; first exact: H5. case/andP: Ha => _ Ha. by rewrite ltn_eqF.
Qed.

Lemma ov_pass0 V : ov_pass eps n 0 V = Some (V, false).
Proof. by rewrite /ov_pass for_empty. Qed.

Lemma done_ext V V' i : (forall a, (a < i)%N -> slot n V' a = slot n V a) -> done V i -> done V' i.
Proof.
  move=> H [D1 D2]. split=> [a Ha|a b H1 H2 H3].
  - by rewrite H //; exact: D1.
  - rewrite !H //; [exact: D2|exact: ltn_trans H3].
Qed.

Lemma ov_loop_ok fuel i (success : bool) trials draws V :
  (k * n <= size V)%N -> (i <= k)%N -> done V i -> ((i == 0)%N -> tl <= nrm (slot n V 0)) ->
  (trials <= 20)%N -> (success -> trials = 0%N) -> ((k - i) * 21 + 1 <= fuel + trials)%N -> (0 < fuel)%N ->
  exists r, ov_loop eps fresh fuel n k i success trials draws V = Some r /\
    if r is Some V' then size V' = size V /\ done V' k else True.
Proof.
  elim: fuel i success trials draws V => [//|fuel IH] i success trials draws V HV Hi HD H0 Ht Hsi Hf _.
  rewrite [ov_loop _ _ _ _ _ _ _ _ _ _]/=.
  case: (ltnP i k) => Hik; last first.
  { exists (Some V). split=> //. split=> //. have -> // : k = i by lia. }
  case Ea : (~~ success && (20 <= trials)%N); first by exists None.
  case: (posnP i) => Hi0.
  { subst i. rewrite ov_pass0 [obind _ _]/=. apply: IH => //.
    - split=> [a|a b]; first by case: a => // _; exact: H0. lia.
    - lia.
    - lia. }
  have Hi2 : (0 < i < k)%N by rewrite Hi0 Hik.
  have [W [fl [-> S1 S2 S3]]] := ov_pass_ok HV Hi2 HD. rewrite [obind _ _]/=.
  have HW : (k * n <= size W)%N by rewrite S1.
  case: fl S3 => S3; cbn iota.
  - have [W' [-> T1 T2]] := upd_slot Hik HW (copy_vector_ok (fresh_size draws) (size_at Hik HW)).
    rewrite [obind _ _]/=.
    have [||||||||r [-> Hr]] := IH i false trials.+1 draws.+1 W'; rewrite ?T1 ?S1 //.
    + apply: done_ext HD => a Ha. rewrite T2 (ltn_eqF Ha) S2 //. by rewrite ltn_eqF.
    + by move=> /eqP E; rewrite E in Hi0.
    + case: success Ea Hsi Hf => /= Ea Hsi Hf; [have := Hsi erefl; lia|lia].
    + lia.
    + case: success Ea Hsi Hf => /= Ea Hsi Hf; [have := Hsi erefl; lia|lia].
    + exists r. split=> //. move: Hr. case: (r) => // V'. by rewrite T1 S1.
  - have [S4 S5] := S3 erefl.
    have [||||||||r [-> Hr]] := IH i.+1 true 0%N draws W; rewrite ?S1 //.
    + split=> [a|a b Ha1 Ha2].
      * rewrite ltnS leq_eqVlt => /orP [/eqP ->|Ha] //. rewrite S2 ?ltn_eqF //. by case: HD => D1 _; exact: D1.
      * rewrite ltnS leq_eqVlt => /orP [/eqP Eb|Hb].
        { subst b. apply: S5. by rewrite Ha1. }
        rewrite !S2 ?ltn_eqF //; last exact: ltn_trans Hb. case: HD => _ D2. exact: D2.
    + lia.
    + lia.
    + exists r. split=> //. move: Hr. case: (r) => // V'. by rewrite S1.
Qed.

End Ortho.
