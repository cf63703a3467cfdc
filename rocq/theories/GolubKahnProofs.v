(** The memory-level iterations compute the vector recursions of LanczosMath LanczosProofs. *)
From mathcomp Require Import all_ssreflect all_algebra zify.
From Verif Require Import Mem KernelModel KernelSpec KernelProofs LanczosModel LanczosSpec LanczosMath LanczosProofs.
Set Implicit Arguments.
Unset Strict Implicit.
Unset Printing Implicit Defensive.
Import GRing.Theory Num.Theory Order.TTheory.
Local Open Scope ring_scope.

Section GolubKahnRefinement.
Variable R : rcfType.
Variable eps : R.
Hypothesis eps_gt0 : 0 < eps.
Variable n : nat.
Hypothesis n_gt0 : (0 < n)%N.
Variable A : 'M[R]_n.
Variables A_dot A_tdot : seq R -> seq R -> option (seq R).
Hypothesis A_dot_ok : forall x c, (n <= size x)%N -> (n <= size c)%N ->
  writes c (A *m vec n x) (A_dot x c).
Hypothesis A_tdot_ok : forall x c, (n <= size x)%N -> (n <= size c)%N ->
  writes c (A^T *m vec n x) (A_tdot x c).
Hypothesis A_inj : forall x : 'cV[R]_n, A *m x = 0 -> x = 0.
Variable v : seq R.
Hypothesis v_size : (n <= size v)%N.
Notation w := (vec n v).
Hypothesis v_nz : w != 0.
Variable m : nat.
Variable tol : R.
Hypothesis tol_gt0 : 0 < tol.
Variable orth : int.
Notation bs := (gk_buffer_size orth m).
Notation tl := (tol * Num.sqrt n%:R).

Lemma gk_bs_gt0 : (0 < m)%N -> (0 < bs)%N.
Proof.
  move=> Hm. rewrite /gk_buffer_size. case: ifP => // _. by case: ifP.
Qed.

Lemma gk_bs_gt1 : (1 < m)%N -> (1 < bs)%N.
Proof.
  move=> Hm. rewrite /gk_buffer_size. case: ifP => // H0.
  case: ifP => // _. by rewrite ltnS absz_gt0 H0.
Qed.

Variables alpha0 beta0 U0 V0 : seq R.

Definition gk_inv (j : nat) (s : gk_state R) : Prop :=
  let k := gk_size s in
  [/\ (k <= j)%N,
      [/\ size (gk_U s) = size U0, size (gk_V s) = size V0,
          size (gk_alpha s) = size alpha0 & size (gk_beta s) = size beta0],
      (forall i, (gk_alpha s)`_i = if (i < k)%N then gka A w i else alpha0`_i),
      (forall i, (gk_beta s)`_i = if (i < k)%N then gkb A w i else beta0`_i) &
      if gk_stop s then
        [/\ (0 < k)%N, (forall i, (i < k.-1)%N -> tl <= gkb A w i) & gkb A w k.-1 < tl]
      else
        [/\ k = j, (forall i, (i < k)%N -> tl <= gkb A w i),
            (forall i, (i < j)%N -> (j <= i + bs)%N -> slot n (gk_U s) (i %% bs) = gku A w i) &
            forall i, (i <= j)%N -> (j < i + bs)%N -> slot n (gk_V s) (i %% bs) = gkv A w i]].

Lemma ge_tl_gkalive k : (forall i, (i < k)%N -> tl <= gkb A w i) -> gkalive A w k.
Proof.
  move=> H. elim: k H => [|k IH] H; first by move=> i.
  have Hk : gkalive A w k by apply: IH => i Hi; apply: H; exact: ltnW.
  move=> i. rewrite ltnS leq_eqVlt => /orP [/eqP ->|]; last exact: Hk.
  split; first exact: gk_injective.
  apply: lt0r_neq0. apply: lt_le_trans (H k (ltnSn k)). by rewrite mulr_gt0 // sqrt_n_gt0.
Qed.

(** The number of vectors reorthogonalised against. *)
Lemma gk_steps j s : (1 < bs)%N ->
  (s < gs_num_steps (if (j < bs)%N then j else (bs - 1)%N)%:Z bs n)%N ->
  (s < j)%N /\ (s.+1 < bs)%N.
Proof.
  move=> Hbs. rewrite /gs_num_steps. case: ifP => // _.
  set o := if (j < bs)%N then j else (bs - 1)%N.
  have Ho1 : (o < bs)%N by rewrite /o; case: ifP => // _; rewrite subn1 prednK //; exact: ltnW.
  have Ho2 : (o <= j)%N. by rewrite /o; case: ltnP => // H; apply: leq_trans H; exact: leq_subr.
  rewrite (_ : (Posz o < 0) || (Posz bs < Posz o) = false); last first.
  { apply/norP; split; rewrite -leNgt //. exact: ltnW. }
  rewrite absz_nat. move: o Ho1 Ho2 => o Ho1 Ho2. case: (ltnP n o) => H1 H2; split; lia.
Qed.

Lemma gk_body_ok j s :
  (1 < bs)%N -> (j < m)%N -> (m <= size alpha0)%N -> (m <= size beta0)%N ->
  (bs * n <= size U0)%N -> (bs * n <= size V0)%N ->
  gk_inv j s ->
  exists2 s', gk_body eps A_dot A_tdot n bs tol orth j s = Some s' & gk_inv j.+1 s'.
Proof.
  move=> Hbs1 Hj Ha Hb HU HV [Hk [S1 S2 S3 S4] Eal Ebe]. rewrite /gk_body.
  case Est : (gk_stop s) => Hst.
  { exists s => //. rewrite /gk_inv Est. split => //. exact: leqW. }
  case: Hst => [Ek Hge HslU HslV]. rewrite Ek in Eal Ebe Hge.
  have Hal := ge_tl_gkalive Hge.
  have Haj : gka A w j != 0 by apply: gk_injective.
  have Hbs : (0 < bs)%N by apply: ltnW.
  have Hc : (j %% bs < bs)%N by rewrite ltn_mod.
  have Hnx : (j.+1 %% bs < bs)%N by rewrite ltn_mod.
  have HU' : (bs * n <= size (gk_U s))%N by rewrite S1.
  have HV' : (bs * n <= size (gk_V s))%N by rewrite S2.
  have Ev : slot n (gk_V s) (j %% bs) = gkv A w j by apply: HslV; slia.
  (* U[cur] = A V[cur] *)
  have [U1 [-> SU1 F1]] := upd_slot (f := A_dot (at_ (gk_V s) (j %% bs * n))) Hc HU'
    (A_dot_ok (size_at Hc HV') (size_at Hc HU')).
  rewrite [obind _ _]/=. rewrite -/(slot n (gk_V s) (j %% bs)) Ev in F1.
  have HU1 : (bs * n <= size U1)%N by rewrite SU1.
  (* subtract beta U[prev] *)
  have [U2 [-> SU2 F2]] : exists U2, [/\ (if (0 < j)%N then
             do b <- rd (gk_beta s) j.-1;
             upd_at U1 (j %% bs * n) (subtract_scaled_vector (at_ U1 (j.-1 %% bs * n)) n b)
           else Some U1) = Some U2, size U2 = size U1 &
      forall i, slot n U2 i = if i == (j %% bs)%N then gkx A w j else slot n (gk_U s) i].
  { case: posnP => H0.
    - exists U1. split => // i. rewrite F1. case: ifP => // _.
      by rewrite /gkx H0 /gkbp /= scale0r subr0.
    - rewrite (rdE 0) ?S4; last by lia. rewrite [obind _ _]/=.
      have Hp : (j.-1 %% bs < bs)%N by rewrite ltn_mod.
      have [U2 [-> SU2 F2]] := upd_slot (f := subtract_scaled_vector (at_ U1 (j.-1 %% bs * n)) n (gk_beta s)`_j.-1)
        Hc HU1 (subtract_scaled_vector_ok (gk_beta s)`_j.-1 (size_at Hp HU1) (size_at Hc HU1)).
      exists U2. split => // i. rewrite F2.
      case: (boolP (i == (j %% bs)%N)) => Hi; last by rewrite F1 (negbTE Hi).
      rewrite -/(slot n U1 (j %% bs)) -/(slot n U1 (j.-1 %% bs)) !F1 eqxx.
      have Hne : ((j.-1 %% bs)%N == (j %% bs)%N) = false.
      { apply/negbTE. apply: circular_neq; slia. }
      rewrite Hne HslU; [|slia|slia].
      rewrite Ebe (_ : (j.-1 < j)%N) ?prednK // /gkx.
      have -> : gkbp A w j = gkb A w j.-1 by rewrite -gkbpS prednK.
      by have -> : gkup A w j = gku A w j.-1 by rewrite -gkupS prednK. }
  rewrite [obind _ _]/=.
  have HU2 : (bs * n <= size U2)%N by rewrite SU2.
  set no := Posz (if (j < bs)%N then j else (bs - 1)%N).
  (* reorthogonalise U[cur] *)
  have [U3 [-> SU3 F3]] : exists U3, [/\ (if (orth != 0) && (0 < j)%N then
             gram_schmidt_inside eps U2 n bs (j.-1 %% bs) no (j %% bs * n)
           else Some U2) = Some U3, size U3 = size U2 &
      forall i, slot n U3 i = if i == (j %% bs)%N then gkx A w j else slot n (gk_U s) i].
  { case: ifP => [/andP [_ H0]|_]; last by exists U2.
    have Hidx : forall i, (i < gs_num_steps no bs n)%N ->
       [/\ gs_index bs (j.-1 %% bs) i = ((j.-1 - i) %% bs)%N, gs_index bs (j.-1 %% bs) i != (j %% bs)%N,
           (i < j)%N & (i.+1 < bs)%N].
    { move=> i Hi. have [H1 H2] := gk_steps Hbs1 Hi.
      have E : gs_index bs (j.-1 %% bs) i = ((j.-1 - i) %% bs)%N by apply: gs_index_circular; slia.
      split => //. rewrite E. apply: circular_neq; slia. }
    have [U3 [-> SU3 F3]] := gram_schmidt_inside_ok (V := U2) eps_gt0 n_gt0 HU2 Hc
       (fun i Hi => let: And4 _ h _ _ := Hidx i Hi in h).
    exists U3. split => // i. rewrite F3. case: ifP => // Hi; last by rewrite F2 Hi.
    rewrite F2 eqxx. apply: gs_fold_orth => l Hl. have [E1 E2 E3 E4] := Hidx l Hl.
    rewrite F2 (negbTE E2) E1 HslU; [|slia|slia]. apply: gkx_orth => //. slia. }
  rewrite [obind _ _]/=.
  have HU3 : (bs * n <= size U3)%N by rewrite SU3.
  have [U4 [-> SU4 F4]] := normalize_at_ok Hc HU3. rewrite [obind _ _]/=.
  rewrite F3 eqxx -/(gka A w j) (negbTE Haj). rewrite F3 eqxx -/(gka A w j) -/(gku A w j) in F4.
  have {}F4 : forall i, slot n U4 i = if i == (j %% bs)%N then gku A w j else slot n (gk_U s) i.
  { move=> i. rewrite F4. case: ifP => // Hi. by rewrite F3 Hi. }
  have Hja : (j < size (gk_alpha s))%N by rewrite S3; lia.
  have Ewa : wr (gk_alpha s) j (gka A w j) = Some (set_nth (gka A w j) (gk_alpha s) j (gka A w j))
    by rewrite wrE.
  rewrite Ewa [obind _ _]/=. set al' := set_nth _ _ _ _.
  have HU4 : (bs * n <= size U4)%N by rewrite SU4.
  have Hcn : ((j %% bs)%N == (j.+1 %% bs)%N) = false by apply/negbTE; apply: circular_neq; slia.
  (* V[next] = A^T U[cur] *)
  have [V1 [-> SV1 G1]] := upd_slot (f := A_tdot (at_ U4 (j %% bs * n))) Hnx HV'
    (A_tdot_ok (size_at Hc HU4) (size_at Hnx HV')).
  rewrite [obind _ _]/=. rewrite -/(slot n U4 (j %% bs)) F4 eqxx in G1.
  have HV1 : (bs * n <= size V1)%N by rewrite SV1.
  have [V2 [-> SV2 G2]] := upd_slot (f := subtract_scaled_vector (at_ V1 (j %% bs * n)) n (gka A w j))
        Hnx HV1 (subtract_scaled_vector_ok (gka A w j) (size_at Hc HV1) (size_at Hnx HV1)).
  rewrite [obind _ _]/=.
  rewrite -/(slot n V1 (j %% bs)) -/(slot n V1 (j.+1 %% bs)) !G1 eqxx Hcn Ev -/(gky A w j) in G2.
  have {}G2 : forall i, slot n V2 i = if i == (j.+1 %% bs)%N then gky A w j else slot n (gk_V s) i.
  { move=> i. rewrite G2. case: ifP => // Hi. by rewrite G1 Hi. }
  have HV2 : (bs * n <= size V2)%N by rewrite SV2.
  have [V3 [-> SV3 G3]] : exists V3, [/\ (if orth != 0 then
             gram_schmidt_inside eps V2 n bs (j %% bs) no (j.+1 %% bs * n)
           else Some V2) = Some V3, size V3 = size V2 &
      forall i, slot n V3 i = if i == (j.+1 %% bs)%N then gky A w j else slot n (gk_V s) i].
  { case: ifP => _; last by exists V2.
    have Hidx : forall i, (i < gs_num_steps no bs n)%N ->
       [/\ gs_index bs (j %% bs) i = ((j - i) %% bs)%N, gs_index bs (j %% bs) i != (j.+1 %% bs)%N,
           (i < j)%N & (i.+1 < bs)%N].
    { move=> i Hi. have [H1 H2] := gk_steps Hbs1 Hi.
      have E : gs_index bs (j %% bs) i = ((j - i) %% bs)%N by apply: gs_index_circular; slia.
      split => //. rewrite E. apply: circular_neq; slia. }
    have [V3 [-> SV3 G3]] := gram_schmidt_inside_ok (V := V2) eps_gt0 n_gt0 HV2 Hnx
       (fun i Hi => let: And4 _ h _ _ := Hidx i Hi in h).
    exists V3. split => // i. rewrite G3. case: ifP => // Hi; last by rewrite G2 Hi.
    rewrite G2 eqxx. apply: gs_fold_orth => l Hl. have [E1 E2 E3 E4] := Hidx l Hl.
    rewrite G2 (negbTE E2) E1 HslV; [|slia|slia]. apply: gky_orth => //. slia. }
  rewrite [obind _ _]/=.
  have HV3 : (bs * n <= size V3)%N by rewrite SV3.
  have [V4 [-> SV4 G4]] := normalize_at_ok Hnx HV3. rewrite [obind _ _]/=.
  rewrite G3 eqxx -/(gkb A w j). rewrite G3 eqxx -/(gkb A w j) -gkvS in G4.
  have {}G4 : forall i, slot n V4 i = if i == (j.+1 %% bs)%N then gkv A w j.+1 else slot n (gk_V s) i.
  { move=> i. rewrite G4. case: ifP => // Hi. by rewrite G3 Hi. }
  have Hjb' : (j < size (gk_beta s))%N by rewrite S4; lia.
  have Ewb : wr (gk_beta s) j (gkb A w j) = Some (set_nth (gkb A w j) (gk_beta s) j (gkb A w j))
    by rewrite wrE.
  rewrite Ewb [obind _ _]/=. set be' := set_nth _ _ _ _.
  eexists; first by reflexivity.
  rewrite /gk_inv /= Ek. split => //.
  - split; rewrite ?SU4 ?SU3 ?SU2 ?SU1 ?S1 ?SV4 ?SV3 ?SV2 ?SV1 ?S2 //;
      [by rewrite (size_wr Ewa)|by rewrite (size_wr Ewb)].
  - move=> i. rewrite (nth_wr 0 i Ewa) Eal ltnS. by case: ltngtP => // ->.
  - move=> i. rewrite (nth_wr 0 i Ewb) Ebe ltnS. by case: ltngtP => // ->.
  - case: ltP => Hlt; first by split.
    split => //.
    + move=> i. rewrite ltnS leq_eqVlt => /orP [/eqP ->|] //. exact: Hge.
    + move=> i. rewrite ltnS leq_eqVlt => /orP [/eqP ->|Hi] Hib; first by rewrite F4 eqxx.
      rewrite F4 (negbTE (circular_neq _ _)); [|slia|slia]. apply: HslU; slia.
    + move=> i. rewrite leq_eqVlt => /orP [/eqP ->|Hi] Hib; first by rewrite G4 eqxx.
      rewrite G4 (negbTE (circular_neq _ _)); [|slia|slia]. apply: HslV; slia.
Qed.

(** m = 1 with a buffer of one vector: the next right vector overwrites the
    current one, alpha[0] is still right. *)
Lemma gk_body_one s : bs = 1%N -> gk_stop s = false -> gk_size s = 0%N ->
  size (gk_alpha s) = size alpha0 -> size (gk_beta s) = size beta0 ->
  size (gk_U s) = size U0 -> size (gk_V s) = size V0 ->
  (0 < size alpha0)%N -> (0 < size beta0)%N -> (bs * n <= size U0)%N -> (bs * n <= size V0)%N ->
  slot n (gk_V s) 0 = gkv A w 0 ->
  exists s', [/\ gk_body eps A_dot A_tdot n bs tol orth 0 s = Some s', gk_size s' = 1%N,
     (gk_alpha s')`_0 = gka A w 0, size (gk_alpha s') = size alpha0 & size (gk_beta s') = size beta0].
Proof.
  move=> Hbs Est Esz S3 S4 S1 S2 Ha Hb HU HV Ev. rewrite /gk_body Est Hbs.
  rewrite !modn1. rewrite Hbs in HU HV.
  have Haj : gka A w 0 != 0 by apply: gk_injective.
  have Hc : (0 < 1)%N by [].
  have HU' : (1 * n <= size (gk_U s))%N by rewrite S1.
  have HV' : (1 * n <= size (gk_V s))%N by rewrite S2.
  have [U1 [-> SU1 F1]] := upd_slot (f := A_dot (at_ (gk_V s) (0 * n))) Hc HU'
    (A_dot_ok (size_at Hc HV') (size_at Hc HU')).
  rewrite [obind _ _]/= andbF [X in obind _ X]/= [obind _ _]/=.
  rewrite -/(slot n (gk_V s) 0) Ev in F1.
  have HU1 : (1 * n <= size U1)%N by rewrite SU1.
  have [U4 [-> SU4 F4]] := normalize_at_ok Hc HU1. rewrite [obind _ _]/=.
  have Ex : slot n U1 0 = gkx A w 0 by rewrite F1 /gkx /gkbp /= scale0r subr0.
  rewrite Ex -/(gka A w 0) (negbTE Haj).
  have Hja : (0 < size (gk_alpha s))%N by rewrite S3.
  have Ewa : wr (gk_alpha s) 0 (gka A w 0) = Some (set_nth (gka A w 0) (gk_alpha s) 0 (gka A w 0))
    by rewrite wrE.
  rewrite Ewa [obind _ _]/=. set al' := set_nth _ _ _ _.
  have HU4 : (1 * n <= size U4)%N by rewrite SU4.
  have [V1 [-> SV1 G1]] := upd_slot (f := A_tdot (at_ U4 (0 * n))) Hc HV'
    (A_tdot_ok (size_at Hc HU4) (size_at Hc HV')).
  rewrite [obind _ _]/=.
  have HV1 : (1 * n <= size V1)%N by rewrite SV1.
  have [V2 [-> SV2 G2]] := upd_slot (f := subtract_scaled_vector (at_ V1 (0 * n)) n (gka A w 0))
        Hc HV1 (subtract_scaled_vector_ok (gka A w 0) (size_at Hc HV1) (size_at Hc HV1)).
  rewrite [obind _ _]/=.
  have HV2 : (1 * n <= size V2)%N by rewrite SV2.
  have -> : (if orth != 0 then gram_schmidt_inside eps V2 n 1 0 0%:Z (0 * n) else Some V2) = Some V2.
  { by case: ifP. }
  rewrite [obind _ _]/=.
  have [V4 [-> SV4 G4]] := normalize_at_ok Hc HV2. rewrite [obind _ _]/=.
  set b0 := nrm _.
  have Hjb' : (0 < size (gk_beta s))%N by rewrite S4.
  have Ewb : wr (gk_beta s) 0 b0 = Some (set_nth b0 (gk_beta s) 0 b0) by rewrite wrE.
  rewrite Ewb [obind _ _]/=. eexists; split; first by reflexivity.
  - by rewrite /= Esz.
  - by rewrite /= (nth_wr 0 0 Ewa).
  - by rewrite /= (size_wr Ewa).
  - by rewrite /= (size_wr Ewb).
Qed.

Lemma golub_kahn_ok : (0 < m)%N ->
  (m <= size alpha0)%N -> (m <= size beta0)%N -> (bs * n <= size U0)%N -> (bs * n <= size V0)%N ->
  exists k alpha beta,
    [/\ golub_kahn eps A_dot A_tdot v n m tol orth U0 V0 alpha0 beta0 = Some (k, alpha, beta),
        (0 < k <= m)%N,
        (size alpha = size alpha0 /\ size beta = size beta0),
        (forall i, (i < k)%N -> alpha`_i = gka A w i) /\
        (forall i, (i < k.-1)%N -> beta`_i = gkb A w i) &
        (forall i, (i < k.-1)%N -> tl <= gkb A w i) /\
        ((k < m)%N -> beta`_k.-1 = gkb A w k.-1 /\ gkb A w k.-1 < tl)].
Proof.
  move=> Hm Ha Hb HU HV. rewrite /golub_kahn.
  have Hbs := gk_bs_gt0 Hm.
  have HV0 : (n <= size V0)%N.
  { apply: leq_trans HV. exact: leq_pmull. }
  have [V1 [-> [E1 SV1 H1]]] := normalize_and_copy_ok v_size HV0.
  rewrite [obind _ _]/= norm2_nrm. rewrite norm2_nrm in E1.
  rewrite nrm_eq0 (negbTE v_nz).
  have Es : slot n V1 0 = gkv A w 0 by rewrite /slot mul0n drop0 E1.
  case: (leqP bs 1) => Hb1.
  - have Eb : bs = 1%N by apply/eqP; rewrite eqn_leq Hb1 Hbs.
    have Em : m = 1%N.
    { apply/eqP. rewrite eqn_leq Hm andbT leqNgt. apply/negP => /gk_bs_gt1. by rewrite Eb. }
    have [s' [E2 F1 F2 F3 F4]] := @gk_body_one (GkState U0 V1 alpha0 beta0 0 false) Eb erefl erefl
       erefl erefl erefl SV1 (leq_trans Hm Ha) (leq_trans Hm Hb) HU HV Es.
    have -> : for_ 0 m 1 (gk_body eps A_dot A_tdot n bs tol orth) (GkState U0 V1 alpha0 beta0 0 false)
       = Some s'.
    { by rewrite [X in for_ 0 X]Em /for_ /= E2. }
    rewrite [obind _ _]/=. exists 1%N, (gk_alpha s'), (gk_beta s'). rewrite F1. split => //.
    + by split=> // -[|i].
    + split => // H. by rewrite Em in H.
  - have [s -> [Hk [S1 S2 S3 S4] Eal Ebe Hst]] : exists2 s,
      for_ 0 m 1 (gk_body eps A_dot A_tdot n bs tol orth) (GkState U0 V1 alpha0 beta0 0 false)
      = Some s & gk_inv m s.
    { apply: for1_inv => //.
      - split => //. split => // i. by rewrite leqn0 => /eqP -> _; rewrite mod0n.
      - move=> j s /andP [_ Hj]. exact: gk_body_ok. }
    rewrite [obind _ _]/=. exists (gk_size s), (gk_alpha s), (gk_beta s).
    have Hpred : forall k i, (i < k.-1)%N -> (i < k)%N by move=> [|k] // i /ltnW.
    case Est : (gk_stop s) Hst => [] [G1 G2 G3].
    + split => //; first by rewrite G1.
      * split => i Hi; first by rewrite Eal Hi. by rewrite Ebe (Hpred _ _ Hi).
      * split => // _. rewrite Ebe. by case: (gk_size s) G1 G3 => // k _; rewrite /= ltnSn.
    + move=> _. split => //.
      * by rewrite G1 Hm leqnn.
      * split => i Hi; first by rewrite Eal Hi. by rewrite Ebe (Hpred _ _ Hi).
      * split; last by rewrite G1 ltnn.
        move=> i Hi. apply: G2. exact: Hpred.
Qed.

End GolubKahnRefinement.
