(** The memory-level iterations compute the vector recursions of LanczosMath. *)
From mathcomp Require Import all_ssreflect all_algebra zify.
From Verif Require Import Mem KernelModel KernelSpec KernelProofs LanczosModel LanczosSpec LanczosMath.
Set Implicit Arguments.
Unset Strict Implicit.
Unset Printing Implicit Defensive.
Import GRing.Theory Num.Theory Order.TTheory.
Local Open Scope ring_scope.

(** lia without the hypotheses that only slow it down. *)
Ltac slia := repeat match goal with
  | H : context [modn _ _] |- _ => clear H
  | H : context [muln _ _] |- _ => clear H
  | H : context [size _] |- _ => clear H end; lia.

(** Which vectors Gram-Schmidt uses. *)
Lemma gs_num_steps_le o bs n : (gs_num_steps o bs n <= bs)%N.
Proof. 
  rewrite /gs_num_steps. case: ifP => // _.
  set s := (X in if (n < X)%N then n else X).
  suff Hs : (s <= bs)%N by case: ltnP => // H; lia.
  rewrite /s {s}. case: ifP => // /norP [H0]. rewrite -leNgt. case: o H0 => [k|k] //= _.
Qed.

Lemma gs_index_lt bs l s : (s < bs)%N -> (gs_index bs l s < bs)%N.
Proof.
  move=> Hs. have Hm : (l %% bs < bs)%N by rewrite ltn_mod; lia.
  rewrite /gs_index. case: ifP => ?; lia.
Qed.

(** The step uses the vector [s] before the last one, cyclically. *)
Lemma gs_index_mod bs l s : (s < bs)%N -> gs_index bs l s = ((l %% bs + bs - s) %% bs)%N.
Proof.
  move=> Hs. have Hm : (l %% bs < bs)%N by rewrite ltn_mod; lia.
  rewrite /gs_index. case: ifP => H.
  - have -> : (l %% bs + bs - s = (l %% bs - s) + bs)%N by lia.
    rewrite modnDr [RHS]modn_small //. lia.
  - rewrite [RHS]modn_small //. lia.
Qed.

Lemma gs_index_circular bs j s : (s < bs)%N -> (s <= j)%N ->
  gs_index bs (j %% bs) s = ((j - s) %% bs)%N.
Proof.
  move=> Hs Hj. have Hm : (j %% bs < bs)%N by rewrite ltn_mod; lia.
  rewrite gs_index_mod // modn_mod.
  have -> : ((j - s) %% bs = ((j - s) + bs) %% bs)%N by rewrite modnDr.
  have -> : (j - s + bs = j %/ bs * bs + (j %% bs + bs - s))%N.
  { have := divn_eq j bs. lia. }
  by rewrite modnMDl.
Qed.

Section Slots.
Variable R : rcfType.
Implicit Types (V x y : seq R).

Definition slot n V i : 'cV[R]_n := vec n (drop (i * n) V).

Lemma slotE n V i (k : 'I_n) : slot n V i k 0 = V`_(i * n + k).
Proof. by rewrite mxE nth_drop. Qed.

Lemma splice_slot n bs V s c (w : 'cV[R]_n) : (s < bs)%N -> (bs * n <= size V)%N ->
  vec n c = w -> size c = size (drop (s * n) V) ->
  (forall k, (n <= k)%N -> c`_k = (drop (s * n) V)`_k) ->
  size (take (s * n) V ++ c) = size V /\
  forall i, slot n (take (s * n) V ++ c) i = if i == s then w else slot n V i.
Proof.
  move=> Hs HV Ec Sc Hc.
  have Hsn : (s * n + n <= size V)%N.
  { apply: leq_trans HV. by rewrite -mulSnr leq_mul2r Hs orbT. }
  have St : size (take (s * n) V) = (s * n)%N by apply: size_takel; apply: leq_trans Hsn; exact: leq_addr.
  split.
  - rewrite size_cat Sc size_drop St subnKC //. apply: leq_trans Hsn. exact: leq_addr.
  - move=> i. apply/matrixP => k l. rewrite ord1 slotE nth_cat St.
    case: (eqVneq i s) => [->|Hne].
    + by rewrite ltnNge leq_addr /= addKn -Ec mxE.
    + rewrite slotE. case: ltnP => Hlt; first by rewrite nth_take.
      have Hk := ltn_ord k.
      have Hge : (s.+1 * n <= i * n)%N by rewrite leq_mul2r; apply/orP; right; nia.
      rewrite mulSn in Hge.
      rewrite Hc; last by lia. rewrite nth_drop. congr (_`_ _). lia.
Qed.

Lemma upd_slot n bs V s f (w : 'cV[R]_n) : (s < bs)%N -> (bs * n <= size V)%N ->
  writes (drop (s * n) V) w (f (drop (s * n) V)) ->
  exists V', [/\ upd_at V (s * n) f = Some V', size V' = size V &
    forall i, slot n V' i = if i == s then w else slot n V i].
Proof.
  move=> Hs HV [c [Ef Ec Sc Hc]]. rewrite /upd_at Ef /=.
  have [H1 H2] := splice_slot Hs HV Ec Sc Hc. by exists (take (s * n) V ++ c).
Qed.

Lemma size_at n bs V s : (s < bs)%N -> (bs * n <= size V)%N -> (n <= size (drop (s * n) V))%N.
Proof.
  move=> Hs HV. have : (s.+1 * n <= bs * n)%N by rewrite leq_mul2r Hs orbT.
  rewrite size_drop mulSn. lia.
Qed.

Lemma inner_product_ip n x y : (n <= size x)%N -> (n <= size y)%N ->
  inner_product x y n = Some (ip (vec n x) (vec n y)).
Proof.
  move=> Hx Hy. rewrite inner_product_ok //. congr Some.
  apply: eq_bigr => i _. by rewrite !mxE.
Qed.

Lemma euclidean_norm_nrm n x : (n <= size x)%N ->
  euclidean_norm x n = Some (nrm (vec n x)).
Proof.
  move=> Hx. rewrite euclidean_norm_ok //. congr (Some (Num.sqrt _)).
  apply: eq_bigr => i _. by rewrite !mxE expr2.
Qed.

Lemma norm2_nrm n x : norm2 n x = nrm (vec n x).
Proof.
  congr Num.sqrt. apply: eq_bigr => i _. by rewrite !mxE expr2.
Qed.

Lemma normalize_at_ok n bs V s : (s < bs)%N -> (bs * n <= size V)%N ->
  exists V', [/\ normalize_at V (s * n) n = Some (nrm (slot n V s), V'), size V' = size V &
    forall i, slot n V' i = if i == s then (nrm (slot n V s))^-1 *: slot n V s else slot n V i].
Proof.
  move=> Hs HV. rewrite /normalize_at.
  have [c [-> [Ec Sc Hc]]] := normalize_in_place_ok (size_at Hs HV).
  rewrite norm2_nrm -/(slot n V s) in Ec *.
  have [H1 H2] := splice_slot Hs HV Ec Sc Hc. by exists (take (s * n) V ++ c).
Qed.

(** ** Gram-Schmidt *)

Variable eps : R.
Hypothesis eps_gt0 : 0 < eps.

(** One step on vectors. *)
Definition gs_skip n (u v : 'cV[R]_n) : bool :=
  (nrm u < eps * Num.sqrt n%:R) ||
  (`| `|ip u v / (nrm u * nrm u)| - 1 | <= 2%:R * eps) &&
  (nrm v * nrm v - 2%:R * ip u v + nrm u * nrm u < 2%:R * eps * n%:R).

Definition gs_vec n (u v : 'cV[R]_n) : 'cV[R]_n :=
  if gs_skip u v then v else v - (ip u v / (nrm u * nrm u)) *: u.

Lemma sqrt_n_gt0 n : (0 < n)%N -> 0 < Num.sqrt n%:R :> R.
Proof. move=> Hn. by rewrite sqrtr_gt0 ltr0n. Qed.

Lemma gs_step_ok n x y : (0 < n)%N -> (n <= size x)%N -> (n <= size y)%N ->
  writes y (gs_vec (vec n x) (vec n y)) (gs_step eps n x y).
Proof.
  move=> Hn Hx Hy. rewrite /gs_step /gs_vec /gs_skip (euclidean_norm_nrm Hx) /=.
  case: (boolP (nrm (vec n x) < _)) => Hsm /=; first by apply: writes_refl.
  rewrite inner_product_ip //=.
  have Hnz : nrm (vec n x) != 0.
  { apply/negP => /eqP E. move/negP: Hsm; apply. rewrite E.
    by rewrite mulr_gt0 // sqrt_n_gt0. }
  rewrite /dv mulf_eq0 (negbTE Hnz) /=. case: (boolP (`| _ | <= _)) => H1 /=.
  - rewrite (euclidean_norm_nrm Hy) /=. case: (boolP (_ - _ + _ < _)) => H2 /=; first by apply: writes_refl.
    exact: subtract_scaled_vector_ok.
  - exact: subtract_scaled_vector_ok.
Qed.

Definition gs_fold n (us : nat -> 'cV[R]_n) (steps : nat) (v : 'cV[R]_n) : 'cV[R]_n :=
  foldl (fun v s => gs_vec (us s) v) v (iota 0 steps).

Lemma gs_foldS n us k (v : 'cV[R]_n) : gs_fold us k.+1 v = gs_vec (us k) (gs_fold us k v).
Proof. by rewrite /gs_fold -[k.+1]addn1 iotaD foldl_cat /=. Qed.

Lemma gram_schmidt_ok n bs V l o v : (0 < n)%N -> (bs * n <= size V)%N -> (n <= size v)%N ->
  writes v (gs_fold (fun s => slot n V (gs_index bs l s)) (gs_num_steps o bs n) (vec n v))
    (gram_schmidt eps V n bs l o v).
Proof.
  move=> Hn HV Hv. rewrite /gram_schmidt.
  set us := fun s => _.
  pose I k (c : seq R) := [/\ vec n c = gs_fold us k (vec n v), size c = size v
                            & forall i, (n <= i)%N -> c`_i = v`_i].
  have [c -> [H1 H2 H3]] : exists2 c, for_ 0 (gs_num_steps o bs n) 1
    (fun step v => gs_step eps n (at_ V (n * gs_index bs l step)) v) v = Some c
     & I (gs_num_steps o bs n) c.
  { apply: for1_inv => // k c /andP [_ Hk] [H1 H2 H3].
    have Hb : (gs_index bs l k < bs)%N.
    { apply: gs_index_lt. apply: leq_trans Hk _. exact: gs_num_steps_le. }
    have [c' [E F1 F2 F3]] : writes c (gs_vec (us k) (vec n c))
        (gs_step eps n (at_ V (n * gs_index bs l k)) c).
    { rewrite /us /slot (mulnC n). apply: gs_step_ok => //; last by rewrite H2.
      exact: size_at Hb HV. }
    exists c' => //. split; first by rewrite F1 H1 gs_foldS.
    - by rewrite F2.
    - move=> i Hi. by rewrite F3 ?H3. }
  by exists c.
Qed.

(** v is one of the vectors, &V[t * n], and not among those used. *)
Lemma gram_schmidt_inside_ok n bs V l o t : (0 < n)%N -> (bs * n <= size V)%N -> (t < bs)%N ->
  (forall s, (s < gs_num_steps o bs n)%N -> gs_index bs l s != t) ->
  exists V', [/\ gram_schmidt_inside eps V n bs l o (t * n) = Some V', size V' = size V &
    forall i, slot n V' i =
      if i == t then gs_fold (fun s => slot n V (gs_index bs l s)) (gs_num_steps o bs n) (slot n V t)
      else slot n V i].
Proof.
  move=> Hn HV Ht Hne. rewrite /gram_schmidt_inside.
  pose us s := slot n V (gs_index bs l s). rewrite -/us.
  pose I k (W : seq R) := size W = size V /\
    forall i, slot n W i = if i == t then gs_fold us k (slot n V t) else slot n V i.
  have [W -> [H1 H2]] : exists2 W, for_ 0 (gs_num_steps o bs n) 1
    (fun step V => upd_at V (t * n) (gs_step eps n (at_ V (n * gs_index bs l step)))) V = Some W
     & I (gs_num_steps o bs n) W.
  { apply: for1_inv => //.
    { split => // i. by case: eqP => [->|]. }
    move=> k W /andP [_ Hk] [H1 H2].
    have Hb : (gs_index bs l k < bs)%N.
    { apply: gs_index_lt. apply: leq_trans Hk _. exact: gs_num_steps_le. }
    have HW : (bs * n <= size W)%N by rewrite H1.
    have [W' [-> S' F]] := upd_slot (f := gs_step eps n (at_ W (n * gs_index bs l k))) Ht HW
      (gs_step_ok Hn (eq_ind_r (fun q => n <= size (drop q W))%N (size_at Hb HW) (mulnC _ _))
         (size_at Ht HW)).
    exists W' => //. split; first by rewrite S'.
    move=> i. rewrite F gs_foldS. case: (eqVneq i t) => [_|Hi]; last by rewrite H2 (negbTE Hi).
    by rewrite /at_ (mulnC n) -/(slot n W _) -/(slot n W t) !H2 eqxx (negbTE (Hne k Hk)). }
  by exists W.
Qed.

(** Vectors orthogonal to all those used are left alone. *)
Lemma gs_vec_orth n (u v : 'cV[R]_n) : ip u v = 0 -> gs_vec u v = v.
Proof.
  move=> H. rewrite /gs_vec. case: ifP => // _. by rewrite H mul0r scale0r subr0.
Qed.

Lemma gs_fold_orth n (us : nat -> 'cV[R]_n) k v :
  (forall s, (s < k)%N -> ip (us s) v = 0) -> gs_fold us k v = v.
Proof.
  elim: k => [//|k IH] H. rewrite gs_foldS IH; last by move=> s Hs; apply: H; exact: ltnW.
  apply: gs_vec_orth => //. exact: H.
Qed.

End Slots.

(** ** Lanczos *)

Lemma circular_neq bs i j : (i < j)%N -> (j < i + bs)%N -> (i %% bs)%N != (j %% bs)%N.
Proof.
  move=> H1 H2. apply/negP => /eqP E.
  have : (bs %| j - i)%N by rewrite -eqn_mod_dvd ?(ltnW H1) // E.
  move/dvdn_leq => H. have : (bs <= j - i)%N by apply: H; lia. lia.
Qed.

Section LanczosRefinement.
Variable R : rcfType.
Variable eps : R.
Hypothesis eps_gt0 : 0 < eps.
Variable n : nat.
Hypothesis n_gt0 : (0 < n)%N.
Variable A : 'M[R]_n.
Variable A_dot : seq R -> seq R -> option (seq R).
Hypothesis A_dot_ok : forall x c, (n <= size x)%N -> (n <= size c)%N ->
  writes c (A *m vec n x) (A_dot x c).
Hypothesis A_sym : A^T = A.
Variable v : seq R.
Hypothesis v_size : (n <= size v)%N.
Notation w := (vec n v).
Hypothesis v_nz : w != 0.
Variable m : nat.
Variable tol : R.
Hypothesis tol_gt0 : 0 < tol.
Variable orth : int.
Notation bs := (lanczos_buffer_size orth m).
Notation tl := (tol * Num.sqrt n%:R).

Lemma tl_gt0 : 0 < tl.
Proof. by rewrite mulr_gt0 // sqrt_n_gt0. Qed.

Lemma bs_gt0 : (0 < m)%N -> (0 < bs)%N.
Proof.
  move=> Hm. rewrite /lanczos_buffer_size. case: ifP => // /norP [H0 H1].
  case: ifP => // /norP [H2 H3]. by rewrite absz_gt0.
Qed.

Lemma bs_gt1 : (1 < m)%N -> (1 < bs)%N.
Proof.
  move=> Hm. rewrite /lanczos_buffer_size. case: ifP => // /norP [H0 H1].
  case: ifP => // /norP [H2 H3]. case: orth H0 H1 H2 {H3} => [[|[|k]]|k] //.
Qed.

Variables alpha0 beta0 : seq R.
Variables V0 r0 : seq R.
Notation sizeV := (size V0).
Notation sizer := (size r0).

Definition lz_inv (j : nat) (s : lz_state R) : Prop :=
  let k := lz_size s in
  [/\ (k <= j)%N,
      [/\ size (lz_V s) = sizeV, size (lz_r s) = sizer,
          size (lz_alpha s) = size alpha0 & size (lz_beta s) = size beta0],
      (forall i, (lz_alpha s)`_i = if (i < k)%N then lza A w i else alpha0`_i),
      (forall i, (lz_beta s)`_i = if (i < k)%N then lzb A w i else beta0`_i) &
      if lz_stop s then
        [/\ (0 < k)%N, (forall i, (i < k.-1)%N -> tl <= lzb A w i) & lzb A w k.-1 < tl]
      else
        [/\ k = j, (forall i, (i < k)%N -> tl <= lzb A w i),
            vec n (lz_r s) = (if j is j'.+1 then lzr A w j' else w) &
            forall i, (i < j)%N -> (j <= i + bs)%N -> slot n (lz_V s) (i %% bs) = lzq A w i]].

Lemma ge_tl_alive k : (forall i, (i < k)%N -> tl <= lzb A w i) -> alive A w k.
Proof. move=> H i Hi. apply: lt0r_neq0. apply: lt_le_trans (H i Hi). exact: tl_gt0. Qed.

Lemma lanczos_body_ok j s :
  (j < m)%N -> (m <= size alpha0)%N -> (m <= size beta0)%N ->
  (bs * n <= sizeV)%N -> (n <= sizer)%N ->
  lz_inv j s ->
  exists2 s', lanczos_body eps A_dot n bs tol orth (nrm w) j s = Some s' & lz_inv j.+1 s'.
Proof.
  move=> Hj Ha Hb HV Hr [Hk [S1 S2 S3 S4] Eal Ebe]. rewrite /lanczos_body.
  case Est : (lz_stop s) => Hst.
  { exists s => //. rewrite /lz_inv Est. split => //. exact: leqW. }
  case: Hst => [Ek Hge Er Hsl]. rewrite Ek in Eal Ebe Hge.
  have Hal := ge_tl_alive Hge.
  have Hbs : (0 < bs)%N by apply: bs_gt0; lia.
  have Hjb : (j %% bs < bs)%N by rewrite ltn_mod.
  (* scale *)
  have -> : (if j == 0%N then dv 1 (nrm w) else do b <- rd (lz_beta s) j.-1; dv 1 b)
            = Some (if j is j'.+1 then (lzb A w j')^-1 else (nrm w)^-1).
  { case: j Hj Ebe Hal {Hk Ek Eal Hge Er Hsl Hjb} => [|j] Hj Ebe Hal /=.
    - by rewrite /dv nrm_eq0 (negbTE v_nz) div1r.
    - rewrite (rdE 0) ?S4 /=; last by lia. rewrite Ebe ltnSn /dv (negbTE (Hal j (ltnSn j))).
      by rewrite div1r. }
  set sc := (X in Some X).
  have Eq : sc *: vec n (lz_r s) = lzq A w j.
  { rewrite Er /sc. case: (j) => [|j'] //. by rewrite lzqS. }
  rewrite [obind _ _]/=.
  have HV' : (bs * n <= size (lz_V s))%N by rewrite S1.
  have Hr' : (n <= size (lz_r s))%N by rewrite S2.
  have [V [-> SV FV]] := upd_slot (f := copy_scaled_vector (lz_r s) n sc) Hjb HV'
    (copy_scaled_vector_ok sc Hr' (size_at Hjb HV')).
  rewrite [obind _ _]/=. rewrite Eq in FV.
  have HVs : (bs * n <= size V)%N by rewrite SV.
  have FVj : vec n (at_ V ((j %% bs) * n)) = lzq A w j by rewrite -/(slot n V _) FV eqxx.
  have SVj : (n <= size (at_ V ((j %% bs) * n)))%N by apply: size_at Hjb HVs.
  have [r1 [-> F1 Sr1 _]] := A_dot_ok SVj Hr'. rewrite [obind _ _]/=. rewrite FVj in F1.
  have Sr1' : (n <= size r1)%N by rewrite Sr1.
  rewrite (inner_product_ip SVj Sr1') [obind _ _]/= FVj F1 -/(lza A w j).
  have Hja : (j < size (lz_alpha s))%N by rewrite S3; lia.
  have Ewa : wr (lz_alpha s) j (lza A w j) = Some (set_nth (lza A w j) (lz_alpha s) j (lza A w j))
    by rewrite wrE.
  rewrite Ewa [obind _ _]/=. set al' := set_nth _ _ _ _.
  have [r2 [-> F2 Sr2 _]] := subtract_scaled_vector_ok (lza A w j) SVj Sr1'.
  rewrite [obind _ _]/=. rewrite FVj F1 in F2.
  have Sr2' : (n <= size r2)%N by rewrite Sr2 Sr1.
  (* subtract the previous vector *)
  have [r3 [-> F3 Sr3]] : exists r3, [/\ (if (0 < j)%N then
             do b <- rd (lz_beta s) j.-1;
             subtract_scaled_vector (at_ V ((j.-1 %% bs) * n)) n b r2
           else Some r2) = Some r3, vec n r3 = lzr A w j & size r3 = sizer].
  { case: posnP => H0.
    - exists r2. split => //; last by rewrite Sr2 Sr1 S2.
      rewrite F2 /lzr H0 /lzbp /lzp /= scale0r subr0. by [].
    - have Hm1 : (1 < m)%N by lia.
      have Hbs1 := bs_gt1 Hm1.
      rewrite (rdE 0) ?S4 /=; last by lia.
      have Hpb : (j.-1 %% bs < bs)%N by rewrite ltn_mod.
      have [r3 [E3 G3 T3 _]] := subtract_scaled_vector_ok (lz_beta s)`_j.-1 (size_at Hpb HVs) Sr2'.
      exists r3. split => //; last by rewrite T3 Sr2 Sr1 S2.
      rewrite G3 F2 -/(slot n V _) FV.
      rewrite (negbTE (circular_neq _ _)); [|slia|slia].
      rewrite Hsl; [|slia|slia]. rewrite Ebe (_ : (j.-1 < j)%N) ?prednK //.
      rewrite /lzr. have -> : lzbp A w j = lzb A w j.-1 by rewrite -lzbpS prednK.
      by have -> : lzp A w j = lzq A w j.-1 by rewrite -lzpS prednK. }
  rewrite [obind _ _]/=.
  have Sr3' : (n <= size r3)%N by rewrite Sr3.
  (* reorthogonalisation *)
  have [r4 [-> F4 Sr4]] : exists r4, [/\ (if orth != 0 then
             gram_schmidt eps V n bs (j %% bs) (if (j < bs)%N then j.+1 else bs)%:Z r3
           else Some r3) = Some r4, vec n r4 = lzr A w j & size r4 = sizer].
  { case: ifP => Ho; last by exists r3.
    have [r4 [E4 G4 T4 _]] := gram_schmidt_ok eps_gt0 (j %% bs)
      (if (j < bs)%N then j.+1 else bs)%:Z n_gt0 HVs Sr3'.
    exists r4. split => //; last by rewrite T4.
    rewrite G4 F3. apply: gs_fold_orth => i Hi.
    have Hib : (i < bs)%N by apply: leq_trans Hi _; exact: gs_num_steps_le.
    have Hij : (i <= j)%N.
    { move: Hi. rewrite /gs_num_steps. case: ifP => // _.
      case: (ltnP j bs) => Hjbs; last by lia.
      rewrite (_ : (Posz j.+1 < 0) || (Posz bs < Posz j.+1) = false); last first.
      { apply/norP; split; rewrite -leNgt //. }
      rewrite absz_nat. by case: ifP => H; lia. }
    rewrite (gs_index_circular Hib Hij) FV.
    have -> : (if ((j - i) %% bs == j %% bs)%N then lzq A w j else slot n (lz_V s) ((j - i) %% bs))
              = lzq A w (j - i).
    { case: (posnP i) => [->|Hi0]; first by rewrite subn0 eqxx.
      rewrite (negbTE (circular_neq _ _)); [|slia|slia]. apply: Hsl; slia. }
    apply: lz_residual_orth => //. exact: leq_subr. }
  rewrite [obind _ _]/=.
  have Sr4' : (n <= size r4)%N by rewrite Sr4.
  rewrite (euclidean_norm_nrm Sr4') [obind _ _]/= F4 -/(lzb A w j).
  have Hjb' : (j < size (lz_beta s))%N by rewrite S4; lia.
  have Ewb : wr (lz_beta s) j (lzb A w j) = Some (set_nth (lzb A w j) (lz_beta s) j (lzb A w j))
    by rewrite wrE.
  rewrite Ewb [obind _ _]/=. set be' := set_nth _ _ _ _.
  eexists; first by reflexivity.
  rewrite /lz_inv /= Ek. split => //.
  - split; rewrite ?SV ?S1 //; [by rewrite (size_wr Ewa)|by rewrite (size_wr Ewb)].
  - move=> i. rewrite (nth_wr 0 i Ewa) Eal ltnS. by case: ltngtP => // ->.
  - move=> i. rewrite (nth_wr 0 i Ewb) Ebe ltnS. by case: ltngtP => // ->.
  - case: ltP => Hlt; first by split.
    split => //.
    + move=> i. rewrite ltnS leq_eqVlt => /orP [/eqP ->|] //. exact: Hge.
    + move=> i. rewrite ltnS leq_eqVlt => /orP [/eqP ->|Hi] Hib; first by rewrite FV eqxx.
      rewrite FV (negbTE (circular_neq _ _)); [|slia|slia]. apply: Hsl; slia.
Qed.

Lemma lanczos_ok : (0 < m)%N ->
  (m <= size alpha0)%N -> (m <= size beta0)%N -> (bs * n <= size V0)%N -> (n <= size r0)%N ->
  exists k alpha beta,
    [/\ lanczos eps A_dot v n m tol orth V0 r0 alpha0 beta0 = Some (k, alpha, beta),
        (0 < k <= m)%N,
        (size alpha = size alpha0 /\ size beta = size beta0),
        (forall i, alpha`_i = if (i < k)%N then lza A w i else alpha0`_i) /\
        (forall i, beta`_i = if (i < k)%N then lzb A w i else beta0`_i) &
        (forall i, (i < k.-1)%N -> tl <= lzb A w i) /\ ((k < m)%N -> lzb A w k.-1 < tl)].
Proof.
  move=> Hm Ha Hb HV Hr. rewrite /lanczos.
  have [r [-> Er Sr _]] := copy_vector_ok v_size Hr. rewrite [obind _ _]/=.
  have Sr' : (n <= size r)%N by rewrite Sr.
  rewrite (euclidean_norm_nrm Sr') [obind _ _]/= Er.
  have [s -> [Hk [S1 S2 S3 S4] Eal Ebe Hst]] : exists2 s,
    for_ 0 m 1 (lanczos_body eps A_dot n bs tol orth (nrm w)) (LzState V0 r alpha0 beta0 0 false)
    = Some s & lz_inv m s.
  { apply: for1_inv => //.
    move=> j s /andP [_ Hj]. exact: lanczos_body_ok. }
  rewrite [obind _ _]/=. exists (lz_size s), (lz_alpha s), (lz_beta s).
  case Est : (lz_stop s) Hst => [] [H1 H2 H3].
  - split => //. by rewrite H1.
  - move=> _. split => //.
    + by rewrite H1 Hm leqnn.
    + split; last by rewrite H1 ltnn.
      move=> i Hi. apply: H2. move: Hi. by case: (lz_size s) => // k /ltnW.
Qed.

End LanczosRefinement.
