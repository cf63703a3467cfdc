(** The Lanczos iteration stays inside its arrays for every operator, linear or
    not. *)
From mathcomp Require Import all_ssreflect all_algebra.
From mathcomp Require Import zify.
From Verif Require Import Mem KernelModel KernelSpec KernelProofs LanczosModel LanczosSpec
  LanczosMath LanczosProofs.
Set Implicit Arguments.
Unset Strict Implicit.
Unset Printing Implicit Defensive.
Import GRing.Theory Num.Theory Order.TTheory.
Local Open Scope ring_scope.

Section Safe.
Variable R : rcfType.
Variable eps : R.
Hypothesis eps_gt0 : 0 < eps.
Variable n : nat.
Hypothesis n_gt0 : (0 < n)%N.
Variable A_dot : seq R -> seq R -> option (seq R).
Hypothesis A_dot_total : forall x c, (n <= size x)%N -> (n <= size c)%N ->
  exists c', A_dot x c = Some c' /\ size c' = size c.
Variable v : seq R.
Hypothesis v_size : (n <= size v)%N.
Hypothesis v_nz : vec n v != 0.
Variable m : nat.
Variable tol : R.
Hypothesis tol_gt0 : 0 < tol.
Variable orth : int.
Notation bs := (lanczos_buffer_size orth m).
Notation tl := (tol * Num.sqrt n%:R).
Variables alpha0 beta0 V0 r0 : seq R.

Definition safe_inv (j : nat) (s : lz_state R) : Prop :=
  [/\ (lz_size s <= j)%N,
      [/\ size (lz_V s) = size V0, size (lz_r s) = size r0,
          size (lz_alpha s) = size alpha0 & size (lz_beta s) = size beta0] &
      if lz_stop s then is_true (0 < lz_size s)%N
      else lz_size s = j /\ ((0 < j)%N -> (lz_beta s)`_j.-1 != 0)].

Lemma safe_body j s :
  (j < m)%N -> (m <= size alpha0)%N -> (m <= size beta0)%N ->
  (bs * n <= size V0)%N -> (n <= size r0)%N ->
  safe_inv j s ->
  exists2 s', lanczos_body eps A_dot n bs tol orth (nrm (vec n v)) j s = Some s' & safe_inv j.+1 s'.
Proof.
  move=> Hj Ha Hb HV Hr [Hk [S1 S2 S3 S4]]. rewrite /lanczos_body.
  case Est : (lz_stop s) => Hst.
  { exists s => //. split; rewrite ?Est //. exact: leqW. }
  case: Hst => Ek Hbe.
  have Hbs : (0 < bs)%N by apply: bs_gt0; lia.
  have Hjb : (j %% bs < bs)%N by rewrite ltn_mod.
  have [sc ->] : exists sc, (if j == 0%N then dv 1 (nrm (vec n v))
      else do b <- rd (lz_beta s) j.-1; dv 1 b) = Some sc.
  { case: eqP => [_|/eqP H0].
    - exists (1 / nrm (vec n v)). by rewrite /dv nrm_eq0 (negbTE v_nz).
    - rewrite -lt0n in H0. have Hlt : (j.-1 < size (lz_beta s))%N by rewrite S4; lia.
      rewrite (rdE 0 Hlt) /=. exists (1 / (lz_beta s)`_j.-1). by rewrite /dv (negbTE (Hbe H0)). }
  rewrite [obind _ _]/=.
  have HV' : (bs * n <= size (lz_V s))%N by rewrite S1.
  have Hr' : (n <= size (lz_r s))%N by rewrite S2.
  have [V [-> SV _]] := upd_slot (f := copy_scaled_vector (lz_r s) n sc) Hjb HV'
    (copy_scaled_vector_ok sc Hr' (size_at Hjb HV')).
  rewrite [obind _ _]/=.
  have HVs : (bs * n <= size V)%N by rewrite SV.
  have SVj : (n <= size (at_ V ((j %% bs) * n)))%N by apply: size_at Hjb HVs.
  have [r1 [-> Sr1]] := A_dot_total SVj Hr'. rewrite [obind _ _]/=.
  have Sr1' : (n <= size r1)%N by rewrite Sr1.
  rewrite (inner_product_ip SVj Sr1') [obind _ _]/=. set a := ip _ _.
  have Hja : (j < size (lz_alpha s))%N by rewrite S3; lia.
  have Ewa := wrE a Hja.
  rewrite Ewa [obind _ _]/=. set al' := set_nth _ _ _ _.
  have [r2 [-> _ Sr2 _]] := subtract_scaled_vector_ok a SVj Sr1'.
  rewrite [obind _ _]/=.
  have Sr2' : (n <= size r2)%N by rewrite Sr2 Sr1.
  have [r3 [-> Sr3]] : exists r3, (if (0 < j)%N then
             do b <- rd (lz_beta s) j.-1;
             subtract_scaled_vector (at_ V ((j.-1 %% bs) * n)) n b r2
           else Some r2) = Some r3 /\ size r3 = size r0.
  { case: posnP => H0; first by exists r2; rewrite Sr2 Sr1 S2.
    have Hlt : (j.-1 < size (lz_beta s))%N by rewrite S4; lia.
    rewrite (rdE 0 Hlt) /=.
    have Hpb : (j.-1 %% bs < bs)%N by rewrite ltn_mod.
    have [r3 [E3 _ T3 _]] := subtract_scaled_vector_ok (lz_beta s)`_j.-1 (size_at Hpb HVs) Sr2'.
    exists r3. by rewrite E3 T3 Sr2 Sr1 S2. }
  rewrite [obind _ _]/=.
  have Sr3' : (n <= size r3)%N by rewrite Sr3.
  have [r4 [-> Sr4]] : exists r4, (if orth != 0 then
             gram_schmidt eps V n bs (j %% bs) (if (j < bs)%N then j.+1 else bs)%:Z r3
           else Some r3) = Some r4 /\ size r4 = size r0.
  { case: ifP => Ho; last by exists r3.
    have [r4 [E4 _ T4 _]] := gram_schmidt_ok eps_gt0 (j %% bs)
      (if (j < bs)%N then j.+1 else bs)%:Z n_gt0 HVs Sr3'.
    exists r4. by rewrite E4 T4. }
  rewrite [obind _ _]/=.
  have Sr4' : (n <= size r4)%N by rewrite Sr4.
  rewrite (euclidean_norm_nrm Sr4') [obind _ _]/=. set b := nrm _.
  have Hjb' : (j < size (lz_beta s))%N by rewrite S4; lia.
  have Ewb := wrE b Hjb'.
  rewrite Ewb [obind _ _]/=. set be' := set_nth _ _ _ _.
  eexists; first by reflexivity.
  rewrite /safe_inv /= Ek. split => //.
  - split; rewrite ?SV ?S1 //; [by rewrite (size_wr Ewa)|by rewrite (size_wr Ewb)].
  - case: ltP => Hlt //. split=> // _. rewrite (nth_wr 0 j Ewb) eqxx gt_eqF //.
    apply: lt_le_trans Hlt. by rewrite mulr_gt0 // sqrt_n_gt0.
Qed.

Lemma lanczos_safe : (0 < m)%N ->
  (m <= size alpha0)%N -> (m <= size beta0)%N -> (bs * n <= size V0)%N -> (n <= size r0)%N ->
  exists k alpha beta,
    [/\ lanczos eps A_dot v n m tol orth V0 r0 alpha0 beta0 = Some (k, alpha, beta),
        (0 < k <= m)%N & size alpha = size alpha0 /\ size beta = size beta0].
Proof.
  move=> Hm Ha Hb HV Hr. rewrite /lanczos.
  have [r [-> Er Sr _]] := copy_vector_ok v_size Hr. rewrite [obind _ _]/=.
  have Sr' : (n <= size r)%N by rewrite Sr.
  rewrite (euclidean_norm_nrm Sr') [obind _ _]/= Er.
  have [s -> [Hk [S1 S2 S3 S4] Hst]] : exists2 s,
    for_ 0 m 1 (lanczos_body eps A_dot n bs tol orth (nrm (vec n v))) (LzState V0 r alpha0 beta0 0 false)
    = Some s & safe_inv m s.
  { apply: for1_inv => //.
    move=> j s /andP [_ Hj]. exact: safe_body. }
  rewrite [obind _ _]/=. exists (lz_size s), (lz_alpha s), (lz_beta s). split => //.
  rewrite Hk andbT. case: (lz_stop s) Hst => // -[-> _] //.
Qed.

End Safe.
