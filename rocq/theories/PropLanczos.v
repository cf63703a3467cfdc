(** Theorems C17, C20, C21, C22, C53: Lanczos, Golub-Kahn and Gram-Schmidt.
    Arithmetic is exact, over any real closed field. *)
From mathcomp Require Import all_ssreflect all_algebra.
From mathcomp Require Import zify.
From mathcomp.real_closed Require Import realalg.
From Verif Require Import Mem KernelModel KernelSpec KernelProofs.
From Verif Require Import OperatorModel OperatorSpec OperatorProofs.
From Verif Require Import LanczosModel LanczosSpec LanczosMath LanczosProofs GolubKahnProofs.
From Verif Require Import LanczosSafe OrthoModel OrthoProofs SlqModel SlqSpec SlqProofs ExactProofs.
Set Implicit Arguments.
Unset Strict Implicit.
Unset Printing Implicit Defensive.
Import GRing.Theory Num.Theory Order.TTheory.
Local Open Scope ring_scope.

Section Props.
Variable R : rcfType.

(** C17. For a symmetric matrix in any storage, any non-zero start vector, any
    degree m and any reorthogonalisation setting, the iteration returns k+1 <= m
    steps and the entries alpha, beta of the tridiagonal matrix T with
    A V = V T + r e^T, V orthonormal, V e_1 = v / |v|, V^T r = 0.  It stops before
    step m only because |r| < tol sqrt(n). *)
Theorem C17_lanczos_basis : forall (eps : R) (n' : nat) (A : storage R) (v : seq R) (m : nat)
    (tol : R) (orth : int) (V0 r0 alpha0 beta0 : seq R),
  let n := n'.+1 in
  0 < eps -> 0 < tol -> (0 < m)%N ->
  well_formed A n n -> (denotes A n n)^T = denotes A n n ->
  (n <= size v)%N -> vec n v != 0 ->
  (m <= size alpha0)%N -> (m <= size beta0)%N ->
  (lanczos_buffer_size orth m * n <= size V0)%N -> (n <= size r0)%N ->
  exists k alpha beta (V : 'M[R]_(n, k.+1)) (r : 'cV[R]_n),
    [/\ lanczos eps (fun x c => dot A n n x c) v n m tol orth V0 r0 alpha0 beta0
          = Some (k.+1, alpha, beta),
        (k < m)%N,
        lanczos_result (denotes A n n) (vec n v) V (tridiag k.+1 (nth 0 alpha) (nth 0 beta)) r,
        nrm r = beta`_k /\ (forall i, (i < k)%N -> tol * Num.sqrt n%:R <= beta`_i) &
        (k.+1 < m)%N -> nrm r < tol * Num.sqrt n%:R].
Proof.
  move=> eps n' A v m tol orth V0 r0 al0 be0 n He Ht Hm HA Hs Hv Hnz Sa Sb SV Sr.
  have Hd := fun x c => @dot_ok _ A n n x c HA.
  have [k [al [be [E Hk _ [Ea Eb] [H1 H2]]]]] :=
    lanczos_ok He (ltn0Sn n') Hd Hs Hv Hnz Ht Hm Sa Sb SV Sr.
  case: k E Hk Ea Eb H1 H2 => // k E Hk Ea Eb H1 H2.
  have Hal : alive (denotes A n n) (vec n v) k.
  { move=> i Hi. rewrite gt_eqF //. apply: lt_le_trans (H1 i Hi).
    by rewrite mulr_gt0 // sqrtr_gt0 ltr0n. }
  exists k, al, be, (basis (denotes A n n) (vec n v) k), (lzr (denotes A n n) (vec n v) k).
  have Ebk : nrm (lzr (denotes A n n) (vec n v) k) = be`_k by rewrite Eb ltnSn.
  split => //.
  - rewrite (tridiag_ext (a' := lza (denotes A n n) (vec n v)) (b' := lzb (denotes A n n) (vec n v))).
    + exact: lanczos_result_ok.
    + by move=> i Hi; rewrite Ea Hi.
    + by move=> i /= Hi; rewrite Eb ltnS ltnW.
  - split=> // i Hi. rewrite Eb ltnS ltnW //. exact: H1.
Qed.

(** C17. Reorthogonalisation, the machine epsilon used in it and the previous
    contents of the work arrays have no influence on what is returned. *)
Theorem C17_setting_irrelevant : forall (n' : nat) (A : storage R) (v : seq R) (m : nat) (tol : R)
    (eps eps' : R) (orth orth' : int) (V0 V0' r0 r0' alpha0 alpha0' beta0 beta0' : seq R),
  let n := n'.+1 in
  0 < eps -> 0 < eps' -> 0 < tol -> (0 < m)%N ->
  well_formed A n n -> (denotes A n n)^T = denotes A n n ->
  (n <= size v)%N -> vec n v != 0 ->
  (m <= size alpha0)%N -> (m <= size beta0)%N ->
  (m <= size alpha0')%N -> (m <= size beta0')%N ->
  (lanczos_buffer_size orth m * n <= size V0)%N -> (n <= size r0)%N ->
  (lanczos_buffer_size orth' m * n <= size V0')%N -> (n <= size r0')%N ->
  exists k alpha beta alpha' beta',
    [/\ lanczos eps (fun x c => dot A n n x c) v n m tol orth V0 r0 alpha0 beta0
          = Some (k, alpha, beta),
        lanczos eps' (fun x c => dot A n n x c) v n m tol orth' V0' r0' alpha0' beta0'
          = Some (k, alpha', beta') &
        forall i, (i < k)%N -> alpha`_i = alpha'`_i /\ beta`_i = beta'`_i].
Proof.
  move=> n' A v m tol eps eps' orth orth' V0 V0' r0 r0' al0 al0' be0 be0' n He He' Ht Hm HA Hs Hv Hnz.
  move=> Sa Sb Sa' Sb' SV Sr SV' Sr'.
  have Hd := fun x c => @dot_ok _ A n n x c HA.
  have [k [al [be [E Hk _ [Ea Eb] [H1 H2]]]]] :=
    lanczos_ok He (ltn0Sn n') Hd Hs Hv Hnz Ht Hm Sa Sb SV Sr.
  have [k2 [al2 [be2 [E2 Hk2 _ [Ea2 Eb2] [H12 H22]]]]] :=
    lanczos_ok He' (ltn0Sn n') Hd Hs Hv Hnz Ht Hm Sa' Sb' SV' Sr'.
  have Ek : k = k2.
  { case/andP: Hk => Hk0 Hkm. case/andP: Hk2 => Hk20 Hk2m.
    case: (ltngtP k k2) => // Hlt.
    - have := H12 k.-1. rewrite leNgt H2; last exact: leq_trans Hk2m. by move=> H; have := H ltac:(lia).
    - have := H1 k2.-1. rewrite leNgt H22; last exact: leq_trans Hkm. by move=> H; have := H ltac:(lia). }
  subst k2. exists k, al, be, al2, be2. split => // i Hi. by rewrite Ea Eb Ea2 Eb2 Hi.
Qed.

(** C53. For every operator whose product fills its output array - linear or
    not, symmetric or not - every degree m >= 1 and every setting, no access is
    outside an array and between 1 and m steps are returned. *)
Theorem C53_lanczos_in_bounds : forall (eps : R) (n : nat)
    (A_dot : seq R -> seq R -> option (seq R)) (v : seq R) (m : nat)
    (tol : R) (orth : int) (V0 r0 alpha0 beta0 : seq R),
  0 < eps -> 0 < tol -> (0 < n)%N -> (0 < m)%N ->
  (forall x c, (n <= size x)%N -> (n <= size c)%N ->
     exists c', A_dot x c = Some c' /\ size c' = size c) ->
  (n <= size v)%N -> vec n v != 0 ->
  size alpha0 = m -> size beta0 = m ->
  size V0 = (n * lanczos_buffer_size orth m)%N -> size r0 = n ->
  exists k alpha beta,
    lanczos eps A_dot v n m tol orth V0 r0 alpha0 beta0 = Some (k, alpha, beta) /\ (1 <= k <= m)%N.
Proof.
  move=> eps n A_dot v m tol orth V0 r0 al0 be0 He Ht Hn Hm Hd Hv Hnz Sa Sb SV Sr.
  have [||||k [al [be [E Hk _]]]] := @lanczos_safe _ eps He n Hn _ Hd v Hv Hnz m tol Ht orth al0 be0 V0 r0 Hm.
  - by rewrite Sa.
  - by rewrite Sb.
  - by rewrite SV mulnC.
  - by rewrite Sr.
  by exists k, al, be.
Qed.

(** C20. For a matrix A in any storage with A x = 0 only for x = 0, any non-zero
    start vector, any degree and any reorthogonalisation setting, the returned
    alpha, beta are the bidiagonal matrix B with A V = U B, B^T B = V^T A^T A V, U
    and V orthonormal.  Missing: singular A, see C20_singular_refuted. *)
Theorem C20_golub_kahn_partial : forall (eps : R) (n' : nat) (A : storage R) (v : seq R) (m : nat)
    (tol : R) (orth : int) (U0 V0 alpha0 beta0 : seq R),
  let n := n'.+1 in
  0 < eps -> 0 < tol -> (0 < m)%N ->
  well_formed A n n -> (forall x : 'cV_n, denotes A n n *m x = 0 -> x = 0) ->
  (n <= size v)%N -> vec n v != 0 ->
  (m <= size alpha0)%N -> (m <= size beta0)%N ->
  (gk_buffer_size orth m * n <= size U0)%N -> (gk_buffer_size orth m * n <= size V0)%N ->
  exists k alpha beta (U V : 'M[R]_(n, k.+1)) (y : 'cV[R]_n),
    [/\ golub_kahn eps (fun x c => dot A n n x c) (fun x c => transpose_dot A n n x c)
          v n m tol orth U0 V0 alpha0 beta0 = Some (k.+1, alpha, beta),
        (k < m)%N,
        golub_kahn_result (denotes A n n) (vec n v) U V (bidiag k.+1 (nth 0 alpha) (nth 0 beta)) y,
        (forall i, (i < k)%N -> tol * Num.sqrt n%:R <= beta`_i) &
        (k.+1 < m)%N -> nrm y = beta`_k /\ nrm y < tol * Num.sqrt n%:R].
Proof.
  move=> eps n' A v m tol orth U0 V0 al0 be0 n He Ht Hm HA Hs Hv Hnz Sa Sb SU SV.
  have Hd := fun x c => @dot_ok _ A n n x c HA.
  have Htd := fun x c => @transpose_dot_ok _ A n n x c HA.
  have [k [al [be [E Hk _ [Ea Eb] [H1 H2]]]]] :=
    golub_kahn_ok He (ltn0Sn n') Hd Htd Hs Hv Hnz Ht Hm Sa Sb SU SV.
  case: k E Hk Ea Eb H1 H2 => // k E Hk Ea Eb H1 H2.
  have Hal : gkalive (denotes A n n) (vec n v) k := stops_gkalive Ht Hnz Hs H1.
  have Hak : gka (denotes A n n) (vec n v) k != 0 by exact: gk_injective.
  exists k, al, be, (gkU (denotes A n n) (vec n v) k), (gkV (denotes A n n) (vec n v) k),
    (gky (denotes A n n) (vec n v) k).
  split => //.
  - rewrite (bidiag_ext (a' := gka (denotes A n n) (vec n v)) (b' := gkb (denotes A n n) (vec n v))) //.
    exact: golub_kahn_result_ok.
  - move=> i Hi. rewrite Eb //. exact: H1.
  - move=> Hkm. have [-> H3] := H2 Hkm. by [].
Qed.

(** C20. A start vector that A annihilates makes the code divide by zero: the
    first alpha is 0 and every further entry NaN (the model returns [None]). *)
Lemma golub_kahn_null_vector (eps : R) (n : nat) (A : storage R) (v : seq R) (m : nat)
    (tol : R) (orth : int) (U0 V0 alpha0 beta0 : seq R) :
  (0 < m)%N -> well_formed A n n -> (n <= size v)%N -> vec n v != 0 ->
  denotes A n n *m vec n v = 0 ->
  (gk_buffer_size orth m * n <= size U0)%N -> (gk_buffer_size orth m * n <= size V0)%N ->
  golub_kahn eps (fun x c => dot A n n x c) (fun x c => transpose_dot A n n x c)
    v n m tol orth U0 V0 alpha0 beta0 = None.
Proof.
  move=> Hm HA Hv Hnz H0 SU SV. rewrite /golub_kahn.
  have Hbs := gk_bs_gt0 orth Hm.
  have HV0 : (n <= size V0)%N by apply: leq_trans SV; exact: leq_pmull.
  have [V1 [-> [E1 SV1 _]]] := normalize_and_copy_ok Hv HV0.
  rewrite [obind _ _]/= norm2_nrm. rewrite norm2_nrm in E1.
  rewrite nrm_eq0 (negbTE Hnz).
  suff Hb : gk_body eps (fun x c => dot A n n x c) (fun x c => transpose_dot A n n x c) n
    (gk_buffer_size orth m) tol orth 0 (GkState U0 V1 alpha0 beta0 0 false) = None.
  { case: (m) Hm Hb => // m' _ Hb. by rewrite /for_ /= Hb. }
  rewrite /gk_body [gk_stop _]/= [gk_U _]/= [gk_V _]/= mod0n.
  have SV1' : (gk_buffer_size orth m * n <= size V1)%N by rewrite SV1.
  have [U [-> SU1 FU]] := upd_slot Hbs SU (dot_ok HA (size_at Hbs SV1') (size_at Hbs SU)).
  rewrite [obind _ _]/= ltnn andbF [obind _ (Some U)]/=.
  have SU' : (gk_buffer_size orth m * n <= size U)%N by rewrite SU1.
  have [U' [-> _ _]] := normalize_at_ok Hbs SU'.
  rewrite [obind _ _]/= FU eqxx mul0n /at_ drop0 E1 -scalemxAr H0 scaler0.
  by rewrite nrm_eq0 eqxx.
Qed.

(** The symmetric matrix ((1, -1), (-1, 1)) and the sign vector (1, 1). *)
Theorem C20_singular_refuted : exists (A : storage R) (v : seq R),
  [/\ well_formed A 2 2, (denotes A 2 2)^T = denotes A 2 2, vec 2 v != 0,
      all (fun x => (x == 1) || (x == -1)) v &
      forall eps m tol orth U0 V0 alpha0 beta0,
        (0 < m)%N -> (gk_buffer_size orth m * 2 <= size U0)%N ->
        (gk_buffer_size orth m * 2 <= size V0)%N ->
        golub_kahn eps (fun x c => dot A 2 2 x c) (fun x c => transpose_dot A 2 2 x c)
          v 2 m tol orth U0 V0 alpha0 beta0 = None].
Proof.
  exists (Dense true [:: 1; -1; -1; 1]), [:: 1; 1].
  have Hnz : vec 2 [:: 1; 1] != 0 :> 'cV[R]_2.
  { apply/negP => /eqP /colP /(_ 0). rewrite !mxE /= => /eqP. by rewrite oner_eq0. }
  split => //=.
  - apply/matrixP => i j. rewrite !mxE.
    by case: i => [[|[|//]] Hi]; case: j => [[|[|//]] Hj].
  - by rewrite eqxx.
  - move=> eps m tol orth U0 V0 al be Hm SU SV.
    have HA : well_formed (Dense true [:: 1; -1; -1; 1] : storage R) 2 2 by [].
    have Hv : (2 <= size ([:: 1; 1] : seq R)%R)%N by [].
    refine (golub_kahn_null_vector eps tol al be Hm HA Hv Hnz _ SU SV).
    apply/colP => i. rewrite !mxE !big_ord_recl big_ord0 !mxE /=.
    case: i => [[|[|//]] Hi] /=; rewrite !mulr1 addr0.
    + by rewrite subrr.
    + by rewrite addNr.
Qed.

(** ** Gram-Schmidt *)

(** Removing the component along u from y, unless u is almost zero or y almost
    equal to u. *)
Definition project (eps : R) n (u y : 'cV[R]_n) : 'cV[R]_n :=
  if (nrm u < eps * Num.sqrt n%:R) ||
     (`| `|ip u y / ip u u| - 1 | <= 2%:R * eps) && (ip (y - u) (y - u) < 2%:R * eps * n%:R)
  then y else y - (ip u y / ip u u) *: u.

(** How many vectors are asked for: none, all (negative or too large), or the
    given number; never more than the dimension. *)
Definition requested (num_ortho : int) (num_vectors n : nat) : nat :=
  if (num_vectors < 2)%N then 0%N
  else minn n (if (num_ortho < 0) || (Posz num_vectors < num_ortho) then num_vectors
               else absz num_ortho).

Lemma requestedE o bs n : requested o bs n = gs_num_steps o bs n.
Proof.
  rewrite /requested /gs_num_steps. case: (ltnP bs 2) => Hb; first by rewrite orbT.
  rewrite orbF. case: eqP => [->|_]; last by rewrite /minn; case: ltnP.
  by rewrite ltxx /= minn0.
Qed.

Lemma projectE eps n (u y : 'cV[R]_n) : project eps u y = gs_vec eps u y.
Proof.
  rewrite /project /gs_vec /gs_skip -!expr2 !nrm_sqr.
  have -> : ip (y - u) (y - u) = ip y y - 2%:R * ip u y + ip u u.
  { rewrite ipBr (ipC (y - u) y) (ipC (y - u) u) !ipBr (ipC y u) mulr_natl mulr2n.
    by rewrite opprB opprD !addrA addrAC. }
  by [].
Qed.

(** C21. Let x_0, x_1, ..., x_j be written to the buffer circularly, x_i in
    slot i mod num_vectors.  The vector is orthogonalised against the requested
    number of most recent ones, x_j, x_(j-1), ..., in this order; no access is
    outside the buffer and nothing else is touched. *)
Theorem C21_uses_last_vectors : forall (eps : R) (n num_vectors j : nat) (num_ortho : int)
    (x : nat -> 'cV[R]_n) (V v : seq R),
  0 < eps -> (0 < n)%N -> (num_vectors * n <= size V)%N -> (n <= size v)%N ->
  (requested num_ortho num_vectors n <= j.+1)%N ->
  (forall i, (i <= j)%N -> (j < i + num_vectors)%N ->
     vec n (drop ((i %% num_vectors) * n) V) = x i) ->
  writes v
    (foldl (fun y s => project eps (x (j - s)%N) y) (vec n v)
       (iota 0 (requested num_ortho num_vectors n)))
    (gram_schmidt eps V n num_vectors (j %% num_vectors) num_ortho v).
Proof.
  move=> eps n bs j o x V v He Hn HV Hv. rewrite requestedE => Hs Hx.
  have [c [E Ec Sc Hc]] := gram_schmidt_ok He (j %% bs) o Hn HV Hv.
  exists c. split => //. rewrite Ec /gs_fold.
  have Hle := gs_num_steps_le o bs n.
  have H : forall l k y, (k + l <= gs_num_steps o bs n)%N ->
    foldl (fun y s => gs_vec eps (slot n V (gs_index bs (j %% bs) s)) y) y (iota k l)
    = foldl (fun y s => project eps (x (j - s)%N) y) y (iota k l).
  { elim=> [//|l IH] k y Hk /=. rewrite projectE.
    have Hkb : (k < bs)%N by lia.
    rewrite (gs_index_circular Hkb) /slot; last by lia.
    rewrite Hx; [|exact: leq_subr|lia]. apply: IH. lia. }
  by rewrite H.
Qed.

(** C21. When those vectors are orthonormal the result is orthogonal to each of
    them.  Missing: vectors v whose component along one of them has length 1 up
    to rounding, see C21_orthogonal_refuted. *)
Theorem C21_orthogonal_partial : forall (eps : R) (n steps j : nat) (x : nat -> 'cV[R]_n) (w : 'cV[R]_n),
  0 < eps -> eps * Num.sqrt n%:R <= 1 -> (steps <= j.+1)%N ->
  (forall s t, (s < steps)%N -> (t < steps)%N ->
     ip (x (j - s)%N) (x (j - t)%N) = (s == t)%:R) ->
  (forall s, (s < steps)%N -> 2%:R * eps < `| `|ip (x (j - s)%N) w| - 1 |) ->
  forall s, (s < steps)%N ->
    ip (x (j - s)%N)
       (foldl (fun y s => project eps (x (j - s)%N) y) w (iota 0 steps)) = 0.
Proof.
  move=> eps n steps j x w He Hen Hst Horth Hw.
  have H : forall k, (k <= steps)%N ->
    let y := foldl (fun y s => project eps (x (j - s)%N) y) w (iota 0 k) in
    (forall s, (s < k)%N -> ip (x (j - s)%N) y = 0) /\
    (forall s, (k <= s < steps)%N -> ip (x (j - s)%N) y = ip (x (j - s)%N) w).
  { elim=> [|k IH] Hk; first by split.
    have Ei : iota 0 k.+1 = iota 0 k ++ [:: k] by rewrite -[k.+1]addn1 iotaD.
    rewrite Ei foldl_cat /=. have [H1 H2] := IH (ltnW Hk).
    set y := foldl _ _ (iota 0 k) in H1 H2 *.
    have Exx := Horth _ _ Hk Hk. rewrite eqxx in Exx.
    have Ep : project eps (x (j - k)%N) y = y - ip (x (j - k)%N) y *: x (j - k)%N.
    { rewrite /project Exx divr1 H2; last by rewrite leqnn Hk.
      rewrite ifF //. rewrite /nrm Exx sqrtr1. rewrite (le_gtF Hen) /=.
      by rewrite leNgt Hw. }
    rewrite Ep. split=> s Hs.
    - rewrite ipBr ipZr Horth //; last by lia.
      case: eqP => [->|/eqP Hne]; first by rewrite mulr1 subrr.
      rewrite mulr0 subr0. apply: H1. lia.
    - rewrite ipBr ipZr Horth //; [|lia]. rewrite (_ : (s == k) = false) ?mulr0 ?subr0; last by lia.
      apply: H2. lia. }
  move=> s Hs. have [H1 _] := H steps (leqnn _). exact: H1.
Qed.

(** C21. A unit vector is not made orthogonal to itself. *)
Theorem C21_orthogonal_refuted : forall (eps : R) (n : nat) (u : 'cV[R]_n.+1),
  0 < eps -> eps * Num.sqrt n.+1%:R <= 1 -> ip u u = 1 ->
  project eps u u = u /\ ip u (project eps u u) != 0.
Proof.
  move=> eps n u He Hen Hu.
  have -> : project eps u u = u.
  { rewrite /project Hu divr1 normr1 (subrr 1) (subrr u) normr0 ip0r.
    by rewrite mulr_ge0 ?ltW //= ?mulr_gt0 ?ltr0n // orbT. }
  by rewrite Hu oner_eq0.
Qed.

(** ** orthogonalize_vectors *)

(** C22. If the first vector is not almost zero, the routine terminates without
    an access outside the array; unless it aborts, every vector is non-zero and
    orthogonal to every preceding vector in its window of n.  [fresh] are the
    random vectors drawn as replacements, arbitrary here. *)
Theorem C22_orthogonalize_vectors_partial : forall (eps : R) (fresh : nat -> seq R) (V : seq R)
    (n k : nat),
  0 < eps -> (0 < n)%N -> (forall l, size (fresh l) = n) -> size V = (k * n)%N ->
  eps * Num.sqrt n%:R <= nrm (vec n V) ->
  let column V i := vec n (drop (i * n) V) in
  exists r, orthogonalize_vectors eps fresh V n k = Some r /\
    (forall V', r = Some V' ->
       [/\ size V' = size V,
           forall i, (i < k)%N -> column V' i != 0 &
           forall i i', (i < i')%N -> (i' < k)%N -> (i' <= i + n)%N ->
             ip (column V' i) (column V' i') = 0]).
Proof.
  move=> eps fresh V n k He Hn Hf HV Hnrm column. rewrite /orthogonalize_vectors.
  have Hpos : 0 < eps * Num.sqrt n%:R by rewrite mulr_gt0 // sqrt_n_gt0.
  have Hs0 : slot n V 0 = vec n V by rewrite /slot mul0n drop0.
  have Hdone : forall V', done eps n V' k -> size V' = size V ->
     [/\ size V' = size V, forall i, (i < k)%N -> column V' i != 0 &
       forall i i', (i < i')%N -> (i' < k)%N -> (i' <= i + n)%N ->
             ip (column V' i) (column V' i') = 0].
  { move=> V' [D1 D2] SV'. split => // i.
    - move=> Hi. rewrite -nrm_eq0 gt_eqF //. exact: lt_le_trans Hpos (D1 _ Hi).
    - move=> i' H1 H2 H3. apply: D2 => //. rewrite /ov_start. case: (ltnP n i') => ?; lia. }
  case: ltnP => Hk.
  { exists (Some V). split=> // _ [<-]. apply: Hdone => //. split.
    - move=> a Ha. have -> : a = 0%N by lia. by rewrite Hs0.
    - move=> a b _ H1 H2. lia. }
  have Hf' : forall l, (n <= size (fresh l))%N by move=> l; rewrite Hf.
  have HV' : (k * n <= size V)%N by rewrite HV.
  have Hd0 : done eps n V 0 by split.
  have H0 : (0%N == 0%N) -> eps * Num.sqrt n%:R <= nrm (slot n V 0) by rewrite Hs0.
  have Hfu : ((k - 0) * 21 + 1 <= (k * 22).+1 + 0)%N by lia.
  have [r [E Hr]] := ov_loop_ok He Hn Hf' (success := true) (trials := 0) 0 HV' (leq0n k) Hd0 H0
    (leq0n 20) (fun _ => erefl) Hfu (ltn0Sn _).
  exists r. split => // V' EV'. rewrite EV' in Hr. case: Hr => H1 H2. exact: Hdone.
Qed.

(** C22. A zero first vector is returned as it is. *)
Theorem C22_zero_first_vector_refuted : forall (eps : R) (fresh : nat -> seq R),
  0 < eps -> exists V', orthogonalize_vectors eps fresh [:: 0; 0; 1; 1] 2 2 = Some (Some V') /\
    vec 2 V' = 0.
Proof.
  move=> eps fresh He. exists [:: 0; 0; 1; 1]. 
  have Hn0 : euclidean_norm [:: 0; 0; 1; 1] 2 = Some (0 : R).
  { rewrite euclidean_norm_nrm //. congr Some. apply/eqP. rewrite nrm_eq0. apply/eqP/colP => i.
    rewrite !mxE. by case: i => [[|[|//]] Hi]. }
  split; last by apply/colP => i; rewrite !mxE; case: i => [[|[|//]] Hi].
  have Hlt : 0 < eps * Num.sqrt 2%:R by rewrite mulr_gt0 // sqrtr_gt0 ltr0n.
  have E0 : ov_pass eps 2 0 [:: 0; 0; 1; 1] = Some ([:: 0; 0; 1; 1], false) by exact: ov_pass0.
  have E1 : ov_pass eps 2 1 [:: 0; 0; 1; 1] = Some ([:: 0; 0; 1; 1], false).
  { have Es : ov_step eps 2 1 0 [:: 0; 0; 1; 1] = Some ([:: 0; 0; 1; 1], false).
    { by rewrite /ov_step /at_ mul0n drop0 Hn0 [obind _ _]/= Hlt. }
    by rewrite /ov_pass /for_ /= Es. }
  by rewrite /orthogonalize_vectors /ov_loop E0 /= E1.
Qed.

(** C22. More vectors than the dimension are never orthogonalised: abort. *)
Theorem C22_too_many_vectors_abort : forall (eps : R) (fresh : nat -> seq R) (V : seq R) (n k : nat),
  0 < eps -> (0 < n)%N -> (forall l, size (fresh l) = n) -> size V = (k * n)%N ->
  eps * Num.sqrt n%:R <= nrm (vec n V) ->
  (n < k)%N -> orthogonalize_vectors eps fresh V n k = Some None.
Proof.
  move=> eps fresh V n k He Hn Hf HV Hnrm Hk.
  have [[V'|] [E Hr]] := C22_orthogonalize_vectors_partial He Hn Hf HV Hnrm; last by [].
  have [_ Hnz Ho] := Hr V' erefl. exfalso.
  pose W : 'M[R]_(n, n.+1) := \matrix_(i, j) vec n (drop (j * n) V') i 0.
  pose d : 'rV[R]_n.+1 := \row_j ip (vec n (drop (j * n) V')) (vec n (drop (j * n) V')).
  have HW : W^T *m W = diag_mx d.
  { apply/matrixP => i j. rewrite [RHS]mxE.
    have -> : (W^T *m W) i j = ip (vec n (drop (i * n) V')) (vec n (drop (j * n) V')).
    { rewrite mxE. apply: eq_bigr => l _. by rewrite [(W^T) _ _]mxE ![W _ _]mxE. }
    case: eqP => [->|/eqP Hij]; first by rewrite mxE mulr1n.
    rewrite mulr0n. have Hi := ltn_ord i. have Hj := ltn_ord j.
    have : (i < j)%N || (j < i)%N by rewrite -neq_ltn.
    case/orP => Hlt; [|rewrite ipC]; apply: Ho; lia. }
  have Hd : \det (diag_mx d) != 0.
  { rewrite det_diag prodf_seq_neq0. apply/allP => j _. apply/implyP => _.
    rewrite mxE ip_eq0. apply: Hnz. have := ltn_ord j. lia. }
  have Hr1 : (\rank (diag_mx d) = n.+1)%N.
  { apply/eqP. rewrite -/(row_free _) row_free_unit unitmxE unitfE. exact: Hd. }
  have : (\rank (W^T *m W) <= n)%N.
  { apply: leq_trans (mxrankM_maxr _ _) _. exact: rank_leq_row. }
  by rewrite HW Hr1 ltnn.
Qed.

End Props.

Print Assumptions C17_lanczos_basis.
Print Assumptions C17_setting_irrelevant.
Print Assumptions C53_lanczos_in_bounds.
Print Assumptions C20_golub_kahn_partial.
Print Assumptions C20_singular_refuted.
Print Assumptions C21_uses_last_vectors.
Print Assumptions C21_orthogonal_partial.
Print Assumptions C21_orthogonal_refuted.
Print Assumptions C22_orthogonalize_vectors_partial.
Print Assumptions C22_zero_first_vector_refuted.
Print Assumptions C22_too_many_vectors_abort.

(** The hypotheses are met by ((2, 1), (1, 2)) and the vector (1, 0), over the
    real algebraic numbers. *)
Section Examples.
Let RA := [rcfType of realalg].
Let A : storage RA := Dense true [:: 2%:R; 1; 1; 2%:R].

Lemma A_good : [/\ well_formed A 2 2, (denotes A 2 2)^T = denotes A 2 2 &
  forall x : 'cV_2, denotes A 2 2 *m x = 0 -> x = 0].
Proof.
  split => //.
  - apply/matrixP => i j. rewrite !mxE. by case: i => [[|[|//]] Hi]; case: j => [[|[|//]] Hj].
  - move=> x Hx. have := congr1 (fun y : 'cV_2 => y 0 0) Hx.
    have := congr1 (fun y : 'cV_2 => y (lift 0 0) 0) Hx.
    rewrite !mxE !big_ord_recl !big_ord0 !mxE /= !addr0 !mul1r.
    set p := x 0 0; set q := x _ 0 => E1 E0.
    have Ep : p = - (2%:R * q) by apply/eqP; rewrite -addr_eq0 E1.
    have : 3%:R * q == 0.
    { rewrite -oppr_eq0 -E0 Ep (_ : 3%:R = 2%:R * 2%:R - 1 :> RA).
      - by rewrite mulrBl mul1r mulrN mulrA opprB addrC.
      - by rewrite -natrM -[1]/(1%:R) -natrB. }
    rewrite mulf_eq0 pnatr_eq0 /= => /eqP Eq. rewrite Eq mulr0 oppr0 in Ep.
    apply/colP => i. rewrite [RHS]mxE.
    case: (unliftP 0 i) => [i'|] -> //. by rewrite ord1.
Qed.

Lemma v_good : vec 2 [:: 1; 0 : realalg] != 0.
Proof.
  apply/negP => /eqP /colP /(_ 0). rewrite !mxE /= => /eqP. by rewrite oner_eq0.
Qed.

Example C17_case : exists k alpha beta,
  lanczos (1 : RA) (fun x c => dot A 2 2 x c) [:: 1; 0] 2 2 1 (-1) (nseq 4 0) (nseq 2 0)
    (nseq 2 0) (nseq 2 0) = Some (k.+1, alpha, beta).
Proof.
  have [H1 H2 _] := A_good.
  case: (@C17_lanczos_basis _ 1 1 A [:: 1; 0] 2 1 (-1) (nseq 4 0) (nseq 2 0) (nseq 2 0) (nseq 2 0)
    ltr01 ltr01 isT H1 H2 isT v_good isT isT isT isT) => k [al [be [V [r [-> _ _ _ _]]]]].
  by exists k, al, be.
Qed.

Example C20_case : exists k alpha beta,
  golub_kahn (1 : RA) (fun x c => dot A 2 2 x c) (fun x c => transpose_dot A 2 2 x c)
    [:: 1; 0] 2 2 1 (-1) (nseq 4 0) (nseq 4 0) (nseq 2 0) (nseq 2 0) = Some (k.+1, alpha, beta).
Proof.
  have [H1 _ H2] := A_good.
  case: (@C20_golub_kahn_partial _ 1 1 A [:: 1; 0] 2 1 (-1) (nseq 4 0) (nseq 4 0) (nseq 2 0)
    (nseq 2 0) ltr01 ltr01 isT H1 H2 isT v_good isT isT isT isT)
    => k [al [be [U [V [y [-> _ _ _ _]]]]]].
  by exists k, al, be.
Qed.

(** Two axis vectors and the vector (3, 5). *)
Let axis (i : nat) : 'cV[realalg]_2 := \col_(l < 2) (l == i :> nat)%:R.

Example C21_case : forall s, (s < 2)%N ->
  ip (axis (1 - s)) (foldl (fun y s => project (1 / 2%:R) (axis (1 - s)) y)
    (\col_(l < 2) (if l == 0%N :> nat then 3%:R else 5%:R)) (iota 0 2)) = 0.
Proof.
  have Hi : forall i (y : 'cV[realalg]_2) (Hi : (i < 2)%N), ip (axis i) y = y (Ordinal Hi) 0.
  { move=> i y Hi. rewrite /ip (bigD1 (Ordinal Hi)) //= mxE eqxx mul1r big1 ?addr0 // => l Hl.
    rewrite mxE. by move: Hl; rewrite -val_eqE /= => /negbTE ->; rewrite mul0r. }
  have He : 0 < 1 / 2%:R :> RA by apply: divr_gt0; [exact: ltr01|rewrite ltr0n].
  apply: (C21_orthogonal_partial He); [|by []| |].
  - have H2 : 0 < 2%:R :> RA by rewrite ltr0n.
    have Hs : Num.sqrt 2%:R <= Num.sqrt (2%:R ^+ 2) :> RA.
    { by rewrite ler_wsqrtr // -natrX ler_nat. }
    rewrite sqrtr_sqr ger0_norm ?ler0n // in Hs.
    by rewrite mul1r mulrC ler_pdivr_mulr // mul1r.
  - move=> s t Hs Ht. have Ht' : (1 - t < 2)%N by lia. rewrite ipC (Hi _ _ Ht') mxE /=.
    congr (_%:R). congr nat_of_bool. lia.
  - move=> s Hs. have Hs' : (1 - s < 2)%N by lia.
    rewrite (Hi _ _ Hs') mxE /= mul1r mulfV ?pnatr_eq0 //.
    have Hk : forall k, (1 < `| `|k.+3%:R| - 1| :> RA).
    { move=> k. by rewrite normr_nat -[X in _ - X]/(1%:R) -natrB // normr_nat subn1 ltr1n. }
    by case: ifP => _; exact: Hk.
Qed.

Example C22_case : exists r : option (seq RA),
  orthogonalize_vectors (1 / 2%:R) (fun _ => [:: 1; 0]) [:: 1; 1; 1; 0] 2 2 = Some r.
Proof.
  have H2 : 0 < 2%:R :> RA by rewrite ltr0n.
  suff H : 1 / 2%:R * Num.sqrt 2%:R <= nrm (vec 2 [:: 1; 1; 1; 0]) :> RA.
  { have He : 0 < 1 / 2%:R :> RA by apply: divr_gt0; [exact: ltr01|].
    case: (C22_orthogonalize_vectors_partial (fresh := fun _ => [:: 1; 0]) (V := [:: 1; 1; 1; 0]) (n := 2) (k := 2) He isT
      (fun _ => erefl) erefl H) => r [-> _]. by exists r. }
  have -> : nrm (vec 2 [:: 1; 1; 1; 0]) = Num.sqrt 2%:R :> RA.
    { by rewrite /nrm /ip !big_ord_recl big_ord0 !mxE /= !mulr1 addr0. }
  by rewrite ler_pimull ?sqrtr_ge0 // mul1r invf_le1 // ler1n.
Qed.
End Examples.
