(** The quadrature computed from one random vector. *)
From mathcomp Require Import all_ssreflect all_algebra.
From mathcomp Require Import zify.
From Verif Require Import Mem KernelModel KernelSpec LanczosModel LanczosSpec LanczosMath
  LanczosProofs GolubKahnProofs SlqModel SlqSpec.
Set Implicit Arguments.
Unset Strict Implicit.
Unset Printing Implicit Defensive.
Import GRing.Theory Num.Theory Order.TTheory.
Local Open Scope ring_scope.

(** ** Matrix functions *)
Section Functions.
Variable R : rcfType.

(** f(M) does not depend on the decomposition. *)
Lemma matrix_function_unique N (M P P' : 'M[R]_N.+1) d d' (g : R -> R) :
  spectral M P d -> spectral M P' d' -> matrix_function g P d = matrix_function g P' d'.
Proof.
  move=> [HP HM] [HP' HM'].
  have [p Hp] := interpolation g ([seq d 0 i | i : 'I_N.+1] ++ [seq d' 0 i | i : 'I_N.+1]).
  have E1 : map_mx g d = \row_i p.[d 0 i].
  { apply/rowP => i. rewrite !mxE Hp // mem_cat. apply/orP; left. by apply/imageP; exists i. }
  have E2 : map_mx g d' = \row_i p.[d' 0 i].
  { apply/rowP => i. rewrite !mxE Hp // mem_cat. apply/orP; right. by apply/imageP; exists i. }
  by rewrite /matrix_function E1 E2 -(spectral_poly p HP HM) -(spectral_poly p HP' HM').
Qed.

Lemma matrix_function_poly N (M P : 'M[R]_N.+1) d (g : R -> R) (p : {poly R}) :
  spectral M P d -> (forall i, g (d 0 i) = p.[d 0 i]) ->
  matrix_function g P d = horner_mx M p.
Proof.
  move=> [HP HM] Hg. rewrite (spectral_poly p HP HM) /matrix_function.
  congr (_ *m diag_mx _ *m _). apply/rowP => i. by rewrite !mxE.
Qed.

Lemma spectral_shift N (M P : 'M[R]_N) d t :
  spectral M P d -> spectral (M + t%:M) P (\row_i (d 0 i + t)).
Proof.
  move=> [HP HM]. split=> //.
  have -> : \row_i (d 0 i + t) = d + const_mx t by apply/rowP => i; rewrite !mxE.
  rewrite raddfD /= diag_const_mx mulmxDr mulmxDl -HM mul_mx_scalar -scalemxAl (mulmx1C HP).
  by rewrite scalemx1.
Qed.

(** The nodes and weights belonging to M = Q diag(d) Q^T. *)
Definition node_list N (Q : 'M[R]_N.+1) (d : 'rV[R]_N.+1) : seq (R * R) :=
  [seq (d 0 (inord i), Q 0 (inord i)) | i <- iota 0 N.+1].

Lemma quadrature_function pw f N (Q : 'M[R]_N.+1) d :
  quadrature pw f (node_list Q d) = matrix_function (fun x => f (pw x)) Q d 0 0.
Proof.
  rewrite /matrix_function spectral_00 /quadrature.
  have H : forall (s : seq (R * R)) a,
    foldl (fun acc x => acc + x.2 * x.2 * f (pw x.1)) a s
    = a + \sum_(x <- s) x.2 * x.2 * f (pw x.1).
  { elim=> [|x s IH] a /=; first by rewrite big_nil addr0.
    by rewrite IH big_cons addrA. }
  rewrite H add0r /node_list big_map -{1}[N.+1]subn0 -/(index_iota 0 N.+1) big_mkord.
  apply: eq_bigr => i _. by rewrite /= inord_val !mxE expr2.
Qed.

Lemma collectE k (th ta : nat -> option R) (a b : nat -> R) :
  (forall i, (i < k)%N -> th i = Some (a i)) -> (forall i, (i < k)%N -> ta i = Some (b i)) ->
  collect k th ta = Some [seq (a i, b i) | i <- iota 0 k].
Proof.
  move=> Ha Hb. rewrite /collect.
  have [s -> ->] : exists2 s, for_ 0 k 1
    (fun i acc => do a <- th i; do b <- ta i; Some (rcons acc (a, b))) [::] = Some s
    & s = [seq (a i, b i) | i <- iota 0 k].
  { apply: (@for1_inv _ (fun i s => s = [seq (a i, b i) | i <- iota 0 i])) => // i s /andP [_ Hi] ->.
    exists (rcons [seq (a i, b i) | i <- iota 0 i] (a i, b i)); first by rewrite Ha // Hb.
    by rewrite -addn1 iotaD map_cat cats1. }
  by [].
Qed.

Lemma tridiag_ext k (a a' b b' : nat -> R) :
  (forall i, (i < k)%N -> a i = a' i) -> (forall i, (i < k.-1)%N -> b i = b' i) ->
  tridiag k a b = tridiag k a' b'.
Proof.
  move=> Ha Hb. apply/matrixP => i j. rewrite !mxE Ha ?ltn_ord //.
  have Hi := ltn_ord i. have Hj := ltn_ord j.
  case: eqP => // _. case: eqP => H1; first by rewrite Hb //; lia.
  case: eqP => // H2. rewrite Hb //; lia.
Qed.

Lemma bidiag_ext k (a a' b b' : nat -> R) :
  (forall i, (i < k)%N -> a i = a' i) -> (forall i, (i < k.-1)%N -> b i = b' i) ->
  bidiag k a b = bidiag k a' b'.
Proof.
  move=> Ha Hb. apply/matrixP => i j. rewrite !mxE Ha ?ltn_ord //.
  have Hi := ltn_ord i. have Hj := ltn_ord j.
  case: eqP => // _. case: eqP => H1 //. rewrite Hb //; lia.
Qed.

End Functions.

Section Slq.
Variable R : rcfType.
Variable eps : R.
Hypothesis eps_gt0 : 0 < eps.
Variable alloc : nat -> seq R.
Hypothesis size_alloc : forall k, size (alloc k) = k.
Variable n' : nat.
Notation n := n'.+1.

Variable Op : Type.
Variable set_params : Op -> seq R -> Op.
Variable op_dot op_tdot : Op -> seq R -> seq R -> option (seq R).
Variable relation_known : Op -> bool.
Variable get_eig : seq R -> R -> seq R -> option R.
Variable np : nat.

(** The matrix the operator represents when the given parameters are set, and
    an invariant of the operator object. *)
Variable Mat : seq R -> 'M[R]_n.
Variable good : Op -> Prop.
Hypothesis good_set : forall op p, good op -> good (set_params op p).
Hypothesis dot_ok : forall op p x c, good op -> (np <= size p)%N ->
  (n <= size x)%N -> (n <= size c)%N ->
  writes c (Mat p *m vec n x) (op_dot (set_params op p) x c).
Hypothesis tdot_ok : forall op p x c, good op -> (np <= size p)%N ->
  (n <= size x)%N -> (n <= size c)%N ->
  writes c ((Mat p)^T *m vec n x) (op_tdot (set_params op p) x c).

Variable eigh svd : nat -> seq R -> seq R -> option (seq R * seq R).
Hypothesis eigh_ok : eigh_contract eigh.
Hypothesis svd_ok : svd_contract svd.

Variable pw f : R -> R.
Variable m : nat.
Hypothesis m_gt0 : (0 < m)%N.
Variable tol : R.
Hypothesis tol_gt0 : 0 < tol.
Variable orth : int.
Variable gram : bool.

Notation tl := (tol * Num.sqrt n%:R).
Notation g := (fun x => f (pw x)).
Notation nodes := (nodes eps alloc op_dot op_tdot eigh svd n m tol orth gram).

(** The number of steps is fixed by the off-diagonal entries. *)
Definition stops (b : nat -> R) (k' : nat) : Prop :=
  [/\ (k' < m)%N, forall i, (i < k')%N -> tl <= b i & (k'.+1 < m)%N -> b k' < tl].

Lemma stops_unique b k k' : stops b k -> stops b k' -> k = k'.
Proof.
  move=> [H1 H2 H3] [H1' H2' H3'].
  case: (ltngtP k k') => // H.
  - have := H2' _ H. rewrite leNgt H3 //. by apply: leq_ltn_trans H1'.
  - have := H2 _ H. rewrite leNgt H3' //. by apply: leq_ltn_trans H1.
Qed.

Lemma tl_gt0 : 0 < tl.
Proof. by rewrite mulr_gt0 // sqrtr_gt0 ltr0n. Qed.

Lemma stops_alive (A : 'M[R]_n) w k : stops (lzb A w) k -> alive A w k.
Proof. move=> [_ H _] j Hj. rewrite gt_eqF //. exact: lt_le_trans tl_gt0 (H _ Hj). Qed.

Lemma stops_gkalive (A : 'M[R]_n) w k : w != 0 -> (forall x : 'cV_n, A *m x = 0 -> x = 0) ->
  (forall i, (i < k)%N -> tl <= gkb A w i) -> gkalive A w k.
Proof.
  move=> Hw HA. elim: k => [|k IH] H j //.
  have Hk : gkalive A w k by apply: IH => i Hi; apply: H; exact: ltnW.
  rewrite ltnS leq_eqVlt => /orP [/eqP ->|Hj]; last exact: Hk.
  split; first exact: gk_injective. rewrite gt_eqF //. exact: lt_le_trans tl_gt0 (H _ _).
Qed.

Lemma nodes_lanczos op p v : ~~ gram -> good op -> (np <= size p)%N ->
  (Mat p)^T = Mat p -> (n <= size v)%N -> vec n v != 0 ->
  exists k' Q d,
    [/\ nodes (set_params op p) v = Some (node_list Q d),
        stops (lzb (Mat p) (vec n v)) k' &
        spectral (Tm (Mat p) (vec n v) k') Q d].
Proof.
  move=> Hg Hop Hp Hs Hv Hnz. rewrite /nodes (negbTE Hg).
  have Hd := fun x c => @dot_ok op p x c Hop Hp.
  have [k [al [be [-> Hk [Sa Sb] [Ea Eb] [H1 H2]]]]] :=
    @lanczos_ok R eps eps_gt0 n (ltn0Sn _) (Mat p) _ Hd Hs v Hv Hnz m tol tol_gt0 orth
      (alloc m) (alloc m) (alloc (n * lanczos_buffer_size orth m)%N) (alloc n) m_gt0
      (eq_leq (esym (size_alloc m))) (eq_leq (esym (size_alloc m)))
      (eq_leq (etrans (mulnC _ _) (esym (size_alloc _)))) (eq_leq (esym (size_alloc n))).
  rewrite [obind _ _]/=. case/andP: Hk => Hk0 Hk.
  rewrite size_alloc in Sa. rewrite size_alloc in Sb.
  have [d [ev [-> Sd Se Hsp]]] := eigh_ok Hk0 (eq_ind_r (fun s => (k <= s)%N) Hk Sa)
    (eq_ind_r (fun s => (k <= s)%N) Hk Sb).
  rewrite [obind _ _]/=.
  case: k Hk0 Hk Ea Eb H1 H2 Sd Se Hsp => // k' _ Hk Ea Eb H1 H2 Sd Se Hsp.
  exists k', (\matrix_(r, i) ev`_(i * k'.+1 + r)), (\row_i d`_i).
  split.
  - rewrite (@collectE _ _ _ _ (fun i => (\row_(i < k'.+1) d`_i) 0 (inord i))
      (fun i => (\matrix_(r < k'.+1, i < k'.+1) ev`_(i * k'.+1 + r)) 0 (inord i))) //.
    + move=> i Hi. rewrite mxE inordK // (rdE 0) //. exact: leq_trans Sd.
    + move=> i Hi. rewrite mxE inordK //= addn0 (rdE 0) //.
      apply: leq_trans Se. by rewrite ltn_mul2r.
  - by split.
  - rewrite /Tm. move: Hsp. rewrite (@tridiag_ext _ _ _ (lza (Mat p) (vec n v)) _ (lzb (Mat p) (vec n v))) //.
    + by move=> i Hi; rewrite Ea Hi.
    + by move=> i /= Hi; rewrite Eb ltnS ltnW.
Qed.

Lemma spectral_svd k (B X Vt : 'M[R]_k) (s : 'rV[R]_k) :
  X^T *m X = 1%:M -> Vt *m Vt^T = 1%:M -> B = X *m diag_mx s *m Vt ->
  spectral (B^T *m B) Vt^T (\row_i (s 0 i * s 0 i)).
Proof.
  move=> HX HV ->. split; first by rewrite /orthonormal trmxK.
  rewrite !trmx_mul tr_diag_mx trmxK !mulmxA -(mulmxA _ X^T X) HX mulmx1.
  by rewrite -(mulmxA Vt^T (diag_mx s)) mulmx_diag.
Qed.

Lemma nodes_gram op p v : gram -> good op -> (np <= size p)%N ->
  (forall x : 'cV_n, Mat p *m x = 0 -> x = 0) -> (n <= size v)%N -> vec n v != 0 ->
  exists k' Q d,
    [/\ nodes (set_params op p) v = Some (node_list Q d),
        stops (gkb (Mat p) (vec n v)) k' &
        spectral ((gkB (Mat p) (vec n v) k')^T *m gkB (Mat p) (vec n v) k') Q d].
Proof.
  move=> Hg Hop Hp Hs Hv Hnz. rewrite /nodes Hg.
  have Hd := fun x c => @dot_ok op p x c Hop Hp.
  have Ht := fun x c => @tdot_ok op p x c Hop Hp.
  have [k [al [be [-> Hk [Sa Sb] [Ea Eb] [H1 H2]]]]] :=
    @golub_kahn_ok R eps eps_gt0 n (ltn0Sn _) (Mat p) _ _ Hd Ht Hs v Hv Hnz m tol tol_gt0 orth
      (alloc m) (alloc m) (alloc (n * gk_buffer_size orth m)%N)
      (alloc (n * gk_buffer_size orth m)%N) m_gt0
      (eq_leq (esym (size_alloc m))) (eq_leq (esym (size_alloc m)))
      (eq_leq (etrans (mulnC _ _) (esym (size_alloc _))))
      (eq_leq (etrans (mulnC _ _) (esym (size_alloc _)))).
  rewrite [obind _ _]/=. case/andP: Hk => Hk0 Hk.
  rewrite size_alloc in Sa. rewrite size_alloc in Sb.
  have Hal : forall i, (i < k)%N -> al`_i != 0.
  { move=> i Hi. rewrite Ea //. apply: gk_injective => //. apply: stops_gkalive => // j Hj.
    apply: H1. lia. }
  have [s [vt [X [-> Sd Se [HX HV HB]]]]] := svd_ok Hk0 (eq_ind_r (fun s => (k <= s)%N) Hk Sa)
    (eq_ind_r (fun s => (k <= s)%N) Hk Sb) Hal.
  rewrite [obind _ _]/=.
  case: k Hk0 Hk Ea Eb H1 H2 Hal Sd Se X HX HV HB => // k' _ Hk Ea Eb H1 H2 Hal Sd Se X HX HV HB.
  have Hsp := spectral_svd HX HV HB.
  exists k', (\matrix_(i < k'.+1, r < k'.+1) vt`_(r * k'.+1 + i))^T,
    (\row_i ((\row_i s`_i) 0 i * (\row_i s`_i : 'rV_k'.+1) 0 i)).
  split.
  - set Q := (\matrix_(i, r) _)^T. set d := (\row_i (_ * _)).
    rewrite (@collectE _ _ _ _ (fun i => d 0 (inord i)) (fun i => Q 0 (inord i))) //.
    + move=> i Hi. rewrite !mxE inordK // (rdE 0) //. exact: leq_trans Sd.
    + move=> i Hi. rewrite !mxE inordK //= (rdE 0) ?mul0n //.
      apply: leq_trans Se. apply: (leq_trans Hi). by rewrite leq_pmulr.
  - split => //. move=> H. by have [] := H2 H.
  - move: Hsp. rewrite /gkB.
    rewrite (@bidiag_ext _ _ _ (gka (Mat p) (vec n v)) _ (gkb (Mat p) (vec n v))) //.
Qed.

(** ** All inquiries *)

(** The projected matrix after k'+1 steps and its off-diagonal. *)
Definition offdiag (p : seq R) (w : 'cV[R]_n) : nat -> R :=
  if gram then gkb (Mat p) w else lzb (Mat p) w.
Definition projected (p : seq R) (w : 'cV[R]_n) (k' : nat) : 'M[R]_k'.+1 :=
  if gram then (gkB (Mat p) w k')^T *m gkB (Mat p) w k' else Tm (Mat p) w k'.
Definition admissible (p : seq R) : Prop :=
  if gram then (forall x : 'cV_n, Mat p *m x = 0 -> x = 0) else (Mat p)^T = Mat p.

Definition nodes_of (p : seq R) (w : 'cV[R]_n) (nd : seq (R * R)) : Prop :=
  exists k' Q d, [/\ nd = node_list Q d, stops (offdiag p w) k' & spectral (projected p w k') Q d].

Lemma nodes_ok op p v : good op -> (np <= size p)%N -> admissible p ->
  (n <= size v)%N -> vec n v != 0 ->
  exists nd, nodes (set_params op p) v = Some nd /\ nodes_of p (vec n v) nd.
Proof.
  move=> Hop Hp Had Hv Hnz.
  have Hgr : gram \/ ~~ gram by case: (gram); [left|right].
  rewrite /admissible in Had. case: Hgr => Hg; rewrite ?Hg ?(negbTE Hg) in Had.
  - have [k' [Q [d [E Hs Hsp]]]] := nodes_gram Hg Hop Hp Had Hv Hnz.
    exists (node_list Q d). split=> //. exists k', Q, d. by rewrite /offdiag /projected Hg.
  - have [k' [Q [d [E Hs Hsp]]]] := nodes_lanczos Hg Hop Hp Had Hv Hnz.
    exists (node_list Q d). split=> //. exists k', Q, d. by rewrite /offdiag /projected (negbTE Hg).
Qed.

Lemma size_drop_params (params : seq R) j num : (j < num)%N -> (num * np <= size params)%N ->
  (np <= size (drop (j * np) params))%N.
Proof.
  move=> Hj Hs. rewrite size_drop leq_subRL.
  - apply: leq_trans Hs. by rewrite addnC -mulSn leq_mul2r Hj orbT.
  - apply: leq_trans Hs. by rewrite leq_mul2r (ltnW Hj) orbT.
Qed.

Notation iterate := (iterate eps alloc set_params op_dot op_tdot relation_known np eigh svd n m
  tol orth gram).
Notation required op num := (if relation_known op then 1%N else num).

Lemma iterate_ok op params num conv v :
  (0 < num)%N -> good op -> (num * np <= size params)%N -> (num <= size conv)%N ->
  (forall j, (j < num)%N -> admissible (drop (j * np) params)) ->
  (n <= size v)%N -> vec n v != 0 ->
  exists op' its, [/\ iterate op params num conv v = Some (op', its),
    size its = required op num &
    forall j, (j < required op num)%N ->
      if nth false conv j && (required op num == num) then nth None its j = None
      else exists nd, nth None its j = Some nd /\ nodes_of (drop (j * np) params) (vec n v) nd].
Proof.
  move=> Hnum Hop Hps Hc Had Hv Hnz. rewrite /iterate.
  set rq := required op num.
  have Hrq : (rq <= num)%N by rewrite /rq; case: ifP.
  pose I j (s : Op * seq (option (seq (R * R)))) := [/\ good s.1, size s.2 = j &
    forall i, (i < j)%N ->
      if nth false conv i && (rq == num) then nth None s.2 i = None
      else exists nd, nth None s.2 i = Some nd /\ nodes_of (drop (i * np) params) (vec n v) nd].
  have [s E [H1 H2 H3]] : exists2 s, for_ 0 rq 1
    (fun j s =>
       do c <- rd conv j;
       if c && (rq == num) then Some (s.1, rcons s.2 None)
       else
         let op := set_params s.1 (drop (j * np)%N params) in
         do nd <- nodes op v;
         Some (op, rcons s.2 (Some nd)))
    (op, [::]) = Some s & I rq s.
  { apply: for1_inv => // j [op1 its] /andP [_ Hj] [/= I1 I2 I3].
    have Hjn := leq_trans Hj Hrq.
    have Hjc := leq_trans Hjn Hc.
    rewrite (rdE false Hjc) [obind _ _]/=.
    case Ec : (nth false conv j && (rq == num)).
    - exists (op1, rcons its None) => //. split=> /=; rewrite ?size_rcons ?I2 //.
      move=> i. rewrite ltnS leq_eqVlt => /orP [/eqP ->|Hi].
      + by rewrite Ec nth_rcons I2 ltnn eqxx.
      + by rewrite nth_rcons I2 Hi; exact: I3.
    - have [nd [-> Hn]] := nodes_ok I1 (size_drop_params Hjn Hps) (Had _ Hjn) Hv Hnz.
      rewrite [obind _ _]/=.
      exists (set_params op1 (drop (j * np) params), rcons its (Some nd)) => //.
      split=> /=; rewrite ?size_rcons ?I2 //; first exact: good_set.
      move=> i. rewrite ltnS leq_eqVlt => /orP [/eqP ->|Hi].
      + rewrite Ec nth_rcons I2 ltnn eqxx. by exists nd.
      + by rewrite nth_rcons I2 Hi; exact: I3. }
  exists s.1, s.2. split=> //. by rewrite E; case: (s).
Qed.

Notation estimates := (estimates pw f n).

Lemma estimates_ok num conv its est : (num <= size conv)%N -> (num <= size est)%N ->
  (forall j, (j < num)%N -> ~~ nth false conv j ->
     (j < size its)%N /\ exists nd, nth None its j = Some nd) ->
  exists est', [/\ estimates num conv its est = Some est', size est' = size est,
    (forall j, (j < num)%N -> nth false conv j -> est'`_j = est`_j),
    (forall j nd, (j < num)%N -> ~~ nth false conv j -> nth None its j = Some nd ->
       est'`_j = n%:R * quadrature pw f nd) &
    (forall j, (num <= j)%N -> est'`_j = est`_j)].
Proof.
  move=> Hc He Hi. rewrite /estimates.
  pose I j (s : seq R) := [/\ size s = size est,
    (forall i, (i < j)%N -> nth false conv i -> s`_i = est`_i),
    (forall i nd, (i < j)%N -> ~~ nth false conv i -> nth None its i = Some nd ->
       s`_i = n%:R * quadrature pw f nd) &
    (forall i, (j <= i)%N -> s`_i = est`_i)].
  have [s E [H1 H2 H3 H4]] : exists2 s, for_ 0 num 1
    (fun j est =>
       do c <- rd conv j;
       if c then Some est
       else
         do it <- rd its j;
         do nd <- it;
         wr est j (n%:R * quadrature pw f nd)) est = Some s & I num s.
  { apply: for1_inv => // j s /andP [_ Hj] [I1 I2 I3 I4].
    have Hjc := leq_trans Hj Hc.
    rewrite (rdE false Hjc) [obind _ _]/=.
    case Ec : (nth false conv j).
    - exists s => //. split=> //.
      + move=> i. rewrite ltnS leq_eqVlt => /orP [/eqP ->|Hij] Hci; [exact: I4|exact: I2].
      + move=> i nd. rewrite ltnS leq_eqVlt => /orP [/eqP ->|Hij] Hci; last exact: I3.
        by rewrite Ec in Hci.
      + by move=> i Hij; apply: I4; apply: ltnW.
    - have [Hj' [nd En]] := Hi j Hj (negbT Ec).
      rewrite (rdE None Hj') [obind _ _]/= En [obind _ _]/=.
      have Hjs : (j < size s)%N by rewrite I1; exact: leq_trans He.
      have Ew := wrE (n%:R * quadrature pw f nd) Hjs.
      eexists; first exact: Ew. split.
      + by rewrite (size_wr Ew).
      + move=> i. rewrite (nth_wr 0 i Ew) ltnS leq_eqVlt => /orP [/eqP ->|Hij] Hci.
        * by rewrite Ec in Hci.
        * by rewrite (ltn_eqF Hij); exact: I2.
      + move=> i nd'. rewrite (nth_wr 0 i Ew) ltnS leq_eqVlt => /orP [/eqP ->|Hij] Hci.
        * by rewrite eqxx En => -[->].
        * by rewrite (ltn_eqF Hij); exact: I3.
      + move=> i Hij. rewrite (nth_wr 0 i Ew) (gtn_eqF Hij). by apply: I4; apply: ltnW. }
  by exists s.
Qed.

(** A number the quadrature may deliver at parameters p. *)
Definition value_of (p : seq R) (w : 'cV[R]_n) (x : R) : Prop :=
  exists k' Q d, [/\ stops (offdiag p w) k', spectral (projected p w k') Q d &
    x = n%:R * matrix_function g Q d 0 0].

Lemma value_unique p w x y : value_of p w x -> value_of p w y -> x = y.
Proof.
  move=> [k [Q [d [Hs Hsp ->]]]] [k2 [Q2 [d2 [Hs2 Hsp2 ->]]]].
  have E := stops_unique Hs Hs2. subst k2.
  by rewrite (matrix_function_unique g Hsp Hsp2).
Qed.

Notation slq := (slq eps alloc set_params op_dot op_tdot relation_known get_eig np eigh svd pw f
  n m tol orth gram).

Section Inquiries.
Variable op : Op.
Variable params : seq R.
Variable num : nat.
Variable conv : seq bool.
Variable v est : seq R.
Hypothesis num_gt0 : (0 < num)%N.
Hypothesis op_good : good op.
Hypothesis params_size : (num * np <= size params)%N.
Hypothesis conv_size : (num <= size conv)%N.
Hypothesis est_size : (num <= size est)%N.
Hypothesis adm : forall j, (j < num)%N -> admissible (drop (j * np) params).
Hypothesis v_size : (n <= size v)%N.
Hypothesis v_nz : vec n v != 0.
Notation w := (vec n v).

(** The iteration is run for every inquiry. *)
Lemma slq_each : ~~ (relation_known op && (1 < num)%N) ->
  exists est', [/\ slq op params num conv v est = Some (conv, est'), size est' = size est,
    (forall j, (j < num)%N -> nth false conv j -> est'`_j = est`_j),
    (forall j, (j < num)%N -> ~~ nth false conv j -> value_of (drop (j * np) params) w est'`_j) &
    (forall j, (num <= j)%N -> est'`_j = est`_j)].
Proof.
  move=> Hk. rewrite /slq.
  have [op' [its [-> Hs Hi]]] := iterate_ok num_gt0 op_good params_size conv_size adm v_size v_nz.
  rewrite [obind _ _]/= /all_nodes (negbTE Hk) [obind _ _]/=.
  have Erq : required op num = num.
  { case Er : (relation_known op) => //. move: Hk. rewrite Er /= -leqNgt => Hn.
    by apply/eqP; rewrite eqn_leq num_gt0 Hn. }
  rewrite Erq in Hs Hi.
  have Hi2 : forall j, (j < num)%N -> ~~ nth false conv j ->
     (j < size its)%N /\ exists nd, nth None its j = Some nd.
  { move=> j Hj Hc. rewrite Hs. split=> //. have := Hi j Hj. rewrite (negbTE Hc) /=.
    by move=> [nd [E _]]; exists nd. }
  have [est' [-> H1 H2 H3 H4]] := estimates_ok conv_size est_size Hi2.
  rewrite [obind _ _]/=. exists est'. split=> // j Hj Hc.
  have := Hi j Hj. rewrite (negbTE Hc) /= => -[nd [En [k' [Q [d [End Hst Hsp]]]]]].
  rewrite (H3 j nd Hj Hc En) End quadrature_function. by exists k', Q, d.
Qed.

(** The nodes of the first inquiry are reused. *)
Lemma slq_shifted (sh : nat -> R) : relation_known op -> (1 < num)%N ->
  (forall j x, (0 < j < num)%N -> get_eig params x (drop (j * np) params) = Some (x + sh j)) ->
  sh 0%N = 0 ->
  exists conv' est' k' Q d,
    [/\ slq op params num conv v est = Some (conv', est'), size est' = size est,
      size conv' = size conv /\ (forall j, (j < num)%N -> nth false conv' j = false),
      stops (offdiag params w) k' /\ spectral (projected params w k') Q d &
      forall j, (j < num)%N ->
        est'`_j = n%:R * matrix_function g Q (\row_i (d 0 i + sh j)) 0 0].
Proof.
  move=> Hk Hn Hsh Hsh0. rewrite /slq.
  have [op' [its [-> Hs Hi]]] := iterate_ok num_gt0 op_good params_size conv_size adm v_size v_nz.
  rewrite [obind _ _]/= /all_nodes Hk Hn [_ && _]/=. rewrite Hk in Hs Hi.
  have [conv' -> [Sc Hc _]] : exists2 s, for_ 0 num 1 (fun j c => wr c j false) conv = Some s &
    [/\ size s = size conv, (forall j, (j < num)%N -> nth false s j = false) & true].
  { have [s -> [H1 H2]] : exists2 s, for_ 0 num 1 (fun j c => wr c j false) conv = Some s &
      size s = size conv /\ (forall j, (j < num)%N -> nth false s j = false); last by exists s.
    apply: (@for1_inv _ (fun k s => size s = size conv /\
      (forall j, (j < k)%N -> nth false s j = false))) => // j s /andP [_ Hj] [I1 I2].
    have Hjs : (j < size s)%N by rewrite I1; exact: leq_trans conv_size.
    have Ew := wrE false Hjs. eexists; first exact: Ew. split.
    - by rewrite (size_wr Ew).
    - move=> i Hij. rewrite (nth_wr false i Ew). case: eqP => // /eqP Hne. apply: I2.
      by rewrite ltn_neqAle Hne -ltnS. }
  rewrite [obind _ _]/=.
  have := Hi 0%N erefl. rewrite (ltn_eqF Hn) andbF => -[nd [En [k' [Q [d [End Hst Hsp]]]]]].
  have Hs0 : (0 < size its)%N by rewrite Hs.
  rewrite mul0n drop0 in Hst Hsp.
  rewrite (rdE None Hs0) [obind _ _]/= En [obind _ _]/=.
  pose shd j : 'rV[R]_k'.+1 := \row_i (d 0 i + sh j).
  have Eshift : forall j, (0 < j < num)%N ->
    shift_nodes get_eig np params j nd = Some (node_list Q (shd j)).
  { move=> j Hj. have Hsz : size nd = k'.+1 by rewrite End size_map size_iota.
    have Hnd : forall i, (i < size nd)%N -> rd nd i = Some (d 0 (inord i), Q 0 (inord i)).
    { move=> i Hin. have Hin2 := Hin. rewrite Hsz in Hin2.
      rewrite (rdE (0, 0) Hin) End (nth_map 0%N) ?size_iota // nth_iota //. }
    rewrite /shift_nodes (@collectE _ _ _ _ (fun i => shd j 0 (inord i)) (fun i => Q 0 (inord i))).
    - by rewrite Hsz.
    - move=> i Hin. by rewrite (Hnd i Hin) [obind _ _]/= Hsh // mxE.
    - move=> i Hin. by rewrite (Hnd i Hin). }
  have [its' -> [Ss Hits]] : exists2 s, for_ 1 num 1
    (fun j its => do nd <- shift_nodes get_eig np params j nd; Some (rcons its (Some nd))) its = Some s &
    size s = num /\ forall j, (j < num)%N -> nth None s j = Some (node_list Q (shd j)).
  { apply: (@for1_inv _ (fun k s => size s = k /\
      forall j, (j < k)%N -> nth None s j = Some (node_list Q (shd j)))) => //.
    - split=> // -[|//] _. rewrite En End. congr (Some (node_list Q _)). apply/rowP => i.
      by rewrite !mxE Hsh0 addr0.
    - move=> j s Hj [I1 I2]. rewrite Eshift // [obind _ _]/=. eexists; first by []. split.
      + by rewrite size_rcons I1.
      + move=> i. rewrite ltnS leq_eqVlt => /orP [/eqP ->|Hij].
        * by rewrite nth_rcons I1 ltnn eqxx.
        * by rewrite nth_rcons I1 Hij; exact: I2. }
  rewrite [obind _ _]/=.
  have Hc' : (num <= size conv')%N by rewrite Sc.
  have Hi2 : forall j, (j < num)%N -> ~~ nth false conv' j ->
     (j < size its')%N /\ exists nd, nth None its' j = Some nd.
  { move=> j Hj _. rewrite Ss. split=> //. by exists (node_list Q (shd j)); exact: Hits. }
  have [est' [E1 H1 H2 H3 H4]] := estimates_ok Hc' est_size Hi2.
  have E2 : estimates num conv' its' est = Some est' by [].
  exists conv', est', k', Q, d. split=> //.
  - by rewrite E2.
  - move=> j Hj. rewrite (H3 j _ Hj _ (Hits j Hj)) ?Hc // quadrature_function //.
Qed.

End Inquiries.

End Slq.
