(** The bidiagonalization of rectangular matrices: C62.

    gram=True is documented for matrices that are not square
    (logdet.py 72-74, traceinv.py 66-69, trace.py 77-80), and get_operator
    (trace_estimator_utilities.py 24-55) accepts them.  The vectors of the
    iteration have as many entries as the matrix has rows
    (c_trace_estimator.cpp 220, 427, 515, 620): the model is [golub_kahn] of
    LanczosModel with n = number of rows and the products of OperatorModel with
    the true shape. *)
From mathcomp Require Import all_ssreflect all_algebra zify.
From Verif Require Import Mem KernelModel KernelSpec KernelProofs LanczosModel LanczosSpec LanczosMath LanczosProofs.
From Verif Require Import GolubKahnProofs OperatorModel OperatorSpec OperatorProofs.
Set Implicit Arguments.
Unset Strict Implicit.
Unset Printing Implicit Defensive.
Import GRing.Theory Num.Theory Order.TTheory.
Local Open Scope ring_scope.

Lemma obind_some (S T : Type) (e : option S) (k : S -> option T) y :
  obind k e = Some y -> exists2 x, e = Some x & k x = Some y.
Proof. by case: e => [x|] //= H; exists x. Qed.
Local Notation obS := (@obind_some _ _ _ _ _).

Lemma obSome (S T : Type) (k : S -> option T) x : obind k (Some x) = k x.
Proof. by []. Qed.

(** What holds after the first pass and is kept by the others *)
Lemma for_kept (S : Type) (P : S -> Prop) f m s s' : (0 < m)%N ->
  (forall s1, f 0%N s = Some s1 -> P s1) ->
  (forall j s1 s2, (0 < j)%N -> P s1 -> f j s1 = Some s2 -> P s2) ->
  for_ 0 m 1 f s = Some s' -> P s'.
Proof.
move=> Hm H0 Hk. rewrite /for_.
have Hl : forall fuel i s1, (0 < i)%N -> P s1 -> loop fuel i m 1 f s1 = Some s' -> P s'.
{ elim => [|fuel IH] i s1 Hi HP /=.
  - by case: ifP => // _ [<-].
  - case: ifP => _; last by move=> [<-].
    move=> /obS [s2 E]. apply: IH; first by rewrite addn1. exact: Hk E. }
case: m Hm Hl => [//|m] _ Hl /=.
by move=> /obS [s1 E]; apply: Hl => //; exact: H0.
Qed.

Section Rect.
Variable R : rcfType.
Implicit Types (s : storage R) (c v V : seq R).

Lemma writes_widen (k m : nat) c (w : 'cV[R]_k) r : (k <= m)%N -> writes c w r ->
  writes c (\col_(i < m) (if insub (i : nat) is Some o then w o 0 else c`_i)) r.
Proof.
move=> Hkm [c' [-> V' S O]]. exists c'; split => //.
- apply/matrixP => i j. rewrite !mxE. case: insubP => [o Ho Eo|Ho].
  + by rewrite -V' mxE Eo.
  + by rewrite O // leqNgt.
- move=> i Hi. apply: O. exact: leq_trans Hi.
Qed.

Variable eps : R.
Variables (s : storage R) (rows columns : nat).

(** With gram=True the iteration runs with vectors of as many entries as the
    matrix has rows (c_trace_estimator.cpp 515) *)
Definition rect_golub_kahn v m tol orth U0 V0 alpha0 beta0 :=
  golub_kahn eps (dot s rows columns) (transpose_dot s rows columns) v rows m tol orth U0 V0 alpha0 beta0.

Section Tall.
Hypothesis Hw : well_formed s rows columns.
Notation A := (denotes s rows columns).
Hypothesis Htall : (columns < rows)%N.
Variables (v : seq R) (m : nat) (tol : R) (orth : int) (U0 V0 alpha0 beta0 : seq R).
Notation bs := (gk_buffer_size orth m).
Hypothesis Hv : (rows <= size v)%N.
Hypothesis Hbs : (1 < bs)%N.
Hypothesis HU : (bs * rows <= size U0)%N.
Hypothesis HV : (bs * rows <= size V0)%N.

(** The direction of the random vector, the first diagonal element alpha_0 and
    the first vector of the other basis *)
Definition v0 : 'cV[R]_rows := (nrm (vec rows v))^-1 *: vec rows v.
Definition x0 : 'cV[R]_rows := A *m (\col_(i < columns) ((nrm (vec rows v))^-1 * v`_i)).
Definition a0 : R := nrm x0.
Definition y0 : 'cV[R]_columns := A^T *m (a0^-1 *: x0).

(** The second vector of the basis that starts with [v0]: its first entries
    are those of the transposed product, the others are what the buffer [V0]
    held when it was allocated *)
Definition w0 : 'cV[R]_rows :=
  \col_(i < rows) (if insub (i : nat) is Some o then y0 o 0 else V0`_(rows + i)) - a0 *: v0.

Lemma first_pass V al be :
  slot rows V 0 = v0 -> size V = size V0 -> (forall i, (rows <= i)%N -> V`_i = V0`_i) ->
  (0 < size al)%N -> (0 < size be)%N ->
  if a0 == 0 then
    gk_body eps (dot s rows columns) (transpose_dot s rows columns) rows bs tol orth 0
      (GkState U0 V al be 0 false) = None
  else exists st, [/\
    gk_body eps (dot s rows columns) (transpose_dot s rows columns) rows bs tol orth 0
      (GkState U0 V al be 0 false) = Some st,
    (gk_alpha st)`_0 = a0, (gk_beta st)`_0 = nrm w0, gk_size st = 1%N &
    gk_stop st = (nrm w0 < tol * Num.sqrt rows%:R)].
Proof.
move=> EV SV HVo Hal Hbe. rewrite /gk_body; cbv zeta beta iota delta [gk_stop gk_U gk_V gk_alpha gk_beta gk_size].
have E0 : (0 %% bs)%N = 0%N by rewrite mod0n.
have E1 : (0.+1 %% bs)%N = 1%N by rewrite modn_small.
rewrite E0 E1.
have HV' : (bs * rows <= size V)%N by rewrite SV.
have Hc : (columns <= size (at_ V (0 * rows)))%N.
{ apply: leq_trans (size_at (ltnW Hbs) HV'). exact: ltnW. }
have [U1 [-> SU1 F1]] := upd_slot (f := dot s rows columns (at_ V (0 * rows))) (ltnW Hbs) HU
  (dot_ok Hw Hc (size_at (ltnW Hbs) HU)).
rewrite obSome andbF ltnn !obSome.
have Ex : slot rows U1 0 = x0.
{ rewrite F1 eqxx /x0. congr (_ *m _). apply/matrixP => i j. rewrite !mxE.
  have := congr1 (fun M : 'cV_rows => M (widen_ord (ltnW Htall) i) 0) EV.
  by rewrite !mxE. }
have HU1 : (bs * rows <= size U1)%N by rewrite SU1.
have [U2 [-> SU2 F2]] := normalize_at_ok (ltnW Hbs) HU1.
rewrite obSome Ex -/a0. case: eqP => // Ha.
rewrite (wrE _ Hal) obSome.
have HU2 : (bs * rows <= size U2)%N by rewrite SU2.
have Ht : writes (drop (1 * rows) V)
   (\col_(i < rows) (if insub (i : nat) is Some o then y0 o 0 else V0`_(rows + i)))
   (transpose_dot s rows columns (at_ U2 (0 * rows)) (drop (1 * rows) V)).
{ have W := transpose_dot_ok Hw (size_at (ltnW Hbs) HU2)
     (leq_trans (ltnW Htall) (size_at Hbs HV')).
  have := writes_widen (ltnW Htall) W.
  rewrite -/(slot rows U2 0) F2 eqxx Ex -/a0 -/y0 => Hx.
  set w := (X in writes _ X _). set w' := (X in writes _ X _) in Hx.
  suff -> : w = w' by []. apply/matrixP => i j. rewrite !mxE. case: insub => // .
  by rewrite nth_drop mul1n HVo // leq_addr. }
have [V1 [-> SV1 G1]] := upd_slot (f := transpose_dot s rows columns (at_ U2 (0 * rows))) Hbs HV' Ht.
rewrite obSome.
have HV1 : (bs * rows <= size V1)%N by rewrite SV1.
have [V2 [-> SV2 G2]] := upd_slot (f := subtract_scaled_vector (at_ V1 (0 * rows)) rows a0) Hbs HV1
  (subtract_scaled_vector_ok a0 (size_at (ltnW Hbs) HV1) (size_at Hbs HV1)).
rewrite obSome.
have HV2 : (bs * rows <= size V2)%N by rewrite SV2.
have E2 : slot rows V2 1 = w0.
{ rewrite G2 eqxx -/(slot rows V1 0) -/(slot rows V1 1) !G1 /= /w0. by rewrite EV. }
have -> : (if orth != 0 then gram_schmidt_inside eps V2 rows bs 0 (if (0 < bs)%N then 0%N else (bs - 1)%N)%:Z (1 * rows)
           else Some V2) = Some V2.
{ case: ifP => // _. rewrite /gram_schmidt_inside (ltnW Hbs) /gs_num_steps /=. by rewrite for_empty. }
rewrite obSome.
have [V3 [-> SV3 G3]] := normalize_at_ok Hbs HV2.
rewrite obSome E2 (wrE _ Hbe) obSome.
eexists; split; first reflexivity; rewrite //=.
- by rewrite (nth_wr 0 0 (wrE a0 Hal)).
- by rewrite (nth_wr 0 0 (wrE (nrm w0) Hbe)).
Qed.

Lemma kept n tol' j st st' : (0 < j)%N ->
  gk_body eps (dot s rows columns) (transpose_dot s rows columns) n bs tol' orth j st = Some st' ->
  (gk_alpha st')`_0 = (gk_alpha st)`_0 /\ (gk_beta st')`_0 = (gk_beta st)`_0.
Proof.
move=> Hj. rewrite /gk_body. case: ifP => _; first by move=> [<-].
move=> /obS [U1 _] /obS [U2 _] /obS [U3 _] /obS [p _].
case: ifP => // _ /obS [al Ea] /obS [V1 _] /obS [V2 _] /obS [V3 _].
move=> /obS [q _] /obS [be E] [<-] /=.
rewrite (nth_wr 0 0 E) (nth_wr 0 0 Ea). by case: j Hj {E Ea}.
Qed.

(** Every run on a tall matrix that returns has in beta_0 the norm of a vector
    whose last rows - columns entries come from uninitialised memory *)
Lemma tall_run k alpha beta : (0 < m)%N -> (0 < size alpha0)%N -> (0 < size beta0)%N ->
  rect_golub_kahn v m tol orth U0 V0 alpha0 beta0 = Some (k, alpha, beta) ->
  alpha`_0 = a0 /\ beta`_0 = nrm w0.
Proof.
move=> Hm Hal Hbe. rewrite /rect_golub_kahn /golub_kahn.
have HV1 : (rows <= size V0)%N by apply: leq_trans HV; rewrite leq_pmull // ltnW.
have [V [-> [EV SV HVo]]] := normalize_and_copy_ok Hv HV1.
rewrite [obind _ _]/=. case: eqP => // _ /obS [st E [_ <- <-]].
apply: (for_kept (P := fun st => (gk_alpha st)`_0 = a0 /\ (gk_beta st)`_0 = nrm w0) Hm _ _ E).
- move=> s1. have H0 : slot rows V 0 = v0 by rewrite /slot mul0n drop0 EV norm2_nrm.
  have := first_pass H0 SV HVo Hal Hbe. case: eqP => _; first by move=> ->.
  by move=> [st' [-> E1 E2 _ _]] [<-].
- by move=> j s1 s2 Hj [H1 H2] /(kept Hj) [-> ->].
Qed.

(** A run returns after the first pass when the tolerance asks for no more *)
Lemma tall_returns : (0 < m)%N -> (0 < size alpha0)%N -> (0 < size beta0)%N ->
  vec rows v != 0 -> a0 != 0 -> nrm w0 < tol * Num.sqrt rows%:R ->
  exists alpha beta, rect_golub_kahn v m tol orth U0 V0 alpha0 beta0 = Some (1%N, alpha, beta).
Proof.
move=> Hm Hal Hbe Hv0 Ha Ht. rewrite /rect_golub_kahn /golub_kahn.
have HV1 : (rows <= size V0)%N by apply: leq_trans HV; rewrite leq_pmull // ltnW.
have [V [-> [EV SV HVo]]] := normalize_and_copy_ok Hv HV1.
rewrite [obind _ _]/= (gt_eqF (norm2_gt0 Hv0)).
have H0 : slot rows V 0 = v0 by rewrite /slot mul0n drop0 EV norm2_nrm.
have := first_pass H0 SV HVo Hal Hbe. rewrite (negbTE Ha) => [[st [E1 E2 E3 E4 E5]]].
rewrite Ht in E5.
have [st' -> I] : exists2 st', for_ 0 m 1 (gk_body eps (dot s rows columns) (transpose_dot s rows columns) rows bs tol orth)
     (GkState U0 V alpha0 beta0 0 false) = Some st' & (if m == 0%N then st' = GkState U0 V alpha0 beta0 0 false else st' = st).
{ apply: (for1_inv (I := fun j st' => if j == 0%N then st' = GkState U0 V alpha0 beta0 0 false else st' = st)) => //.
  move=> j s1 Hj. case: eqP => [-> ->|Hj0 ->]; first by exists st.
  exists st => //. by rewrite /gk_body E5. }
rewrite gtn_eqF // in I. rewrite [obind _ _]/= I E4. by exists (gk_alpha st), (gk_beta st).
Qed.
End Tall.

(** A loop that stores in a short array leaves it *)
Lemma short_loop (f : nat -> seq R -> option (seq R)) n c : (size c < n)%N ->
  (forall k c c', f k c = Some c' -> (k < size c)%N /\ size c' = size c) ->
  for_ 0 n 1 f c = None.
Proof.
move=> Hc Hf. rewrite /for_.
have H : forall fuel i c1, (i <= size c1)%N -> (size c1 < n)%N -> loop fuel i n 1 f c1 = None.
{ elim => [|fuel IH] i c1 Hi Hn /=; first by rewrite (leq_ltn_trans Hi Hn).
  rewrite (leq_ltn_trans Hi Hn). case E : (f i c1) => [c2|] //=.
  have [H1 H2] := Hf _ _ _ E. apply: IH; by rewrite H2 // addn1. }
exact: H.
Qed.

Lemma wr_in c k x c' : wr c k x = Some c' -> (k < size c)%N /\ size c' = size c.
Proof. move=> E. split; last exact: size_wr E. by move: E; rewrite /wr; case: ifP. Qed.

Lemma transpose_dot_short u c : (size c < columns)%N -> transpose_dot s rows columns u c = None.
Proof.
move=> Hc. case: s => [rm A|d i p|d i p] /=.
- rewrite /dense_transposed_matvec. apply: short_loop => // k c1 c2 /obS [x _]. exact: wr_in.
- rewrite /csr_transposed_matvec /zero_fill short_loop // => k c1 c2. exact: wr_in.
- rewrite /csc_transposed_matvec. apply: short_loop => // k c1 c2 /obS [x _]. exact: wr_in.
Qed.

Lemma wide_none v m tol U0 V0 alpha0 beta0 : (rows < columns)%N -> (0 < m)%N ->
  (rows <= size v)%N -> size V0 = (2 * rows)%N ->
  rect_golub_kahn v m tol 0 U0 V0 alpha0 beta0 = None.
Proof.
move=> Hwide Hm Hv HV. rewrite /rect_golub_kahn /golub_kahn.
have HV1 : (rows <= size V0)%N by rewrite HV mul2n -addnn leq_addr.
have [V [-> [_ SV _]]] := normalize_and_copy_ok Hv HV1.
rewrite obSome. case: eqP => // _. rewrite [gk_buffer_size _ _]/=.
set r := for_ _ _ _ _ _. suff -> : r = None by []. rewrite {}/r /for_.
case: m Hm => [//|m] _ /=.
set r := gk_body _ _ _ _ _ _ _ _ _. suff -> : r = None by []. rewrite {}/r /gk_body.
cbv zeta beta iota delta [gk_stop gk_U gk_V gk_alpha gk_beta gk_size].
case: (upd_at U0 _ _) => [U1|//]. rewrite obSome ltnn andbF !obSome.
case: (normalize_at _ _ _) => [p|//]. rewrite obSome. case: eqP => // _.
case: (wr alpha0 0 p.1) => [al|//]. rewrite obSome.
rewrite /upd_at transpose_dot_short //.
by rewrite size_drop SV HV modn_small // mul1n mul2n -addnn addKn.
Qed.

Lemma nrm_lt n (x y : 'cV[R]_n) k : (forall i, i != k -> x i 0 = y i 0) ->
  (x k 0) ^+ 2 < (y k 0) ^+ 2 -> nrm x < nrm y.
Proof.
move=> Ho Hk. rewrite /nrm ltr_sqrt; last first.
{ apply: lt_le_trans (le_lt_trans (sqr_ge0 _) Hk) _. rewrite /ip (bigD1 k) //= -expr2 ler_addl.
  by apply: sumr_ge0 => i _; rewrite -expr2 sqr_ge0. }
rewrite /ip (bigD1 k) //= [X in _ < X](bigD1 k) //= -!expr2.
rewrite [X in _ + X](eq_bigr (fun i => y i 0 * y i 0)); first by rewrite ltr_add2r.
by move=> i /Ho ->.
Qed.

Lemma memory_matters (m : nat) (orth : int) v V0 : (columns < rows)%N ->
  (gk_buffer_size orth m * rows <= size V0)%N -> (1 < gk_buffer_size orth m)%N ->
  exists2 V1, size V1 = size V0 & nrm (w0 v V0) < nrm (w0 v V1).
Proof.
move=> Htall HV Hbs. pose k := Ordinal Htall.
pose c : R := (a0 v *: v0 v) k 0. pose x := V0`_(rows + columns).
pose y := if 0 <= x - c then x + 1 else x - 1.
have Hi : (rows + columns < size V0)%N.
{ apply: leq_trans HV. apply: (leq_trans (n := (2 * rows)%N)); last by rewrite leq_mul2r Hbs orbT.
  by rewrite mul2n -addnn ltn_add2l. }
have [V1 E1] : exists V1, wr V0 (rows + columns) y = Some V1 by rewrite wrE //; eexists.
exists V1; first exact: size_wr E1.
apply: (nrm_lt (k := k)).
- move=> i Hik. rewrite /w0 !mxE. case: insub => // . rewrite (nth_wr 0 _ E1) eqn_add2l.
  case: eqP => // Ei. by case/eqP: Hik; apply: val_inj.
- have Ew V' : w0 v V' k 0 = V'`_(rows + columns) - c.
  { rewrite /w0 mxE [X in X + _]mxE insubN ?ltnn // [X in _ + X]mxE. by []. }
  rewrite !Ew (nth_wr 0 _ E1) eqxx -/x /y. case: ifP => Hx.
  + rewrite (_ : x + 1 - c = x - c + 1); last by rewrite addrAC.
    rewrite ltr_sqr ?nnegrE //; first by rewrite ltr_addl ltr01.
    by rewrite addr_ge0 // ler01.
  + have Hx' : x - c < 0 by rewrite ltNge Hx.
    have -> : x - 1 - c = - (- (x - c) + 1) by rewrite opprD opprK addrAC.
    rewrite -[(x - c) ^+ 2]sqrrN [X in _ < X]sqrrN. set d := - (x - c).
    have Hd : 0 <= d by rewrite oppr_ge0 ltW.
    rewrite ltr_sqr ?nnegrE //; first by rewrite ltr_addl ltr01.
    by rewrite addr_ge0 // ler01.
Qed.
End Rect.

(** ** C62 *)

Section C62.
Variable R : rcfType.
Variable eps : R.

(** Tall matrices: what the iteration returns is a function of memory that was
    never written.  For every contents [V0] of the new buffer there are other
    contents for which every call that returns gives another beta_0; and with a
    tolerance that stops the iteration after its first step both calls return. *)
Theorem C62_tall_refuted (s : storage R) (rows columns : nat) (v : seq R) (m : nat)
    (orth : int) (U0 V0 alpha0 beta0 : seq R) :
  well_formed s rows columns -> (columns < rows)%N ->
  (rows <= size v)%N -> (1 < m)%N ->
  (gk_buffer_size orth m * rows <= size U0)%N -> (gk_buffer_size orth m * rows <= size V0)%N ->
  (0 < size alpha0)%N -> (0 < size beta0)%N ->
  vec rows v != 0 -> denotes s rows columns *m vec columns v != 0 ->
  exists V1, [/\ size V1 = size V0,
    (forall tol k a b k' a' b',
       rect_golub_kahn eps s rows columns v m tol orth U0 V0 alpha0 beta0 = Some (k, a, b) ->
       rect_golub_kahn eps s rows columns v m tol orth U0 V1 alpha0 beta0 = Some (k', a', b') ->
       a`_0 = a'`_0 /\ b`_0 < b'`_0) &
    exists tol a b a' b', [/\ 0 < tol,
       rect_golub_kahn eps s rows columns v m tol orth U0 V0 alpha0 beta0 = Some (1%N, a, b) &
       rect_golub_kahn eps s rows columns v m tol orth U0 V1 alpha0 beta0 = Some (1%N, a', b')]].
Proof.
move=> Hw Htall Hv Hm HU HV Hal Hbe Hv0 HA.
have Hbs : (1 < gk_buffer_size orth m)%N by exact: gk_bs_gt1.
have [V1 S1 Hlt] := memory_matters s v Htall HV Hbs.
have HV1 : (gk_buffer_size orth m * rows <= size V1)%N by rewrite S1.
have Hn : 0 < nrm (vec rows v) by rewrite -norm2_nrm norm2_gt0.
have Ha : a0 s rows columns v != 0.
{ rewrite /a0 nrm_eq0 /x0.
  have -> : \col_(i < columns) ((nrm (vec rows v))^-1 * v`_i) = (nrm (vec rows v))^-1 *: vec columns v.
    by apply/matrixP => i j; rewrite !mxE.
  by rewrite -scalemxAr scaler_eq0 invr_eq0 gt_eqF. }
exists V1; split => //.
- move=> tol k a b k' a' b' E E'.
  have [-> ->] := tall_run Hw Htall Hv Hbs HU HV (ltnW Hm) Hal Hbe E.
  by have [-> ->] := tall_run Hw Htall Hv Hbs HU HV1 (ltnW Hm) Hal Hbe E'.
- pose tol := nrm (w0 s rows columns v V1) + 1.
  have Hr : 1 <= Num.sqrt (rows%:R : R).
  { rewrite -[X in X <= _]sqrtr1 ler_wsqrtr // ler1n. exact: leq_ltn_trans Htall. }
  have Hg : 0 <= nrm (w0 s rows columns v V1) by exact: nrm_ge0.
  have Ht : nrm (w0 s rows columns v V1) < tol * Num.sqrt rows%:R.
  { apply: (lt_le_trans (y := tol)); first by rewrite ltr_addl ltr01.
    by rewrite ler_pmulr // ltr_paddl // ltr01. }
  exists tol.
  have [a [b E]] := tall_returns eps Hw Htall Hv Hbs HU HV (ltnW Hm) Hal Hbe Hv0 Ha (lt_trans Hlt Ht).
  have [a' [b' E']] := tall_returns eps Hw Htall Hv Hbs HU HV1 (ltnW Hm) Hal Hbe Hv0 Ha Ht.
  by exists a, b, a', b'; split => //; rewrite ltr_paddl // ltr01.
Qed.

(** Wide matrices: with the default orthogonalize=0 every call accesses memory
    outside its buffers, which have 2 * rows entries. *)
Theorem C62_wide_refuted (s : storage R) (rows columns : nat) (v : seq R) (m : nat)
    (tol : R) (U0 V0 alpha0 beta0 : seq R) :
  (rows < columns)%N -> (0 < m)%N -> (rows <= size v)%N ->
  size V0 = (gk_buffer_size 0 m * rows)%N ->
  rect_golub_kahn eps s rows columns v m tol 0 U0 V0 alpha0 beta0 = None.
Proof. move=> Hwide Hm Hv HV. exact: wide_none. Qed.

(** Square matrices with trivial kernel: what the buffers held is irrelevant *)
Theorem C62_square_partial (s : storage R) (n : nat) (v : seq R) (m : nat)
    (tol : R) (orth : int) (U0 V0 U1 V1 alpha0 beta0 : seq R) :
  0 < eps -> 0 < tol -> (0 < n)%N -> (0 < m)%N ->
  well_formed s n n -> (forall x : 'cV[R]_n, denotes s n n *m x = 0 -> x = 0) ->
  (n <= size v)%N -> vec n v != 0 ->
  (m <= size alpha0)%N -> (m <= size beta0)%N ->
  (gk_buffer_size orth m * n <= size U0)%N -> (gk_buffer_size orth m * n <= size V0)%N ->
  (gk_buffer_size orth m * n <= size U1)%N -> (gk_buffer_size orth m * n <= size V1)%N ->
  exists k a b a' b', [/\
    rect_golub_kahn eps s n n v m tol orth U0 V0 alpha0 beta0 = Some (k, a, b),
    rect_golub_kahn eps s n n v m tol orth U1 V1 alpha0 beta0 = Some (k, a', b'),
    (forall i, (i < k)%N -> a`_i = a'`_i) & (forall i, (i < k.-1)%N -> b`_i = b'`_i)].
Proof.
move=> He Ht Hn Hm Hw Hinj Hv Hv0 Ha Hb HU HV HU1 HV1.
have D x c : (n <= size x)%N -> (n <= size c)%N -> writes c (denotes s n n *m vec n x) (dot s n n x c).
  by move=> Hx Hc; apply: dot_ok.
have T x c : (n <= size x)%N -> (n <= size c)%N -> writes c ((denotes s n n)^T *m vec n x) (transpose_dot s n n x c).
  by move=> Hx Hc; apply: transpose_dot_ok.
have [k [a [b [E Hk _ [Ea Eb] [G1 G2]]]]] := golub_kahn_ok He Hn D T Hinj Hv Hv0 Ht Hm Ha Hb HU HV.
have [k' [a' [b' [E' Hk' _ [Ea' Eb'] [G1' G2']]]]] := golub_kahn_ok He Hn D T Hinj Hv Hv0 Ht Hm Ha Hb HU1 HV1.
have Ek : k' = k.
{ case: (ltngtP k k') => // H.
  - have Hkm : (k < m)%N by case/andP: Hk' => _; exact: leq_trans.
    have [_] := G2 Hkm. rewrite ltNge G1' //. by case/andP: Hk H => H1 _ H2; move: H1 H2; case: (k) => // k1; case: (k') => [//|k2].
  - have Hkm : (k' < m)%N by case/andP: Hk => _; exact: leq_trans.
    have [_] := G2' Hkm. rewrite ltNge G1 //. by case/andP: Hk' H => H1 _ H2; move: H1 H2; case: (k') => // k1; case: (k) => [//|k2]. }
rewrite Ek in E' Ea' Eb'. exists k, a, b, a', b'; split => // i Hi.
- by rewrite Ea // Ea'.
- by rewrite Eb // Eb'.
Qed.

(** A single column: the hypotheses of C62_tall_refuted are met *)
Example C62_tall_ex : exists (s : storage R) (v : seq R),
  [/\ well_formed s 2 1, (2 <= size v)%N, vec 2 v != 0 & denotes s 2 1 *m vec 1 v != 0].
Proof.
exists (Dense true [:: 1; 1]), [:: 1; 1]; split => //.
- apply/eqP => /matrixP /(_ 0 0). rewrite !mxE /=. by move/eqP; rewrite oner_eq0.
- apply/eqP => /matrixP /(_ 0 0). rewrite !mxE big_ord1 !mxE /=. by move/eqP; rewrite mulr1 oner_eq0.
Qed.
End C62.

Definition C62_assumptions := (@C62_tall_refuted, @C62_wide_refuted, @C62_square_partial, @C62_tall_ex).
Print Assumptions C62_assumptions.
