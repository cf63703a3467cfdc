(** The calls of LAPACK in the quadrature: C77. *)
From mathcomp Require Import all_ssreflect all_algebra zify.
From mathcomp.real_closed Require Import realalg.
From Coq Require Import Ascii.
From Coq Require ZArith.
From Verif Require Import Mem KernelModel KernelSpec OperatorModel OperatorSpec.
From Verif Require Import LanczosModel LanczosSpec LanczosMath MatSpec SlqModel SlqSpec SlqProofs Spectral PropSlq.
From Verif Require Import DiagModel DiagSpec.
Set Implicit Arguments.
Unset Strict Implicit.
Unset Printing Implicit Defensive.
Import GRing.Theory Num.Theory Order.TTheory.
Local Open Scope ring_scope.

Section Props.
Variable R : rcfType.
Implicit Types (L : lapack R) (t : data_type) (alpha beta : seq R).

Lemma cast_loopE (g : R -> R) k (src dst : seq R) : (k <= size src)%N -> (k <= size dst)%N ->
  exists2 dst', cast_loop g k src dst = Some dst' &
    size dst' = size dst /\ forall i, dst'`_i = if (i < k)%N then g src`_i else dst`_i.
Proof.
move=> Hs Hd.
have [] := @for1_inv _ (fun m (s : seq R) => size s = size dst /\ forall i, s`_i = if (i < m)%N then g src`_i else dst`_i)
  0 k (fun i dst => do x <- rd src i; wr dst i (g x)) dst isT.
- by split.
- move=> m s /andP [_ Hm] [Hz Hi]. rewrite (rdE 0) /=; last lia. rewrite wrE; last lia.
  eexists; first by []. split; first by rewrite size_set_nth; lia.
  move=> i. have E := @nth_wr _ 0 s _ m (g src`_m) i (wrE (g src`_m) (_ : (m < size s)%N)).
  rewrite {}E; last lia. rewrite Hi ltnS. case: (eqVneq i m) => [->|Hne]; first by rewrite leqnn.
  by rewrite [(i <= m)%N]leq_eqVlt (negbTE Hne).
- by move=> s' E H; exists s'.
Qed.

Lemma eq_tridiag k (a b a' b' : nat -> R) : (forall i, (i < k)%N -> a i = a' i) ->
  (forall i, (i < k - 1)%N -> b i = b' i) -> tridiag k a b = tridiag k a' b'.
Proof.
move=> Ha Hb. apply/matrixP => i j. rewrite !mxE. case: eqP => _; first exact: Ha.
case: eqP => [E|_]; first by apply: Hb; have := ltn_ord j; lia.
case: eqP => // E. apply: Hb. have := ltn_ord i; lia.
Qed.

Lemma eq_bidiag k (a b a' b' : nat -> R) : (forall i, (i < k)%N -> a i = a' i) ->
  (forall i, (i < k - 1)%N -> b i = b' i) -> bidiag k a b = bidiag k a' b'.
Proof.
move=> Ha Hb. apply/matrixP => i j. rewrite !mxE. case: eqP => _; first exact: Ha.
case: eqP => [E|_] //. apply: Hb. have := ltn_ord j; lia.
Qed.

Local Arguments cast_loop : simpl never.
Local Arguments new_minus : simpl never.
Section Calls.
Variables (alloc : nat -> seq R) (to_double : R -> R).
Hypothesis Hal : forall k, size (alloc k) = k.
Lemma room0 k : (k <= size (alloc k))%N. Proof. by rewrite Hal. Qed.

(** The arrays passed to xstev have room for its results. *)
Lemma stev_call f k (alpha beta z : seq R) : stev_ok f -> (0 < k)%N ->
  (k <= size alpha)%N -> (k - 1 <= size beta)%N -> (k * k <= size z)%N ->
  exists d' e' z' info, [/\ f "V"%char k alpha beta z k (alloc (2 * k - 2)) = Some (d', e', z', info),
    size d' = size alpha, size z' = size z &
    info = 0 -> spectral (tridiag k (nth 0 alpha) (nth 0 beta)) (\matrix_(r < k, i < k) z'`_(i * k + r)) (\row_(i < k) d'`_i)].
Proof.
move=> Hf Hk Ha Hb Hz. apply: Hf => //. rewrite /stev_room Hal.
case: (ltnP 1 k) => H1; [left|right]; first by split=> //; lia.
have E : k = 1%N by lia. split=> //. split=> //. by rewrite E.
Qed.

(** C77: the status tells whether the arrays hold the decomposition. *)
Theorem C77_eigh_status L t k alpha beta z : t <> LongDouble -> lapack_ok L -> (0 < k)%N ->
  (k <= size alpha)%N -> (k - 1 <= size beta)%N -> (k * k <= size z)%N ->
  exists d' e' z' info, eigh_tridiagonal alloc to_double L t alpha beta z k = Some (d', e', z', info) /\
    (info = 0 -> spectral (tridiag k (nth 0 alpha) (nth 0 beta))
                   (\matrix_(r < k, i < k) z'`_(i * k + r)) (\row_(i < k) d'`_i)).
Proof.
move=> Ht [[H1 H2] _] Hk Ha Hb Hz. rewrite /eigh_tridiagonal /new_minus.
have -> : (2 <= 2 * k)%N by lia. rewrite [obind _ _]/=.
case: t Ht => // _.
- have [d' [e' [z' [info [E _ _ H]]]]] := stev_call H1 Hk Ha Hb Hz. by exists d', e', z', info.
- have [d' [e' [z' [info [E _ _ H]]]]] := stev_call H2 Hk Ha Hb Hz. by exists d', e', z', info.
Qed.

Theorem C77_svd_status L t k alpha beta u vt : t <> LongDouble -> lapack_ok L -> (0 < k)%N ->
  (k <= size alpha)%N -> (k - 1 <= size beta)%N -> (k * k <= size u)%N -> (k * k <= size vt)%N ->
  (forall i, (i < k)%N -> alpha`_i != 0) ->
  exists d' e' u' vt' info, svd_bidiagonal alloc to_double L t alpha beta u vt k = Some (d', e', u', vt', info) /\
    let U := \matrix_(r < k, i < k) u'`_(i * k + r) in
    let Vt := \matrix_(i < k, r < k) vt'`_(r * k + i) in
    (info = 0 -> [/\ U^T *m U = 1%:M, Vt *m Vt^T = 1%:M &
       bidiag k (nth 0 alpha) (nth 0 beta) = U *m diag_mx (\row_(i < k) d'`_i) *m Vt]).
Proof.
move=> Ht [_ [H1 H2]] Hk Ha Hb Hu Hv Hnz. rewrite /svd_bidiagonal.
have room : bdsdc_room k alpha beta u k vt k (3 * k * k + 4 * k) (8 * k) by [].
case: t Ht => // _.
- have [d' [e' [u' [vt' [info [E _ _ _ H]]]]]] := H1 _ _ _ _ _ _ _ _ _ Hk room.
  exists d', e', u', vt', info. split=> // H0. by apply: H.
- have [d' [e' [u' [vt' [info [E _ _ _ H]]]]]] := H2 _ _ _ _ _ _ _ _ _ Hk room.
  exists d', e', u', vt', info. split=> // H0. by apply: H.
Qed.

(** C77: float and double, when LAPACK reports no failure.  These are the two
    contracts under which the quadrature is verified. *)
Theorem C77_contracts L t : t <> LongDouble -> lapack_ok L -> succeeds L ->
  eigh_contract (eigh alloc to_double L t) /\ svd_contract (svd alloc to_double L t).
Proof.
move=> Ht [[H1 H2] [H3 H4]] [S1 S2]. split.
- move=> k alpha beta Hk Ha Hb. have Hb' : (k - 1 <= size beta)%N by lia.
  have Hz : (k * k <= size (alloc (k * k)))%N by rewrite Hal.
  rewrite /eigh /eigh_tridiagonal /new_minus. have -> : (2 <= 2 * k)%N by lia. rewrite [obind _ (Some _)]/=.
  case: t Ht => // _.
  + have [d' [e' [z' [info [E Sd Sz H]]]]] := stev_call H1 Hk Ha Hb' Hz.
    exists d', z'. rewrite /xstev E Sd Sz Hal. split=> //. apply: H. exact: (S1 _ _ _ _ _ _ _ _ (or_introl E)).
  + have [d' [e' [z' [info [E Sd Sz H]]]]] := stev_call H2 Hk Ha Hb' Hz.
    exists d', z'. rewrite /xstev E Sd Sz Hal. split=> //. apply: H. exact: (S1 _ _ _ _ _ _ _ _ (or_intror E)).
- move=> k alpha beta Hk Ha Hb Hnz.
  have room : bdsdc_room k alpha beta (alloc (k * k)) k (alloc (k * k)) k (3 * k * k + 4 * k) (8 * k).
  { split; rewrite ?Hal //. lia. }
  rewrite /svd /svd_bidiagonal. case: t Ht => // _.
  + have [d' [e' [u' [vt' [info [E Sd Su Sv H]]]]]] := H3 _ _ _ _ _ _ _ _ _ Hk room.
    exists d', vt', (\matrix_(r < k, i < k) u'`_(i * k + r)). rewrite /xbdsdc E Sd Sv Hal. split=> //.
    apply: H => //. exact: (S2 _ _ _ _ _ _ _ _ _ _ _ _ (or_introl E)).
  + have [d' [e' [u' [vt' [info [E Sd Su Sv H]]]]]] := H4 _ _ _ _ _ _ _ _ _ Hk room.
    exists d', vt', (\matrix_(r < k, i < k) u'`_(i * k + r)). rewrite /xbdsdc E Sd Sv Hal. split=> //.
    apply: H => //. exact: (S2 _ _ _ _ _ _ _ _ _ _ _ _ (or_intror E)).
Qed.

(** C77: long double.  The decomposition is the one of the matrix with its
    entries cast to double. *)
Theorem C77_long_double L k alpha beta : lapack_ok L -> succeeds L -> (0 < k)%N ->
  (k <= size alpha)%N -> (k - 1 <= size beta)%N ->
  exists d z, eigh alloc to_double L LongDouble k alpha beta = Some (d, z) /\
    spectral (tridiag k (fun i => to_double alpha`_i) (fun i => to_double beta`_i))
      (\matrix_(r < k, i < k) z`_(i * k + r)) (\row_(i < k) d`_i).
Proof.
move=> [[_ H] _] [S _] Hk Ha Hb.
rewrite /eigh /eigh_tridiagonal /new_minus. have -> : (2 <= 2 * k)%N by lia.
rewrite [obind _ (Some _)]/= /xstev /xstev_long /new_minus. have -> : (2 <= 2 * k)%N by lia. rewrite Hk.
have [d1 E1 [Z1 V1]] := cast_loopE to_double Ha (room0 k).
have [e1 E2 [Z2 V2]] := cast_loopE to_double Hb (room0 (k - 1)).
rewrite E1 [obind _ (Some d1)]/= E2 [obind _ (Some e1)]/=.
have R1 : (k <= size d1)%N by rewrite Z1 Hal. have R2 : (k - 1 <= size e1)%N by rewrite Z2 Hal.
have [d2 [e2 [z2 [info [E Sd Sz HS]]]]] := stev_call H Hk R1 R2 (room0 (k * k)). rewrite E [obind _ (Some _)]/=.
have R3 : (k <= size d2)%N by rewrite Sd Z1 Hal.
have [d3 E3 [Z3 V3]] := cast_loopE id R3 Ha.
have Rz3 : (k * k <= size z2)%N by rewrite Sz Hal.
have [z3 E4 [Z4 V4]] := cast_loopE id Rz3 (room0 (k * k)). rewrite E3 [obind _ (Some d3)]/= E4 /=.
exists d3, z3. split=> //. have := HS (S _ _ _ _ _ _ _ _ (or_intror E)).
rewrite (@eq_tridiag k (nth 0 d1) (nth 0 e1) (fun i => to_double alpha`_i) (fun i => to_double beta`_i)).
- rewrite (_ : \matrix_(r, i) z2`_(i * k + r) = \matrix_(r, i) z3`_(i * k + r)).
  + rewrite (_ : \row_i d2`_i = \row_i d3`_i) //. apply/rowP => i. by rewrite !mxE V3 ltn_ord.
  + apply/matrixP => r i. rewrite !mxE V4. have -> // : (i * k + r < k * k)%N.
    have := ltn_ord i. have := ltn_ord r. nia.
- move=> i Hi. by rewrite V1 Hi.
- move=> i Hi. by rewrite V2 Hi.
Qed.

Corollary C77_long_double_of_doubles L k alpha beta : lapack_ok L -> succeeds L -> (0 < k)%N ->
  (k <= size alpha)%N -> (k - 1 <= size beta)%N ->
  (forall i, (i < k)%N -> to_double alpha`_i = alpha`_i) ->
  (forall i, (i < k - 1)%N -> to_double beta`_i = beta`_i) ->
  exists d z, eigh alloc to_double L LongDouble k alpha beta = Some (d, z) /\
    spectral (tridiag k (nth 0 alpha) (nth 0 beta)) (\matrix_(r < k, i < k) z`_(i * k + r)) (\row_(i < k) d`_i).
Proof.
move=> HL HS Hk Ha Hb Fa Fb. have [d [z [E H]]] := C77_long_double HL HS Hk Ha Hb.
exists d, z. split=> //. by rewrite (@eq_tridiag k _ _ (fun i => to_double alpha`_i) (fun i => to_double beta`_i)) => // i Hi; rewrite ?Fa ?Fb.
Qed.

Theorem C77_long_double_svd L k alpha beta : lapack_ok L -> succeeds L -> (0 < k)%N ->
  (k <= size alpha)%N -> (k - 1 <= size beta)%N -> (forall i, (i < k)%N -> to_double alpha`_i != 0) ->
  exists s vt (X : 'M[R]_k), svd alloc to_double L LongDouble k alpha beta = Some (s, vt) /\
    let Vt := \matrix_(i < k, r < k) vt`_(r * k + i) in
    [/\ X^T *m X = 1%:M, Vt *m Vt^T = 1%:M &
      bidiag k (fun i => to_double alpha`_i) (fun i => to_double beta`_i) = X *m diag_mx (\row_(i < k) s`_i) *m Vt].
Proof.
move=> [_ [_ H]] [_ S] Hk Ha Hb Hnz.
rewrite /svd /svd_bidiagonal /xbdsdc /xbdsdc_long /new_minus Hk.
have [d1 E1 [Z1 V1]] := cast_loopE to_double Ha (room0 k).
have [e1 E2 [Z2 V2]] := cast_loopE to_double Hb (room0 (k - 1)).
rewrite E1 [obind _ (Some d1)]/= E2 [obind _ (Some e1)]/=.
have room : bdsdc_room k d1 e1 (alloc (k * k)) k (alloc (k * k)) k (3 * k * k + 4 * k) (8 * k).
{ split; rewrite ?Z1 ?Z2 ?Hal //. }
have [d2 [e2 [u2 [vt2 [info [E Sd Su Sv HS]]]]]] := H _ _ _ _ _ _ _ _ _ Hk room. rewrite E [obind _ (Some _)]/=.
have R3 : (k <= size d2)%N by rewrite Sd Z1 Hal.
have [d3 E3 [Z3 V3]] := cast_loopE id R3 Ha.
have Ru3 : (k * k <= size u2)%N by rewrite Su Hal.
have [u3 E4 [Z4 V4]] := cast_loopE id Ru3 (room0 (k * k)).
have Rv3 : (k * k <= size vt2)%N by rewrite Sv Hal.
have [v3 E5 [Z5 V5]] := cast_loopE id Rv3 (room0 (k * k)). rewrite E3 [obind _ (Some d3)]/= E4 [obind _ (Some u3)]/= E5 /=.
exists d3, v3, (\matrix_(r < k, i < k) u2`_(i * k + r)). split=> //.
have HV : \matrix_(i < k, r < k) vt2`_(r * k + i) = \matrix_(i < k, r < k) v3`_(r * k + i).
{ apply/matrixP => i r. rewrite !mxE V5. have -> // : (r * k + i < k * k)%N.
  have := ltn_ord i. have := ltn_ord r. nia. }
have Hd : \row_(i < k) d2`_i = \row_(i < k) d3`_i by apply/rowP => i; rewrite !mxE V3 ltn_ord.
have Hnz1 : forall i, (i < k)%N -> d1`_i != 0 by move=> i Hi; rewrite V1 Hi Hnz.
have := HS (S _ _ _ _ _ _ _ _ _ _ _ _ (or_intror E)) Hnz1. rewrite HV Hd.
rewrite (@eq_bidiag k (nth 0 d1) (nth 0 e1) (fun i => to_double alpha`_i) (fun i => to_double beta`_i)) //.
- move=> i Hi. by rewrite V1 Hi.
- move=> i Hi. by rewrite V2 Hi.
Qed.

(** C77 refuted for long double: a number that is no double is not even an
    eigenvalue of the 1 x 1 matrix that holds it. *)
Theorem C77_long_double_refuted L a b : lapack_ok L -> succeeds L -> to_double a <> a ->
  exists d z, eigh alloc to_double L LongDouble 1 [:: a] [:: b] = Some (d, z) /\ d`_0 = to_double a /\
    ~ eigh_contract (eigh alloc to_double L LongDouble).
Proof.
move=> HL HS Hne. have [d [z [E H]]] := @C77_long_double L 1 [:: a] [:: b] HL HS isT isT isT.
have key (c e : nat -> R) (P : 'M_1) (w : 'rV[R]_1) : spectral (tridiag 1 c e) P w -> w 0 0 = c 0%N.
{ move=> [HP /matrixP /(_ 0 0)]. rewrite !mxE /= => ->. move: HP => /matrixP /(_ 0 0).
  rewrite !mxE !big_ord1 !mxE !big_ord1 !mxE eqxx mulr1n => Hq.
  by rewrite mulrAC Hq mul1r. }
exists d, z. have Hd := key _ _ _ _ H. rewrite mxE /= in Hd. split=> //. split=> // HC.
have [d' [z' [E' _ _ H']]] := HC 1%N [:: a] [:: b] isT isT isT. move: E'. rewrite E => -[? ?]. subst d' z'.
apply: Hne. rewrite -Hd. have := key _ _ _ _ H'. by rewrite mxE.
Qed.

(** C77: the status is not looked at. *)
Theorem C77_status_ignored L t g k alpha beta :
  eigh alloc to_double (relabel g L) t k alpha beta = eigh alloc to_double L t k alpha beta /\
  svd alloc to_double (relabel g L) t k alpha beta = svd alloc to_double L t k alpha beta.
Proof.
rewrite /eigh /eigh_tridiagonal /svd /svd_bidiagonal. split.
- case: (new_minus _ _ _) => [w|] //=. case: t => /=.
  + by case: sstev => [[[[d e] z] i]|].
  + by case: dstev => [[[[d e] z] i]|].
  + rewrite /xstev_long. case: (cast_loop to_double k alpha _) => [d1|] //=. case: (new_minus alloc k 1) => [e1|] //=.
    case: (cast_loop to_double _ beta e1) => [e2|] //=.
    case: (new_minus alloc _ 2) => [w1|] //=. case: dstev => [[[[d e] z] i]|] //=.
    case: (cast_loop id k d alpha) => [d2|] //=. by case: (cast_loop _ _ _ _).
- case: t => /=.
  + by case: sbdsdc => [[[[[d e] u] v] i]|].
  + by case: dbdsdc => [[[[[d e] u] v] i]|].
  + rewrite /xbdsdc_long. case: (cast_loop to_double k alpha _) => [d1|] //=. case: (new_minus alloc k 1) => [e1|] //=.
    case: (cast_loop to_double _ beta e1) => [e2|] //=.
    case: dbdsdc => [[[[[d e] u] v] i]|] //=.
    case: (cast_loop id k d alpha) => [d2|] //=. case: (cast_loop id _ u _) => [u2|] //=. by case: (cast_loop _ _ _ _).
Qed.

(** C77: for k = 1 the work array of xstev is empty, where its documentation asks
    for one element.  A routine that insists on it is not satisfied. *)
Theorem C77_work_refuted L t a b :
  (forall n d e z ldz work r, sstev L "V"%char n d e z ldz work = Some r \/ dstev L "V"%char n d e z ldz work = Some r ->
     stev_room n d e z ldz work) ->
  eigh alloc to_double L t 1 [:: a] [:: b] = None.
Proof.
move=> H.
have empty (f : stev_routine R) d e z : (forall r, f "V"%char 1%N d e z 1%N (alloc 0) = Some r -> stev_room 1 d e z 1 (alloc 0)) ->
  f "V"%char 1%N d e z 1%N (alloc 0) = None.
{ move=> HF. case E : (f _ _ _ _ _ _ _) => [r|] //. have [_ _ _ _] := HF _ E. by rewrite Hal. }
rewrite /eigh /eigh_tridiagonal {1}/new_minus /=. case: t => /=.
- rewrite empty // => r E. exact: (H _ _ _ _ _ _ _ (or_introl E)).
- rewrite empty // => r E. exact: (H _ _ _ _ _ _ _ (or_intror E)).
- rewrite /xstev_long. case: (cast_loop to_double 1 [:: a] _) => [d1|] //=. rewrite /new_minus /=.
  rewrite (_ : dstev L _ _ _ _ _ _ _ = None) //. apply: empty => r E. exact: (H _ _ _ _ _ _ _ (or_intror E)).
Qed.
End Calls.

(** C77: one sample of slq with these calls, for float and double. *)
Theorem C77_sample (eps : R) alloc to_double L t (pw f : R -> R) n' m (tol : R) orth (A : storage R) (v est params : seq R) :
  let n := n'.+1 in
  0 < eps -> (forall k, size (alloc k) = k) -> t <> LongDouble -> lapack_ok L -> succeeds L ->
  (0 < m)%N -> 0 < tol -> well_formed A n n ->
  (n <= size v)%N -> vec n v != 0 -> (0 < size est)%N ->
  let sample gram := slq_matrix eps alloc (eigh alloc to_double L t) (svd alloc to_double L t) pw f n m tol orth gram A params 1 [:: false] v est in
  ((denotes A n n)^T = denotes A n n ->
    exists est', sample false = Some ([:: false], est') /\
      exact_sample m (tol * Num.sqrt n%:R) (fun x => f (pw x)) (denotes A n n) (vec n v) est'`_0) /\
  ((forall x : 'cV_n, denotes A n n *m x = 0 -> x = 0) ->
    exists est', sample true = Some ([:: false], est') /\
      exact_gram_sample m (tol * Num.sqrt n%:R) (fun x => f (pw x)) (denotes A n n) (vec n v) est'`_0).
Proof.
move=> n He Hal Ht HL HS Hm Htol HA Hv Hnz Hest sample.
have [C1 C2] := C77_contracts to_double Hal Ht HL HS.
by split=> H; [apply: C18_sample_exact | apply: C20_gram_sample_partial].
Qed.

(** C77 refuted: a failure of LAPACK goes unnoticed, and what is left in the
    arrays is taken for the decomposition. *)
Theorem C77_unnoticed_refuted t alloc to_double : (forall k, size (alloc k) = k) -> exists L alpha beta d z,
  lapack_ok L /\ eigh alloc to_double L t 2 alpha beta = Some (d, z) /\
  ~ spectral (tridiag 2 (nth 0 alpha) (nth 0 beta)) (\matrix_(r < 2, i < 2) z`_(i * 2 + r)) (\row_(i < 2) d`_i).
Proof.
move=> Hal.
pose st : stev_routine R := fun _ _ d e z _ _ => Some (d, e, nseq (size z) 0, 1).
pose bd : bdsdc_routine R := fun _ _ _ d e u _ vt _ _ _ => Some (d, e, u, vt, 1).
have H1 : stev_ok st. { move=> n d e z ldz work _ _. exists d, e, (nseq (size z) 0), 1. by rewrite size_nseq. }
have H2 : bdsdc_ok bd. { move=> n d e u ldu vt ldvt work iwork _ _. by exists d, e, u, vt, 1. }
have [d [z [E Hz]]] : exists d z, eigh alloc to_double (Lapack st st bd bd) t 2 [:: 1; 1] [:: 0; 0] = Some (d, z) /\ z`_0 = 0 /\ z`_1 = 0.
{ rewrite /eigh /eigh_tridiagonal /new_minus /=. case: t => /=.
  - exists [:: 1; 1], (nseq (size (alloc (2 * 2)%N)) 0). by rewrite !nth_nseq !if_same.
  - exists [:: 1; 1], (nseq (size (alloc (2 * 2)%N)) 0). by rewrite !nth_nseq !if_same.
  - rewrite /xstev_long /new_minus /=.
    have [d1 E1 [Z1 _]] := @cast_loopE to_double 2 [:: 1; 1] _ isT (room0 Hal 2).
    have [e1 E2 _] := @cast_loopE to_double (2 - 1)%N [:: 0; 0] _ isT (room0 Hal (2 - 1)%N).
    rewrite E1 [obind _ (Some d1)]/= E2 [obind _ (Some e1)]/=.
    have R1 : (2 <= size d1)%N by rewrite Z1 Hal.
    have [d2 E3 _] := @cast_loopE id 2 d1 [:: 1; 1] R1 isT.
    have R2 : (2 * 2 <= size (nseq (size (alloc (2 * 2)%N)) (0%R : R)))%N by rewrite size_nseq Hal.
    have [z2 E4 [_ V]] := @cast_loopE id (2 * 2)%N _ (alloc (2 * 2)%N) R2 (room0 Hal (2 * 2)%N).
    rewrite E3 [obind _ (Some d2)]/= E4 /=. exists d2, z2. by rewrite !V !nth_nseq !if_same. }
exists (Lapack st st bd bd), [:: 1; 1], [:: 0; 0], d, z. split; first by split.
split=> // -[/matrixP /(_ 0 0)]. rewrite !mxE !big_ord_recl big_ord0 !mxE /= !mul0n !add0n.
case: Hz => Z0 Z1. rewrite !(Z0, Z1) !mul0r !addr0 => /eqP. by rewrite eq_sym oner_eq0.
Qed.
End Props.

Section Ints.
Import ZArith.
Local Open Scope Z_scope.
(** C77: the sizes fit the type int exactly up to 26754 steps. *)
Theorem C77_int_sizes (k : nat) :
  (forall s, s \in int_sizes k -> Z.of_nat s < 2 ^ 31) <-> Z.of_nat k <= 26754.
Proof.
change (2 ^ 31) with 2147483648.
split=> [H|Hk s].
- have := H (3 * k * k + 4 * k)%nat. rewrite !inE eqxx !orbT => /(_ isT). nia.
- rewrite !inE => Hs. nia.
Qed.
End Ints.

Definition C77_assumptions := (@C77_eigh_status, @C77_svd_status, @C77_contracts, @C77_long_double,
  @C77_long_double_of_doubles, @C77_long_double_svd, @C77_long_double_refuted, @C77_status_ignored,
  @C77_work_refuted, @C77_sample, @C77_unnoticed_refuted, @C77_int_sizes).
Print Assumptions C77_assumptions.

(** The hypotheses are met: there are routines that meet the contracts and report
    no failure. *)
Section Met.
Variable R : rcfType.

(** M in the leading rows of a column-major array of leading dimension ld *)
Definition placed k (M : 'M[R]_k.+1) (ld sz : nat) : seq R :=
  mkseq (fun p => M (inord (p %% ld)) (inord (p %/ ld))) sz.

Lemma placedE k (M : 'M[R]_k.+1) ld sz (r i : 'I_k.+1) : (k.+1 <= ld)%N -> (ld * k.+1 <= sz)%N ->
  (placed M ld sz)`_(i * ld + r) = M r i.
Proof.
move=> H1 H2. have Hr := ltn_ord r. have Hi := ltn_ord i. rewrite nth_mkseq; last by nia.
rewrite divnMDl ?modnMDl; last by lia. rewrite modn_small ?divn_small ?addn0 ?inord_val //; lia.
Qed.

Definition some_stev : stev_routine R := fun _ n d e z ldz _ =>
  if n is k.+1 then
    let x := xchoose (some_spectral k.+1 (nth 0 d) (nth 0 e)) in
    Some (mkseq (fun i => x.2 0 (inord i)) (size d), e, placed x.1 ldz (size z), 0)
  else Some (d, e, z, 0).

Definition some_bdsdc : bdsdc_routine R := fun _ _ n d e u ldu vt ldvt _ _ =>
  if n is k.+1 then
    if @idP [forall i : 'I_k.+1, d`_i != 0] is ReflectT H then
      let x := xchoose (@some_is_svd R k.+1 (nth 0 d) (nth 0 e) H) in
      Some (mkseq (fun i => x.2 0 (inord i)) (size d), e, placed x.1.1 ldu (size u), placed x.1.2 ldvt (size vt), 0)
    else Some (d, e, u, vt, 0)
  else Some (d, e, u, vt, 0).

Lemma some_stev_ok : stev_ok some_stev.
Proof.
move=> [//|k] d e z ldz work _ Hroom.
have [Hd Hl Hz] : [/\ (k.+1 <= size d)%N, (k.+1 <= ldz)%N & (ldz * k.+1 <= size z)%N].
{ by case: Hroom => [[? ? ? ? ?]|[_ [? ? ? ? ?]]]. }
rewrite /some_stev. set x := xchoose _. have /andP [/eqP H1 /eqP H2] : is_spectral _ x := xchooseP _.
eexists; eexists; eexists; eexists; split; first by [].
- by rewrite size_mkseq.
- by rewrite size_mkseq.
- move=> _. have -> : \matrix_(r < k.+1, i < k.+1) (placed x.1 ldz (size z))`_(i * ldz + r) = x.1.
  { apply/matrixP => r i. by rewrite mxE placedE. }
  have -> : \row_(i < k.+1) (mkseq (fun i => x.2 0 (inord i)) (size d))`_i = x.2.
  { apply/rowP => i. rewrite mxE nth_mkseq ?inord_val //. exact: leq_trans Hd. }
  by split.
Qed.

Lemma some_bdsdc_ok : bdsdc_ok some_bdsdc.
Proof.
move=> [//|k] d e u ldu vt ldvt work iwork _ [Hd _ [Hu1 Hu2] [Hv1 Hv2] _]. rewrite /some_bdsdc.
case: {-}_ / idP => [H|H]; last first.
{ exists d, e, u, vt, 0. split=> // _ Hnz. exfalso. apply: H. apply/forallP => i. exact: Hnz. }
set x := xchoose _. have /and3P [/eqP H1 /eqP H2 /eqP H3] : is_svd _ x := xchooseP _.
eexists; eexists; eexists; eexists; eexists; split; first by [].
- by rewrite size_mkseq.
- by rewrite size_mkseq.
- by rewrite size_mkseq.
- move=> _ _. have -> : \matrix_(r < k.+1, i < k.+1) (placed x.1.1 ldu (size u))`_(i * ldu + r) = x.1.1.
  { apply/matrixP => r i. by rewrite mxE placedE. }
  have -> : \matrix_(i < k.+1, r < k.+1) (placed x.1.2 ldvt (size vt))`_(r * ldvt + i) = x.1.2.
  { apply/matrixP => r i. by rewrite mxE placedE. }
  have -> : \row_(i < k.+1) (mkseq (fun i => x.2 0 (inord i)) (size d))`_i = x.2.
  { apply/rowP => i. rewrite mxE nth_mkseq ?inord_val //. exact: leq_trans Hd. }
  by split.
Qed.

Definition some_lapack : lapack R := Lapack some_stev some_stev some_bdsdc some_bdsdc.

Lemma some_lapack_ok : lapack_ok some_lapack.
Proof. by split; split; [exact: some_stev_ok | exact: some_stev_ok | exact: some_bdsdc_ok | exact: some_bdsdc_ok]. Qed.

Lemma some_lapack_succeeds : succeeds some_lapack.
Proof.
split=> /=.
- move=> _ [|k] d e z ldz work r [] [<-] //.
- move=> uplo compq [|k] d e u ldu vt ldvt work iwork r; rewrite /some_bdsdc; first by case=> -[<-].
  by case: {-}_ / idP => [H|H]; case=> -[<-].
Qed.
End Met.

Section Examples.
Let RA := [rcfType of realalg].
Let A : storage RA := Dense true [:: 2%:R; 1; 1; 2%:R].
Let half (x : RA) : RA := if x == 3%:R^-1 then 0 else x.

Example C77_case : exists est',
  slq_matrix (1 : RA) (fun k => nseq k 0) (eigh (fun k => nseq k 0) half (some_lapack RA) Double)
    (svd (fun k => nseq k 0) half (some_lapack RA) Double) id (fun x => x ^+ 3) 2 5 1 (-1) false A [::] 1 [:: false] [:: 1; 0] [:: 0]
    = Some ([:: false], est') /\
  exact_sample 5 (1 * Num.sqrt 2%:R) (fun x => x ^+ 3) (denotes A 2 2) (vec 2 [:: 1; 0]) est'`_0.
Proof.
have Hal : forall k, size (nseq k (0 : RA)) = k by move=> k; rewrite size_nseq.
have Hsym : (denotes A 2 2)^T = denotes A 2 2.
{ apply/matrixP => i j. rewrite !mxE. by case: i => [[|[|//]] Hi]; case: j => [[|[|//]] Hj]. }
have [H _] := @C77_sample RA 1 (fun k => nseq k 0) half (some_lapack RA) Double id (fun x => x ^+ 3) 1 5 1 (-1) A
  [:: 1; 0] [:: 0] [::] ltr01 Hal (fun E => ltac:(discriminate E)) (some_lapack_ok RA) (some_lapack_succeeds RA) isT ltr01 isT isT v_nz isT.
exact: H.
Qed.

Example C77_long_double_case : exists d z,
  eigh (fun k => nseq k 0) half (some_lapack RA) LongDouble 1 [:: 3%:R^-1] [:: 0] = Some (d, z) /\ d`_0 = 0.
Proof.
have Hal : forall k, size (nseq k (0 : RA)) = k by move=> k; rewrite size_nseq.
have Hne : half 3%:R^-1 <> 3%:R^-1.
{ rewrite /half eqxx => /esym /eqP. by rewrite invr_eq0 pnatr_eq0. }
have [d [z [E [Hd _]]]] := C77_long_double_refuted Hal 0 (some_lapack_ok RA) (some_lapack_succeeds RA) Hne.
exists d, z. split=> //. by rewrite Hd /half eqxx.
Qed.
End Examples.
