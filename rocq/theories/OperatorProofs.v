(** Proofs about the operators. *)
From mathcomp Require Import all_ssreflect all_algebra zify.
From Verif Require Import Mem KernelModel KernelSpec KernelProofs OperatorModel OperatorSpec.
Set Implicit Arguments.
Unset Strict Implicit.
Unset Printing Implicit Defensive.
Import GRing.Theory.
Local Open Scope ring_scope.

Section Proofs.
Variable R : comRingType.
Implicit Types (s A : storage R) (B : option (storage R)) (op : affine R) (v c : seq R).

Lemma writes_det n c (x : 'cV[R]_n) r1 r2 : (n <= size c)%N ->
  writes c x r1 -> writes c x r2 -> r1 = r2.
Proof.
  move=> Hn [c1 [-> E1 S1 H1]] [c2 [-> E2 S2 H2]]. congr Some.
  apply: (@eq_from_nth _ 0); first by rewrite S1 S2.
  move=> k _. case: (ltnP k n) => Hk; last by rewrite H1 // H2.
  have := congr1 (fun M : 'cV_n => M (Ordinal Hk) 0) (etrans E1 (esym E2)).
  by rewrite !mxE.
Qed.

Lemma dot_ok s m n v c : well_formed s m n -> (n <= size v)%N -> (m <= size c)%N ->
  writes c (denotes s m n *m vec n v) (dot s m n v c).
Proof.
  case: s => [rm A|d i p|d i p] /= Hw Hv Hc.
  - exact: dense_matvec_ok.
  - exact: csr_matvec_ok.
  - exact: csc_matvec_ok.
Qed.

Lemma dot_plus_ok s m n v t c : well_formed s m n -> (n <= size v)%N -> (m <= size c)%N ->
  writes c (vec m c + t *: (denotes s m n *m vec n v)) (dot_plus s m n v t c).
Proof.
  case: s => [rm A|d i p|d i p] /= Hw Hv Hc.
  - exact: dense_matvec_plus_ok.
  - exact: csr_matvec_plus_ok.
  - exact: csc_matvec_plus_ok.
Qed.

Lemma transpose_dot_ok s m n v c : well_formed s m n -> (m <= size v)%N -> (n <= size c)%N ->
  writes c ((denotes s m n)^T *m vec m v) (transpose_dot s m n v c).
Proof.
  case: s => [rm A|d i p|d i p] /= Hw Hv Hc.
  - exact: dense_transposed_matvec_ok.
  - exact: csr_transposed_matvec_ok.
  - exact: csc_transposed_matvec_ok.
Qed.

Lemma transpose_dot_plus_ok s m n v t c :
  well_formed s m n -> (m <= size v)%N -> (n <= size c)%N ->
  writes c (vec n c + t *: ((denotes s m n)^T *m vec m v)) (transpose_dot_plus s m n v t c).
Proof.
  case: s => [rm A|d i p|d i p] /= Hw Hv Hc.
  - exact: dense_transposed_matvec_plus_ok.
  - exact: csr_transposed_matvec_plus_ok.
  - exact: csc_transposed_matvec_plus_ok.
Qed.

(** ** The identity test *)

Lemma element_passesE r k (x : R) : element_passes r k x = (r != k) && (x == 0).
Proof.
  rewrite /element_passes. case: eqP => _ /=; last by case: eqP.
  case: (eqVneq x 1) => //= ->. by rewrite oner_neq0.
Qed.

Definition off_zero d i p lines := forall l q, (l < lines)%N ->
  (nth 0%N p l <= q < nth 0%N p l.+1)%N -> l <> nth 0%N i q /\ (d : seq R)`_q = 0.

Lemma scan_line (d : seq R) i p lines width l ok (sw : bool) :
  compressed_ok lines width d i p -> (l < lines)%N ->
  exists2 b, (if ~~ ok then Some false else
     do first <- rd p l; do last <- rd p l.+1;
     for_ first last 1
       (fun q ok =>
          if ~~ ok then Some false else
          do k <- rd i q; do x <- rd d q;
          Some (if sw then element_passes k l x else element_passes l k x)) ok) = Some b &
    (b : Prop) <-> ok /\ forall q, (nth 0%N p l <= q < nth 0%N p l.+1)%N ->
       l <> nth 0%N i q /\ d`_q = 0.
Proof.
  move=> [Hp Hok] Hl. case: ok; last by exists false => //; split => // - [].
  rewrite (rdE 0%N (ltn_trans Hl Hp)) /= (rdE 0%N (leq_ltn_trans Hl Hp : l.+1 < size p)%N) /=.
  case: (leqP (nth 0%N p l.+1) (nth 0%N p l)) => Hle.
  { exists true; first by rewrite for_empty.
    split => // _. split => // q Hq. lia. }
  pose I e (b : bool) := (b : Prop) <-> forall q, (nth 0%N p l <= q < e)%N ->
    l <> nth 0%N i q /\ d`_q = 0.
  have [b E HI] : exists2 b, for_ (nth 0%N p l) (nth 0%N p l.+1) 1
     (fun q ok => if ~~ ok then Some false else
        do k <- rd i q; do x <- rd d q;
        Some (if sw then element_passes k l x else element_passes l k x)) true = Some b
     & I (nth 0%N p l.+1) b.
  { apply: for1_inv; [exact: ltnW | by split => // _ q Hq; lia |].
    move=> q b Hq Hb. have [H1 H2 H3] := Hok l q Hl Hq.
    case Eb : b; last first.
    { exists false => //. rewrite /I. split => // H. move: Hb. rewrite Eb => - [_]. apply.
      move=> q' Hq'. apply: H. lia. }
    rewrite /= (rdE 0%N H2) /= (rdE 0 H1) /=.
    eexists; first reflexivity. move: Hb. rewrite Eb => - [Hb _].
    have Hbq := Hb isT.
    have -> : (if sw then element_passes (nth 0%N i q) l d`_q
               else element_passes l (nth 0%N i q) d`_q) =
              (l != nth 0%N i q) && (d`_q == 0).
    { by case: sw; rewrite element_passesE // eq_sym. }
    split.
    - move=> /andP [/eqP Hne /eqP Hz] q' Hq'. case: (eqVneq q' q) => [->//|Hn].
      apply: Hbq. lia.
    - move=> H. have Hq2 : (nth 0%N p l <= q < q.+1)%N by lia.
      have [Hne ->] := H q Hq2. by rewrite eqxx andbT; apply/eqP. }
  exists b; first exact: E. case: HI => HI1 HI2. split => [/HI1 H|[_ H]]; by [split|apply: HI2].
Qed.

Lemma scan_lines (d : seq R) i p lines width (sw : bool) :
  compressed_ok lines width d i p ->
  exists2 b, for_ 0 lines 1
    (fun l ok =>
     if ~~ ok then Some false else
     do first <- rd p l; do last <- rd p l.+1;
     for_ first last 1
       (fun q ok =>
          if ~~ ok then Some false else
          do k <- rd i q; do x <- rd d q;
          Some (if sw then element_passes k l x else element_passes l k x)) ok) true = Some b &
    (b : Prop) <-> off_zero d i p lines.
Proof.
  move=> Hw.
  pose I e (b : bool) := (b : Prop) <-> off_zero d i p e.
  apply: (@for1_inv _ I); first exact: leq0n.
  - by rewrite /I; split => // _ l q; rewrite ltn0.
  - move=> l ok /andP [_ Hl] HI.
    have [b E Hb] := scan_line ok sw Hw Hl. exists b; first exact: E.
    case: Hb => Hb1 Hb2. split.
    + move=> /Hb1 [Hok H] l' q Hl' Hq. move: HI => [/(_ Hok) HI _].
      case: (eqVneq l' l) => [El|Hn]; first by rewrite El in Hq *; exact: H.
      apply: HI => //. lia.
    + move=> H. apply: Hb2. split.
      * apply/HI => l' q Hl'. apply: H. lia.
      * move=> q Hq. apply: H => //.
Qed.

Lemma identity_csr (d : seq R) i p m n : compressed_ok m n d i p ->
  exists2 b, is_identity_matrix (Csr d i p) m n = Some b & (b : Prop) <-> off_zero d i p m.
Proof. move=> Hw. exact: (scan_lines false Hw). Qed.

Lemma identity_csc (d : seq R) i p m n : compressed_ok n m d i p ->
  exists2 b, is_identity_matrix (Csc d i p) m n = Some b & (b : Prop) <-> off_zero d i p n.
Proof. move=> Hw. exact: (scan_lines true Hw). Qed.

Lemma identity_dense rm (A : seq R) m n : (m * n <= size A)%N ->
  is_identity_matrix (Dense rm A) m n = Some ((m == 0%N) || (n == 0%N)).
Proof.
  move=> HA.
  case: (posnP n) => [->|Hn].
  { rewrite orbT. pose I (e : nat) (b : bool) := b = true.
    have [b -> -> //] : exists2 b, is_identity_matrix (Dense rm A) m 0 = Some b & I m b.
    apply: for1_inv => // row ok _ ->. exists true => //. }
  rewrite orbF.
  pose I e (b : bool) := b = (e == 0%N).
  have [b -> -> //] : exists2 b, is_identity_matrix (Dense rm A) m n = Some b & I m b.
  apply: for1_inv => // row ok /andP [_ Hr] ->.
  pose J e (b : bool) := b = (row == 0%N) && (e == 0%N).
  have [b E Hb] : exists2 b, for_ 0 n 1
     (fun column ok =>
        if ~~ ok then Some false else
        do x <- rd A (if rm then (row * n + column)%N else (column * m + row)%N);
        Some (element_passes row column x)) (row == 0%N) = Some b & J n b; last first.
  { exists b; first exact: E. by rewrite /I Hb (gtn_eqF Hn) andbF. }
  apply: for1_inv => //; first by rewrite /J eqxx andbT.
  move=> k b /andP [_ Hk] ->.
  case E : (_ && _); last by exists false => //=; rewrite /J andbF.
  rewrite /= (rdE 0); last first.
  { case: rm; first exact: leq_trans (dense_index_row Hr Hk) HA.
    rewrite addnC mulnC. exact: leq_trans (dense_index_col Hr Hk) HA. }
  eexists; first reflexivity. rewrite element_passesE /J andbF.
  by case/andP: E => /eqP -> /eqP ->.
Qed.

(** If the test says identity, the matrix is either empty or zero. *)
Lemma identity_total s m n : well_formed s m n -> exists b, is_identity_matrix s m n = Some b.
Proof.
  case: s => [rm A|d i p|d i p] Hw.
  - rewrite identity_dense //. by eexists.
  - have [b E _] := identity_csr Hw. by exists b.
  - have [b E _] := identity_csc Hw. by exists b.
Qed.

Lemma identity_zero s m n : well_formed s m n -> is_identity_matrix s m n = Some true ->
  denotes s m n = 0.
Proof.
  case: s => [rm A|d i p|d i p] Hw.
  - rewrite identity_dense // => - [] /orP [] /eqP E.
    + apply/matrixP => i. exfalso. move: i. rewrite E => - [] //.
    + apply/matrixP => i j. exfalso. move: j. rewrite E => - [] //.
  - have [b -> Hb] := identity_csr Hw. move=> [Eb]. move: Hb. rewrite Eb => - [/(_ isT) H _].
    apply/matrixP => k j. rewrite !mxE big_nat_cond big1 // => q /andP [Hq _].
    by have [] := H k q (ltn_ord k) Hq.
  - have [b -> Hb] := identity_csc Hw. move=> [Eb]. move: Hb. rewrite Eb => - [/(_ isT) H _].
    apply/matrixP => k j. rewrite !mxE big_nat_cond big1 // => q /andP [Hq _].
    by have [] := H j q (ltn_ord j) Hq.
Qed.

(** ** Affine functions *)

Lemma eye_mulE m n v :
  eye R m n *m vec n v = \col_(i < m) (if (i < n)%N then v`_i else 0).
Proof.
  apply/matrixP => i j. rewrite !mxE. case: ltnP => Hi.
  - rewrite (bigD1 (Ordinal Hi)) //= !mxE eqxx mul1r big1 ?addr0 // => k Hk.
    rewrite !mxE. case: eqP => [E|]; last by rewrite mul0r.
    case/eqP: Hk. exact/val_inj/esym.
  - rewrite big1 // => k _. rewrite !mxE. case: eqP => [E|]; last by rewrite mul0r.
    by move: (ltn_ord k); rewrite -E ltnNge Hi.
Qed.

Lemma trmx_eye m n : (eye R m n)^T = eye R n m.
Proof. apply/matrixP => i j. by rewrite !mxE eq_sym. Qed.

Lemma add_scaled_eye m n v t c : (n <= size v)%N -> (m <= size c)%N ->
  writes c (vec m c + t *: (eye R m n *m vec n v))
    (add_scaled_vector v (minn m n) t c).
Proof.
  move=> Hv Hc. rewrite /add_scaled_vector.
  have H1 : (minn m n <= size v)%N by rewrite (leq_trans (geq_minr _ _)).
  have H2 : (minn m n <= size c)%N by rewrite (leq_trans (geq_minl _ _)).
  have [c' [E1 E2 E3 E4]] := subtract_scaled_vector_ok (- t) H1 H2.
  exists c'. split => //.
  - apply/matrixP => i j. rewrite eye_mulE !mxE. case: (ltnP i n) => Hi.
    + have Hm : (i < minn m n)%N by rewrite leq_min ltn_ord.
      have := congr1 (fun M : 'cV_(minn m n) => M (Ordinal Hm) 0) E2.
      by rewrite !mxE /= mulNr opprK.
    + rewrite E4 ?mulr0 ?addr0 //. by rewrite geq_min Hi orbT.
  - move=> k Hk. apply: E4. by rewrite geq_min Hk.
Qed.

Lemma minn_if m n : (if (m < n)%N then m else n) = minn m n.
Proof. by rewrite /minn. Qed.

Lemma writes_then m c (x y : 'cV[R]_m) r f : writes c x r ->
  (forall c1, vec m c1 = x -> size c1 = size c -> writes c1 y (f c1)) -> writes c y (obind f r).
Proof.
  move=> [c1 [-> E1 S1 H1]] H. have [c2 [E2 V2 S2 H2]] := H c1 E1 S1.
  exists c2. split => //; first by rewrite S2.
  move=> k Hk. by rewrite H2 // H1.
Qed.

(** A usable object. *)
Definition good op A B m n :=
  [/\ mat_A op = A, well_formed A m n &
      if B_is_identity op then matrix_of_B B m n = eye R m n
      else exists2 s, B = Some s & well_formed s m n /\ mat_B op = Some s].

Lemma affine_dot_ok op A B m n v c t p : good op A B m n -> parameters op = Some (t :: p) ->
  (n <= size v)%N -> (m <= size c)%N ->
  writes c ((denotes A m n + t *: matrix_of_B B m n) *m vec n v) (affine_dot op m n v c).
Proof.
  move=> [EA HA HB] Ep Hv Hc. rewrite /affine_dot EA.
  apply: writes_then (dot_ok HA Hv Hc) _ => c1 E1 S1. rewrite Ep /=.
  have Hc1 : (m <= size c1)%N by rewrite S1.
  rewrite mulmxDl -scalemxAl -E1. case: (B_is_identity op) HB => [->|[s -> [Hs ->]]].
  - rewrite minn_if. exact: add_scaled_eye.
  - exact: dot_plus_ok.
Qed.

Lemma affine_transpose_dot_ok op A B m n v c t p :
  good op A B m n -> parameters op = Some (t :: p) ->
  (m <= size v)%N -> (n <= size c)%N ->
  writes c ((denotes A m n + t *: matrix_of_B B m n)^T *m vec m v)
    (affine_transpose_dot op m n v c).
Proof.
  move=> [EA HA HB] Ep Hv Hc. rewrite /affine_transpose_dot EA.
  apply: writes_then (transpose_dot_ok HA Hv Hc) _ => c1 E1 S1. rewrite Ep /=.
  have Hc1 : (n <= size c1)%N by rewrite S1.
  rewrite linearD linearZ /= mulmxDl -scalemxAl -E1.
  case: (B_is_identity op) HB => [->|[s -> [Hs ->]]].
  - rewrite minn_if minnC trmx_eye. exact: add_scaled_eye.
  - exact: transpose_dot_plus_ok.
Qed.

Lemma good_set op A B m n p : good op A B m n -> good (set_parameters op p) A B m n.
Proof. by []. Qed.

Lemma good_run op A B m n calls r : good op A B m n -> run op m n calls = Some r ->
  good r.1 A B m n.
Proof.
  elim: calls op r => [|[p|v c|v c] calls IH] op r Hg /=; first by move=> [<-].
  - apply: IH. exact: good_set.
  - case: affine_dot => //= x. case E : run => [y|] //= [<-] /=. exact: IH Hg E.
  - case: affine_transpose_dot => //= x. case E : run => [y|] //= [<-] /=. exact: IH Hg E.
Qed.

Lemma good_new A B m n op : well_formed A m n ->
  (forall s, B = Some s -> well_formed s m n /\ denotes s m n <> 0) ->
  new_affine A B m n = Some op -> good op A B m n.
Proof.
  move=> HA HB. case: B HB => [s|] HB /=; last by move=> [<-].
  have [Hs Hnz] := HB s erefl.
  case E : is_identity_matrix => [[]|] //= [<-].
  - by have := identity_zero Hs E.
  - split => //=. by exists s.
Qed.

Lemma new_affine_total A B m n : well_formed A m n ->
  (forall s, B = Some s -> well_formed s m n) -> exists op, new_affine A B m n = Some op.
Proof.
  move=> HA HB. case: B HB => [s|] HB /=; last by eexists.
  have [b ->] := identity_total (HB s erefl). by eexists.
Qed.

(** The last parameter set by a history. *)
Fixpoint last_parameters (p : option (seq R)) (calls : seq (call R)) : option (seq R) :=
  match calls with
  | [::] => p
  | SetParameters q :: rest => last_parameters (Some q) rest
  | _ :: rest => last_parameters p rest
  end.

Lemma run_parameters op m n calls r : run op m n calls = Some r ->
  parameters r.1 = last_parameters (parameters op) calls.
Proof.
  elim: calls op r => [|[p|v c|v c] calls IH] op r /=; first by move=> [<-].
  - by move=> /IH.
  - case: affine_dot => //= x. case E : run => [y|] //= [<-] /=. exact: IH E.
  - case: affine_transpose_dot => //= x. case E : run => [y|] //= [<-] /=. exact: IH E.
Qed.

Lemma run_cat op m n h h' r : run op m n h = Some r ->
  run op m n (h ++ h') = omap (fun y => (y.1, r.2 ++ y.2)) (run r.1 m n h').
Proof.
  elim: h op r => [|[p|v c|v c] h IH] op r /=.
  - move=> [<-] /=. by case: run => [[]|].
  - exact: IH.
  - case: affine_dot => //= x. case E : run => [y|] //= [<-] /=.
    rewrite (IH _ _ E). by case: run.
  - case: affine_transpose_dot => //= x. case E : run => [y|] //= [<-] /=.
    rewrite (IH _ _ E). by case: run.
Qed.

(** A call that fits the shape of the operator. *)
Definition fits m n (x : call R) : bool :=
  match x with
  | SetParameters p => (0 < size p)%N
  | Dot v c => (n <= size v)%N && (m <= size c)%N
  | TransposeDot v c => (m <= size v)%N && (n <= size c)%N
  end.

Lemma run_total op A B m n calls t p : good op A B m n -> parameters op = Some (t :: p) ->
  all (fits m n) calls -> exists r, run op m n calls = Some r.
Proof.
  elim: calls op t p => [|[q|v c|v c] calls IH] op t p Hg Hp; first by eexists.
  - move=> /andP [/=]. case: q => [|t' q] // _ Hall. exact: (IH (set_parameters op (t' :: q)) t' q).
  - move=> /andP [/andP [Hv Hc] Hall]. have [c' [E _ _ _]] := affine_dot_ok Hg Hp Hv Hc.
    have [r Er] := IH op t p Hg Hp Hall. by exists (r.1, c' :: r.2); rewrite /= E /= Er.
  - move=> /andP [/andP [Hv Hc] Hall]. have [c' [E _ _ _]] := affine_transpose_dot_ok Hg Hp Hv Hc.
    have [r Er] := IH op t p Hg Hp Hall. by exists (r.1, c' :: r.2); rewrite /= E /= Er.
Qed.

Lemma last_parameters_cat q h h' :
  last_parameters q (h ++ h') = last_parameters (last_parameters q h) h'.
Proof. by elim: h q => [|[p|v c|v c] h IH] q //=. Qed.

Definition sets (x : call R) : bool := if x is SetParameters _ then true else false.

Lemma last_parameters_none q h : all (fun x => ~~ sets x) h -> last_parameters q h = q.
Proof. by elim: h q => [|[p|v c|v c] h IH] q //=; apply: IH. Qed.

Lemma run_after_set op m n h t p h' r :
  run op m n (h ++ SetParameters (t :: p) :: h') = Some r -> all (fun x => ~~ sets x) h' ->
  parameters r.1 = Some (t :: p).
Proof.
  move=> /run_parameters -> Hn. by rewrite last_parameters_cat /= last_parameters_none.
Qed.

End Proofs.
