(** Theorems C14, C15, C18, C19, C20: samples of the stochastic Lanczos
    quadrature.  Arithmetic is exact, over any real closed field. *)
From mathcomp Require Import all_ssreflect all_algebra.
From mathcomp Require Import zify.
From mathcomp.real_closed Require Import realalg.
From Verif Require Import Mem KernelModel KernelSpec KernelProofs.
From Verif Require Import OperatorModel OperatorSpec OperatorProofs.
From Verif Require Import LanczosModel LanczosSpec LanczosMath LanczosProofs GolubKahnProofs.
From Verif Require Import Spectral SlqModel SlqSpec SlqProofs ExactProofs.
Set Implicit Arguments.
Unset Strict Implicit.
Unset Printing Implicit Defensive.
Import GRing.Theory Num.Theory Order.TTheory.
Local Open Scope ring_scope.

Section Props.
Variable R : rcfType.

(** [x] is a quadrature sample of n v^T g(M) v / v^T v: there are k+1 <= m Lanczos
    steps, fewer than m only when the remainder r is below the tolerance, and the
    sample is exact for every polynomial of degree at most 2(k+1) - 1, for every
    polynomial if r = 0, and for every function whatsoever if r = 0. *)
Definition exact_sample (n m : nat) (tolerance : R) (g : R -> R) (M : 'M[R]_n.+1) (w : 'cV[R]_n.+1)
    (x : R) : Prop :=
  exists k (V : 'M[R]_(n.+1, k.+1)) T r,
    [/\ lanczos_result M w V T r, (k < m)%N, (k.+1 < m)%N -> nrm r < tolerance,
        forall p : {poly R}, (size p <= 2 * k.+1)%N \/ r = 0 -> (forall y, g y = p.[y]) ->
          x = n.+1%:R * rayleigh (horner_mx M p) w &
        r = 0 -> forall P e, spectral M P e ->
          x = n.+1%:R * rayleigh (matrix_function g P e) w].

(** The same for g(A^T A), after k+1 <= m Golub-Kahn steps. *)
Definition exact_gram_sample (n m : nat) (tolerance : R) (g : R -> R) (A : 'M[R]_n.+1)
    (w : 'cV[R]_n.+1) (x : R) : Prop :=
  exists k (U V : 'M[R]_(n.+1, k.+1)) B y,
    [/\ golub_kahn_result A w U V B y, (k < m)%N, (k.+1 < m)%N -> nrm y < tolerance,
        forall p : {poly R}, (size p <= 2 * k.+1)%N \/ y = 0 -> (forall z, g z = p.[z]) ->
          x = n.+1%:R * rayleigh (horner_mx (A^T *m A) p) w &
        y = 0 -> forall P e, spectral (A^T *m A) P e ->
          x = n.+1%:R * rayleigh (matrix_function g P e) w].

Section Slq.
(** Machine epsilon, uninitialised memory, LAPACK. *)
Variable eps : R.
Hypothesis eps_gt0 : 0 < eps.
Variable alloc : nat -> seq R.
Hypothesis size_alloc : forall k, size (alloc k) = k.
Variable eigh svd : nat -> seq R -> seq R -> option (seq R * seq R).
Hypothesis eigh_ok : eigh_contract eigh.
Hypothesis svd_ok : svd_contract svd.
(** The exponent, the function, the size, the degree, the tolerance and the
    reorthogonalisation setting. *)
Variable pw f : R -> R.
Variable n' m : nat.
Notation n := n'.+1.
Hypothesis m_gt0 : (0 < m)%N.
Variable tol : R.
Hypothesis tol_gt0 : 0 < tol.
Variable orth : int.

Notation tolerance := (tol * Num.sqrt n%:R).
Notation g := (fun x => f (pw x)).
Notation slq_matrix := (slq_matrix eps alloc eigh svd pw f n m tol orth).
Notation slq_affine := (slq_affine eps alloc eigh svd pw f n m tol orth).

Lemma value_sym Mat (p : seq R) w x : (Mat p)^T = Mat p -> w != 0 ->
  value_of (n' := n') Mat pw f m tol false p w x -> exact_sample m tolerance g (Mat p) w x.
Proof.
  move=> HM Hw [k [Q [d [Hs Hsp ->]]]].
  rewrite /offdiag in Hs. rewrite /projected in Hsp. set M := Mat p in HM Hs Hsp *.
  have Hal := stops_alive tol_gt0 Hs. case: Hs => H1 H2 H3.
  exists k, (basis M w k), (Tm M w k), (lzr M w k). split => //.
  - exact: lanczos_result_ok.
  - move=> q Hq Hg. by rewrite (exact_poly Hw HM Hal Hsp Hq).
  - move=> Hr P e HP. by rewrite (exact_any Hw HM Hal _ Hsp Hr HP).
Qed.

Lemma value_gram Mat (p : seq R) w x : (forall y : 'cV_n, Mat p *m y = 0 -> y = 0) -> w != 0 ->
  value_of (n' := n') Mat pw f m tol true p w x -> exact_gram_sample m tolerance g (Mat p) w x.
Proof.
  move=> HM Hw [k [Q [d [Hs Hsp ->]]]].
  rewrite /offdiag in Hs. rewrite /projected in Hsp. set M := Mat p in HM Hs Hsp *.
  case: Hs => H1 H2 H3.
  have Hal := stops_gkalive tol_gt0 Hw HM H2.
  have Ha : gka M w k != 0 by exact: gk_injective.
  exists k, (gkU M w k), (gkV M w k), (gkB M w k), (gky M w k). split => //.
  - exact: golub_kahn_result_ok.
  - move=> q Hq Hg. by rewrite (gram_exact_poly Hw Hal Ha Hsp Hq).
  - move=> Hr P e HP. by rewrite (gram_exact_any Hw Hal Ha _ Hsp Hr HP).
Qed.

Lemma Tm_shift (M : 'M[R]_n) w k t : M^T = M -> w != 0 -> alive M w k -> Tm (M + t%:M) w k = Tm M w k + t%:M.
Proof.
  move=> HM Hw Hal. apply/matrixP => a b. rewrite [RHS]mxE [t%:M _ _]mxE /Tm [LHS]mxE [tridiag _ _ _ _ _]mxE.
  have Ha : (a <= k)%N := ltn_ord a. have Hb : (b <= k)%N := ltn_ord b.
  have -> : (a == b) = (a == b :> nat) by [].
  case: (altP (a =P b :> nat)) => Hab.
  - rewrite mulr1n shift_a //. exact: alive_le Ha Hal.
  - rewrite mulr0n addr0. case: eqP => Hb1.
    + rewrite shift_b //. exact: alive_le Ha Hal.
    + case: eqP => _; last by []. rewrite shift_b //. exact: alive_le Hb Hal.
Qed.

Lemma stops_shift (M : 'M[R]_n) w k t : M^T = M -> w != 0 -> stops n' m tol (lzb M w) k ->
  stops n' m tol (lzb (M + t%:M) w) k.
Proof.
  move=> HM Hw Hst. have Hal := stops_alive tol_gt0 Hst. case: Hst => H1 H2 H3.
  split; first exact: H1.
  - move=> i Hi. have Hi' := alive_le (ltnW Hi) Hal. by rewrite (shift_b t HM Hw Hi'); exact: H2.
  - by rewrite (shift_b t HM Hw Hal).
Qed.

Lemma value_shift Mat (p q : seq R) w k Q d t : (Mat p)^T = Mat p -> w != 0 -> Mat q = Mat p + t%:M ->
  stops n' m tol (lzb (Mat p) w) k -> spectral (Tm (Mat p) w k) Q d ->
  value_of (n' := n') Mat pw f m tol false q w
    (n%:R * matrix_function g Q (\row_i (d 0 i + t)) 0 0).
Proof.
  move=> HM Hw E Hst Hsp. exists k, Q, (\row_i (d 0 i + t)). rewrite /offdiag /projected E.
  split; last by [].
  - exact: stops_shift.
  - have Hal := stops_alive tol_gt0 Hst. rewrite (Tm_shift t HM Hw Hal). exact: spectral_shift.
Qed.

Lemma matrix_each gram (A : storage R) (params : seq R) (conv : seq bool) (v est : seq R) num :
  (0 < num)%N -> well_formed A n n ->
  (if gram then forall x : 'cV_n, denotes A n n *m x = 0 -> x = 0
   else (denotes A n n)^T = denotes A n n) ->
  (num <= size conv)%N -> (num <= size est)%N -> (n <= size v)%N -> vec n v != 0 ->
  exists est', [/\ slq_matrix gram A params num conv v est = Some (conv, est'),
    size est' = size est,
    (forall j, (j < num)%N -> nth false conv j -> est'`_j = est`_j),
    (forall j, (j < num)%N -> ~~ nth false conv j ->
       value_of (fun _ => denotes A n n) pw f m tol gram [::] (vec n v) est'`_j) &
    (forall j, (num <= j)%N -> est'`_j = est`_j)].
Proof.
  move=> Hnum HA Hadm Sc Se Sv Hv.
  have Hset : forall (op : storage R) (q : seq R), op = A -> op = A by [].
  have Hdot : forall (op : storage R) (q x c : seq R), op = A -> (0 <= size q)%N -> (n <= size x)%N ->
    (n <= size c)%N -> writes c (denotes A n n *m vec n x) (dot op n n x c).
  { move=> op q x c -> _ Hx Hc. exact: dot_ok. }
  have Htdot : forall (op : storage R) (q x c : seq R), op = A -> (0 <= size q)%N -> (n <= size x)%N ->
    (n <= size c)%N -> writes c ((denotes A n n)^T *m vec n x) (transpose_dot op n n x c).
  { move=> op q x c -> _ Hx Hc. exact: transpose_dot_ok. }
  have Hp : (num * 0 <= size params)%N by rewrite muln0.
  have [est' [H1 H2 H3 H4 H5]] := slq_each (op := A) (relation_known := fun _ => false)
    (set_params := fun op _ => op) (op_dot := fun op x c => dot op n n x c)
    (op_tdot := fun op x c => transpose_dot op n n x c) (good := fun op => op = A) eps_gt0 size_alloc
    (fun _ _ _ => None) (Mat := fun _ => denotes A n n)
    Hset Hdot Htdot eigh_ok svd_ok pw f m_gt0 tol_gt0 orth Hnum erefl Hp Sc Se (fun _ _ => Hadm) Sv Hv isT.
  by exists est'.
Qed.

(** C18. One sample of a symmetric matrix in any storage. *)
Theorem C18_sample_exact : forall (A : storage R) (v est params : seq R),
  well_formed A n n -> (denotes A n n)^T = denotes A n n ->
  (n <= size v)%N -> vec n v != 0 -> (0 < size est)%N ->
  exists est', slq_matrix false A params 1 [:: false] v est = Some ([:: false], est') /\
    exact_sample m tolerance g (denotes A n n) (vec n v) est'`_0.
Proof.
  move=> A v est params HA Hs Sv Hv Se.
  have [est' [E _ _ H _]] := matrix_each (gram := false) params (conv := [:: false])
    (num := 1) isT HA Hs isT Se Sv Hv.
  exists est'. split=> //. exact: value_sym Hs Hv (H 0%N isT isT).
Qed.

(** C20. One sample in gram mode of a matrix with trivial null space. *)
Theorem C20_gram_sample_partial : forall (A : storage R) (v est params : seq R),
  well_formed A n n -> (forall x : 'cV_n, denotes A n n *m x = 0 -> x = 0) ->
  (n <= size v)%N -> vec n v != 0 -> (0 < size est)%N ->
  exists est', slq_matrix true A params 1 [:: false] v est = Some ([:: false], est') /\
    exact_gram_sample m tolerance g (denotes A n n) (vec n v) est'`_0.
Proof.
  move=> A v est params HA Hs Sv Hv Se.
  have [est' [E _ _ H _]] := matrix_each (gram := true) params (conv := [:: false])
    (num := 1) isT HA Hs isT Se Sv Hv.
  exists est'. split=> //. exact: (@value_gram (fun _ => denotes A n n)) Hs Hv (H 0%N isT isT).
Qed.

(** ** Affine matrix functions *)

(** The operator object in whatever state earlier calls left it. *)
Definition affine_object (A : storage R) (B : option (storage R)) (op : affine R) : Prop :=
  exists op0 calls results,
    new_affine A B n n = Some op0 /\ run op0 n n calls = Some (op, results).

Lemma relation_set (op : affine R) p :
  eigenvalue_relation_known (set_parameters op p) = eigenvalue_relation_known op.
Proof. by []. Qed.

Lemma relation_run (op : affine R) calls r : run op n n calls = Some r ->
  eigenvalue_relation_known r.1 = eigenvalue_relation_known op /\
  B_is_identity r.1 = B_is_identity op.
Proof.
  elim: calls op r => [|[p|v c|v c] calls IH] op r /=; first by move=> [<-].
  - by move=> /IH.
  - case: affine_dot => //= c'. by case Er : (run op n n calls) => [r'|] //= [<-] /=; exact: IH Er.
  - case: affine_transpose_dot => //= c'.
    by case Er : (run op n n calls) => [r'|] //= [<-] /=; exact: IH Er.
Qed.

Lemma object_good A B op : well_formed A n n ->
  (forall s, B = Some s -> well_formed s n n /\ denotes s n n <> 0) ->
  affine_object A B op ->
  good op A B n n /\ (eigenvalue_relation_known op -> matrix_of_B B n n = 1%:M).
Proof.
  move=> HA HB [op0 [calls [rs [E0 Er]]]].
  have Hg0 := good_new HA HB E0. have Hg := good_run Hg0 Er.
  split=> // Hk. have [E1 E2] := relation_run Er.
  have E3 : eigenvalue_relation_known op0 = B_is_identity op0.
  { move: E0 => /=. case: (B) => [s|] /=; last by case=> <-.
    by case: is_identity_matrix => //= b [<-]. }
  case: Hg => _ _. rewrite E2 -E3 -E1 Hk => ->. by apply/matrixP => i j; rewrite !mxE.
Qed.

Section Affine.
Variable A : storage R.
Variable B : option (storage R).
Hypothesis A_wf : well_formed A n n.
Hypothesis B_wf : forall s, B = Some s -> well_formed s n n /\ denotes s n n <> 0.
Let Mat (p : seq R) := denotes A n n + p`_0 *: matrix_of_B B n n.

Lemma aff_dot op (p x c : seq R) : good op A B n n -> (1 <= size p)%N -> (n <= size x)%N ->
  (n <= size c)%N -> writes c (Mat p *m vec n x) (affine_dot (set_parameters op p) n n x c).
Proof.
  move=> Hg. case: p => // t p _ Sx Sc.
  exact: (affine_dot_ok (t := t) (p := p) (good_set (t :: p) Hg) erefl Sx Sc).
Qed.

Lemma aff_tdot op (p x c : seq R) : good op A B n n -> (1 <= size p)%N -> (n <= size x)%N ->
  (n <= size c)%N ->
  writes c ((Mat p)^T *m vec n x) (affine_transpose_dot (set_parameters op p) n n x c).
Proof.
  move=> Hg. case: p => // t p _ Sx Sc.
  exact: (affine_transpose_dot_ok (t := t) (p := p) (good_set (t :: p) Hg) erefl Sx Sc).
Qed.

Definition aff_each := @slq_each R eps eps_gt0 alloc size_alloc n' (affine R) (@set_parameters R)
  (fun op x c => affine_dot op n n x c) (fun op x c => affine_transpose_dot op n n x c)
  (@eigenvalue_relation_known R) (@get_eigenvalue R) 1 Mat (fun op => good op A B n n)
  (fun _ q => good_set q) aff_dot aff_tdot eigh svd eigh_ok svd_ok pw f m m_gt0 tol tol_gt0 orth.

Definition aff_shifted := @slq_shifted R eps eps_gt0 alloc size_alloc n' (affine R) (@set_parameters R)
  (fun op x c => affine_dot op n n x c) (fun op x c => affine_transpose_dot op n n x c)
  (@eigenvalue_relation_known R) (@get_eigenvalue R) 1 Mat (fun op => good op A B n n)
  (fun _ q => good_set q) aff_dot aff_tdot eigh svd eigh_ok svd_ok pw f m m_gt0 tol tol_gt0 orth.

Lemma aff_single gram op t (conv : seq bool) (v est : seq R) : good op A B n n -> 
  admissible Mat gram [:: t] -> (n <= size v)%N -> vec n v != 0 -> (0 < size est)%N ->
  exists est', slq_affine gram op [:: t] 1 [:: false] v est = Some ([:: false], est') /\
    value_of Mat pw f m tol gram [:: t] (vec n v) est'`_0.
Proof.
  move=> Hg Had Sv Hv Se.
  have Had' : forall j, (j < 1)%N -> admissible Mat gram (drop (j * 1) [:: t]) by case.
  have Hk : ~~ (eigenvalue_relation_known op && (1 < 1)%N) by rewrite andbF.
  have [est' [H1 H2 H3 H4 H5]] := @aff_each gram op [:: t] 1 [:: false] v est isT Hg isT isT Se Had' Sv Hv Hk.
  exists est'. split=> //. exact: (H4 0%N isT isT).
Qed.

Lemma value_ext gram (Mat' : seq R -> 'M[R]_n) p q w x : Mat p = Mat' q ->
  value_of Mat pw f m tol gram p w x -> value_of Mat' pw f m tol gram q w x.
Proof. by move=> E [k [Q [d H]]]; exists k, Q, d; move: H; rewrite /offdiag /projected E. Qed.

Lemma value_take0 gram (p : seq R) w x :
  value_of Mat pw f m tol gram p w x -> value_of Mat pw f m tol gram [:: p`_0] w x.
Proof. exact: value_ext. Qed.

End Affine.

(** C14. Many parameters in one call: A + t_j B symmetric, B omitted or given
    (and not the zero matrix, see C13), the operator in any earlier state.
    Whether or not the shift of eigenvalues is used, the entry of every inquiry
    not marked as converged is what a call for t_j alone returns, with the same
    random vector. *)
Theorem C14_many_parameters : forall (A : storage R) (B : option (storage R)) (op : affine R)
    (ts : seq R) (conv : seq bool) (v est : seq R),
  well_formed A n n ->
  (forall s, B = Some s -> well_formed s n n /\ denotes s n n <> 0) ->
  affine_object A B op ->
  (0 < size ts)%N -> (size ts <= size conv)%N -> (size ts <= size est)%N ->
  (forall t, t \in ts ->
    (denotes A n n + t *: matrix_of_B B n n)^T = denotes A n n + t *: matrix_of_B B n n) ->
  (n <= size v)%N -> vec n v != 0 ->
  exists conv' est', slq_affine false op ts (size ts) conv v est = Some (conv', est') /\
    forall j, (j < size ts)%N -> ~~ nth false conv j ->
    forall est1, (0 < size est1)%N ->
    exists est1', slq_affine false op [:: ts`_j] 1 [:: false] v est1 = Some ([:: false], est1') /\
      est1'`_0 = est'`_j.
Proof.
  move=> A B op ts conv v est HA HB Hop Hts Sc Se Hsym Sv Hv.
  have [Hg Hid] := object_good HA HB Hop.
  set Mat := fun p : seq R => denotes A n n + p`_0 *: matrix_of_B B n n.
  have Edrop : forall j, (drop (j * 1) ts)`_0 = ts`_j.
  { move=> j. by rewrite muln1 nth_drop addn0. }
  have Had : forall j, (j < size ts)%N -> admissible Mat false (drop (j * 1) ts).
  { move=> j Hj. rewrite /admissible /Mat Edrop. apply: Hsym. exact: mem_nth. }
  have Had1 : forall j, (j < size ts)%N -> admissible Mat false [:: ts`_j].
  { move=> j Hj. have := Had j Hj. by rewrite /admissible /Mat Edrop. }
  have Sp : (size ts * 1 <= size ts)%N by rewrite muln1.
  case: (boolP (eigenvalue_relation_known op && (1 < size ts)%N)) => Hk.
  - case/andP: Hk => Hk Hn.
    pose sh j := ts`_j - ts`_0.
    have Hsh : forall j x, (0 < j < size ts)%N ->
      get_eigenvalue ts x (drop (j * 1) ts) = Some (x + sh j).
    { move=> j x /andP [_ Hj]. rewrite /get_eigenvalue.
      have Hd : (0 < size (drop (j * 1) ts))%N by rewrite size_drop muln1 subn_gt0.
      rewrite (rdE 0 Hts) (rdE 0 Hd) /= Edrop /sh. by rewrite -addrA (addrC (- _)). }
    have Hsh0 : sh 0%N = 0 by rewrite /sh subrr.
    have [conv' [est' [k [Q [d [E _ _ [Hst Hsp] He]]]]]] := 
      aff_shifted Hts Hg Sp Sc Se Had Sv Hv Hk Hn Hsh Hsh0.
    exists conv', est'. split=> // j Hj _ est1 S1.
    have [est1' [E1 V1]] := aff_single [::] Hg (Had1 j Hj) Sv Hv S1.
    exists est1'. split=> //. apply: (value_unique V1).
    have HM : Mat [:: ts`_j] = Mat ts + (sh j)%:M.
    { rewrite /Mat (Hid Hk) /= -addrA. congr (_ + _).
      by rewrite /sh !scalemx1 -raddfD /= addrC subrK. }
    rewrite (He j Hj). have H0 : (Mat ts)^T = Mat ts by have := Had 0%N Hts; rewrite /admissible mul0n drop0.
    exact: (value_shift H0 Hv HM Hst Hsp).
  - have [est' [E _ _ He _]] := aff_each Hts Hg Sp Sc Se Had Sv Hv Hk.
    exists conv, est'. split=> // j Hj Hc est1 S1.
    have [est1' [E1 V1]] := aff_single [::] Hg (Had1 j Hj) Sv Hv S1.
    exists est1'. split=> //. apply: (value_unique V1).
    have := value_take0 (He j Hj Hc). by rewrite Edrop.
Qed.

(** C14, C18. And a call for one t is exact in the sense of C18. *)
Theorem C18_affine_sample_exact : forall (A : storage R) (B : option (storage R)) (op : affine R)
    (t : R) (v est : seq R),
  let M := denotes A n n + t *: matrix_of_B B n n in
  well_formed A n n ->
  (forall s, B = Some s -> well_formed s n n /\ denotes s n n <> 0) ->
  affine_object A B op -> M^T = M ->
  (n <= size v)%N -> vec n v != 0 -> (0 < size est)%N ->
  exists est', slq_affine false op [:: t] 1 [:: false] v est = Some ([:: false], est') /\
    exact_sample m tolerance g M (vec n v) est'`_0.
Proof.
  move=> A B op t v est M HA HB Hop HM Sv Hv Se.
  have [Hg _] := object_good HA HB Hop.
  have [est' [E HV]] := aff_single (A := A) (B := B) (gram := false) [::] Hg HM Sv Hv Se.
  exists est'. split=> //. exact: value_sym HM Hv HV.
Qed.

(** C20. The same in gram mode. *)
Theorem C20_gram_affine_sample_partial : forall (A : storage R) (B : option (storage R))
    (op : affine R) (t : R) (v est : seq R),
  let M := denotes A n n + t *: matrix_of_B B n n in
  well_formed A n n ->
  (forall s, B = Some s -> well_formed s n n /\ denotes s n n <> 0) ->
  affine_object A B op -> (forall x : 'cV_n, M *m x = 0 -> x = 0) ->
  (n <= size v)%N -> vec n v != 0 -> (0 < size est)%N ->
  exists est', slq_affine true op [:: t] 1 [:: false] v est = Some ([:: false], est') /\
    exact_gram_sample m tolerance g M (vec n v) est'`_0.
Proof.
  move=> A B op t v est M HA HB Hop HM Sv Hv Se.
  have [Hg _] := object_good HA HB Hop.
  have [est' [E HV]] := aff_single (A := A) (B := B) (gram := true) [::] Hg HM Sv Hv Se.
  exists est'. split=> //. exact: value_gram HM Hv HV.
Qed.

End Slq.

(** C15. In gram mode with B omitted, the matrix (1), t = 0 and t = 1 in one
    call, the function f(x) = x: the second result is 2, but (1 + 1)^T (1 + 1) = 4,
    which is what a call for t = 1 alone returns. *)
Theorem C15_gram_shift_refuted : exists (A : storage R) (op : affine R),
  [/\ well_formed A 1 1, denotes A 1 1 = 1%:M, new_affine A None 1 1 = Some op &
  forall (eps : R) (alloc : nat -> seq R) eigh svd (m : nat) (tol : R) (orth : int),
    0 < eps -> (forall k, size (alloc k) = k) -> eigh_contract eigh -> svd_contract svd ->
    (0 < m)%N -> 0 < tol ->
    exists conv' est' est1',
    [/\ slq_affine eps alloc eigh svd id id 1 m tol orth true op [:: 0; 1] 2 [:: false; false]
          [:: 1] [:: 0; 0] = Some (conv', est'),
        est'`_1 = 2%:R,
        slq_affine eps alloc eigh svd id id 1 m tol orth true op [:: 1] 1 [:: false]
          [:: 1] [:: 0] = Some ([:: false], est1') &
        est1'`_0 = 4%:R]].
Proof.
  pose A := Dense true [:: 1 : R]. exists A, (Affine A None true true None).
  have HA : denotes A 1 1 = 1%:M by apply/matrixP => i j; rewrite !ord1 !mxE.
  split => // eps alloc eigh svd m tol orth He Hal Hei Hsv Hm Ht.
  set op := Affine _ _ _ _ _.
  have HB : forall s, None = Some s -> well_formed s 1 1 /\ denotes s 1 1 <> (0 : 'M[R]_1) by [].
  have Hop : affine_object 0 A None op.
  { exists op, [::], [::]. by []. }
  have [Hg _] := object_good (A := A) (B := None) (n' := 0) isT HB Hop.
  have Hmat : forall t, denotes A 1 1 + t *: matrix_of_B None 1 1 = (1 + t)%:M :> 'M[R]_1.
  { move=> t. rewrite HA. by apply/matrixP => i j; rewrite !ord1 !mxE eqxx !mulr1n mulr1. }
  have Hv : vec 1 [:: 1] != 0 :> 'cV[R]_1.
  { apply/negP => /eqP /colP /(_ 0). rewrite !mxE /= => /eqP. by rewrite oner_eq0. }
  have Hinj : forall t, 1 + t != 0 -> forall x : 'cV[R]_1, (denotes A 1 1 + t *: matrix_of_B None 1 1) *m x = 0 -> x = 0.
  { move=> t Hnz x. rewrite Hmat mul_scalar_mx => /eqP. rewrite scaler_eq0 (negbTE Hnz) /=. by move/eqP. }
  have H0 : 1 + 0 != 0 :> R by rewrite addr0 oner_eq0.
  have H1 : 1 + 1 != 0 :> R by rewrite -[1 + 1]/(2%:R) pnatr_eq0.
  have Hray : forall c : R, rayleigh c%:M (vec 1 [:: 1]) = c.
  { move=> c. rewrite /rayleigh mul_scalar_mx ipZr mulfK // ip_eq0. exact: Hv. }
  pose Mat (p : seq R) := denotes A 1 1 + p`_0 *: matrix_of_B None 1 1.
  have Had : forall j, (j < 2)%N -> admissible Mat true (drop (j * 1) [:: 0; 1]).
  { case=> [|[|j]] Hj; rewrite /admissible /Mat /=; [exact: Hinj|exact: Hinj|by []]. }
  have Hsh : forall j (x : R), (0 < j < 2)%N ->
    get_eigenvalue [:: 0; 1] x (drop (j * 1) [:: 0; 1]) = Some (x + j%:R).
  { case=> [|[|j]] x Hj; [by []| |by []]. by rewrite /get_eigenvalue /= subr0. }
  have [conv' [est' [k [Q [d [E _ _ [Hst Hsp] Hes]]]]]] :=
    @aff_shifted eps He alloc Hal eigh svd Hei Hsv id id 0 m Hm tol Ht orth A None
      true op [:: 0; 1] 2 [:: false; false] [:: 1] [:: 0; 0] isT Hg isT isT isT Had isT Hv
      (fun j => j%:R) isT isT Hsh erefl.
  have [est1' [E1 V1]] := C20_gram_affine_sample_partial He Hal Hei Hsv id id (n' := 0) Hm Ht orth
    (A := A) (B := None) (t := 1) (v := [:: 1]) (est := [:: 0]) isT HB Hop (Hinj 1 H1) isT Hv isT.
  exists conv', est', est1'. split => //.
  - rewrite (Hes 1%N isT) mul1r.
    rewrite /offdiag in Hst. rewrite /projected in Hsp. case: Hst => S1 S2 S3.
    have Hinj0 : forall x : 'cV_1, Mat [:: 0; 1] *m x = 0 -> x = 0 by exact: Hinj.
    have Hal' := stops_gkalive Ht Hv Hinj0 S2.
    have Ha : gka (Mat [:: 0; 1]) (vec 1 [:: 1]) k != 0 by exact: gk_injective.
    have -> : matrix_function (fun x => id (id x)) Q (\row_i (d 0 i + 1%:R))
      = matrix_function (fun x => x + 1) Q d.
    { rewrite /matrix_function. congr (_ *m diag_mx _ *m _). by apply/rowP => i; rewrite !mxE. }
    have Hp : (size ('X + 1%:P : {poly R})%R <= 2 * k.+1)%N \/ gky (Mat [:: 0; 1]) (vec 1 [:: 1]) k = 0.
    { left. rewrite size_XaddC. lia. }
    rewrite (gram_exact_poly Hv Hal' Ha Hsp Hp); last by move=> i; rewrite !hornerE.
    have -> : (Mat [:: 0; 1])^T *m Mat [:: 0; 1] = 1%:M.
    { by rewrite /Mat Hmat addr0 trmx1 mul1mx. }
    by rewrite rmorphD /= horner_mx_X horner_mx_C -raddfD Hray.
  - have [k1 [U [V [B [y [_ _ _ Hp _]]]]]] := V1.
    have Hsz : (size ('X : {poly R}) <= 2 * k1.+1)%N \/ y = 0 by left; rewrite size_polyX; lia.
    rewrite (Hp 'X Hsz) => [|z]; last by rewrite hornerX.
    by rewrite horner_mx_X Hmat tr_scalar_mx -scalar_mxM Hray mul1r -[1 + 1]/(2%:R) -natrM.
Qed.

(** ** Averages over all sign vectors *)

(** The array of the signs, and its value as a vector. *)
Definition signs n (s : n.-tuple bool) : seq R := [seq if b then -1 else 1 | b <- s].

Lemma signsE n (s : n.-tuple bool) (i : 'I_n) :
  vec n (signs s) i 0 = if tnth s i then -1 else 1.
Proof. by rewrite mxE (nth_map false) ?size_tuple // (tnth_nth false). Qed.

Lemma sign_sqr (b : bool) : (if b then -1 else 1) * (if b then -1 else 1) = 1 :> R.
Proof. by case: b; rewrite ?mulrNN mulr1. Qed.

Lemma sign_correlation n (i j : 'I_n) :
  \sum_(s : n.-tuple bool) vec n (signs s) i 0 * vec n (signs s) j 0 = (2 ^ n)%:R *+ (i == j).
Proof.
  case: eqP => [->|/eqP Hij].
  - under eq_bigr do rewrite !signsE sign_sqr.
    by rewrite sumr_const card_tuple card_bool mulr1n.
  - pose flip (s : n.-tuple bool) : n.-tuple bool :=
      [tuple (if l == i then ~~ tnth s l else tnth s l) | l < n].
    have Hf : involutive flip.
    { move=> s. apply: eq_from_tnth => l. rewrite !tnth_mktuple. by case: (l == i); rewrite ?negbK. }
    set S := \sum_s _.
    have E : S = - S.
    { rewrite {1}/S (reindex_inj (inv_inj Hf)) /= -sumrN. apply: eq_bigr => s _.
      rewrite !signsE !tnth_mktuple eqxx eq_sym (negbTE Hij).
      by case: (tnth s i) => /=; rewrite ?mul1r ?mulN1r ?opprK. }
    apply/eqP. rewrite mulr0n. have : S *+ 2 == 0 by rewrite mulr2n {1}E addNr.
    by rewrite mulrn_eq0.
Qed.

(** C19. The mean of v^T M v over all sign vectors v is the trace of M. *)
Theorem C19_rademacher : forall n (M : 'M[R]_n),
  (2 ^ n)%:R^-1 * (\sum_(s : n.-tuple bool) ip (vec n (signs s)) (M *m vec n (signs s))) = \tr M.
Proof.
  move=> n M.
  have -> : \sum_(s : n.-tuple bool) ip (vec n (signs s)) (M *m vec n (signs s))
    = \sum_i \sum_j M i j * ((2 ^ n)%:R *+ (i == j)).
  { rewrite /ip exchange_big /=. apply: eq_bigr => i _.
    under eq_bigr => s _.
    { rewrite [(M *m _) i 0]mxE big_distrr /=. over. }
    rewrite exchange_big /=. apply: eq_bigr => j _. rewrite -sign_correlation big_distrr /=.
    apply: eq_bigr => s _. by rewrite mulrCA. }
  rewrite big_distrr /=. apply: eq_bigr => i _.
  rewrite (bigD1 i) //= eqxx mulr1n big1 ?addr0.
  - rewrite mulrCA mulVf ?mulr1 // pnatr_eq0 -lt0n expn_gt0. by [].
  - move=> j Hj. by rewrite eq_sym (negbTE Hj) mulr0n mulr0.
Qed.

(** C19. The samples of the quadrature, averaged over all sign vectors, give the
    trace of p(A), when f(x) = p(x) with p of degree at most 2m - 1 and the
    iteration ends before step m only with remainder zero (so always when the
    degree of p is at most 1). *)
Theorem C19_average_of_samples : forall (eps : R) (alloc : nat -> seq R) eigh svd (pw f : R -> R)
    (n' m : nat) (tol : R) (orth : int) (A : storage R) (p : {poly R}),
  let n := n'.+1 in
  0 < eps -> (forall k, size (alloc k) = k) -> eigh_contract eigh -> svd_contract svd ->
  (0 < m)%N -> 0 < tol ->
  well_formed A n n -> (denotes A n n)^T = denotes A n n ->
  (forall x, f (pw x) = p.[x]) ->
  (size p <= 2 * m)%N ->
  (size p <= 2)%N \/
  (forall (s : n.-tuple bool) k (V : 'M_(n, k.+1)) T r, (k.+1 < m)%N ->
    lanczos_result (denotes A n n) (vec n (signs s)) V T r -> nrm r < tol * Num.sqrt n%:R -> r = 0) ->
  exists sample : n.-tuple bool -> R,
    (forall s, slq_matrix eps alloc eigh svd pw f n m tol orth false A [::] 1 [:: false]
                 (signs s) [:: 0] = Some ([:: false], [:: sample s])) /\
    (2 ^ n)%:R^-1 * (\sum_s sample s) = \tr (horner_mx (denotes A n n) p).
Proof.
  move=> eps alloc eigh svd pw f n' m tol orth A p n He Hal Hei Hsv Hm Ht HA Hsym Hf Hp Hearly.
  have Hss : forall s : n.-tuple bool, size (signs s) = n by move=> s; rewrite size_map size_tuple.
  have Hii : forall s : n.-tuple bool, ip (vec n (signs s)) (vec n (signs s)) = n%:R.
  { move=> s. rewrite /ip. under eq_bigr do rewrite signsE sign_sqr. by rewrite sumr_const card_ord. }
  have Hnz : forall s : n.-tuple bool, vec n (signs s) != 0.
  { move=> s. by rewrite -ip_eq0 Hii pnatr_eq0. }
  pose F := horner_mx (denotes A n n) p.
  have H : forall s : n.-tuple bool,
    slq_matrix eps alloc eigh svd pw f n m tol orth false A [::] 1 [:: false] (signs s) [:: 0]
    = Some ([:: false], [:: ip (vec n (signs s)) (F *m vec n (signs s))]).
  { move=> s. have Hsz : (n <= size (signs s))%N by rewrite Hss.
    have [est' [E SE _ Hval _]] := matrix_each He Hal Hei Hsv pw f Hm Ht orth (gram := false) [::]
      (conv := [:: false]) (est := [:: 0]) (num := 1) isT HA Hsym isT isT Hsz (Hnz s).
    have [k [V [T [r [Hlr Hk Hstop Hpoly _]]]]] :=
      value_sym Ht Hsym (Hnz s) (Hval 0%N isT isT).
    have Hcase : (size p <= 2 * k.+1)%N \/ r = 0.
    { case: Hearly => [Hle|Hr]; first by left; lia.
      case: (ltnP k.+1 m) => Hkm; last by left; lia.
      right. exact: (Hr s k V T r Hkm Hlr (Hstop Hkm)). }
    rewrite E. congr (Some (_, _)).
    case: est' SE {E Hval} Hpoly => [|x [|]] //= _ Hpoly.
    rewrite (Hpoly p Hcase Hf) /rayleigh Hii mulrC divfK // pnatr_eq0. by []. }
  exists (fun s => ip (vec n (signs s)) (F *m vec n (signs s))).
  split; first exact: H. exact: C19_rademacher.
Qed.

End Props.

Print Assumptions C14_many_parameters.
Print Assumptions C15_gram_shift_refuted.
Print Assumptions C18_sample_exact.
Print Assumptions C18_affine_sample_exact.
Print Assumptions C19_rademacher.
Print Assumptions C19_average_of_samples.
Print Assumptions C20_gram_sample_partial.
Print Assumptions C20_gram_affine_sample_partial.

(** The hypotheses are met: ((2, 1), (1, 2)) over the real algebraic numbers,
    with LAPACK routines that exist by [eigh_contract_met] and [svd_contract_met]. *)
Section Examples.
Let RA := [rcfType of realalg].
Let A : storage RA := Dense true [:: 2%:R; 1; 1; 2%:R].

Lemma A_sym t : (denotes A 2 2 + t *: matrix_of_B None 2 2)^T = denotes A 2 2 + t *: matrix_of_B None 2 2.
Proof.
  apply/matrixP => i j. rewrite !mxE.
  by case: i => [[|[|//]] Hi]; case: j => [[|[|//]] Hj].
Qed.

Lemma v_nz : vec 2 ([:: 1; 0] : seq RA) != 0.
Proof. apply/negP => /eqP /colP /(_ 0). rewrite !mxE /= => /eqP. by rewrite oner_eq0. Qed.

Example C18_case : exists eigh svd est',
  slq_affine (1 : RA) (fun k => nseq k 0) eigh svd id (fun x => x ^+ 3) 2 5 1 (-1) false
    (Affine A None true true None) [:: 7%:R] 1 [:: false] [:: 1; 0] [:: 0]
    = Some ([:: false], est') /\
  exact_sample 5 (1 * Num.sqrt 2%:R) (fun x => x ^+ 3) (denotes A 2 2 + 7%:R *: matrix_of_B None 2 2)
    (vec 2 [:: 1; 0]) est'`_0.
Proof.
  have [eigh He] := eigh_contract_met RA. have [svd Hs] := svd_contract_met RA.
  have Hal : forall k, size (nseq k (0 : RA)) = k by move=> k; rewrite size_nseq.
  have HB : forall s : storage RA, None = Some s -> well_formed s 2 2 /\ denotes s 2 2 <> 0 by [].
  have Hop : affine_object 1 A None (Affine A None true true None).
  { by exists (Affine A None true true None), [::], [::]. }
  have [est' [H1 H2]] := @C18_affine_sample_exact RA 1 ltr01 _ Hal eigh svd He Hs id (fun x => x ^+ 3)
    1 5 isT 1 ltr01 (-1) A None (Affine A None true true None) 7%:R [:: 1; 0] [:: 0]
    isT HB Hop (A_sym _) isT v_nz isT.
  by exists eigh, svd, est'.
Qed.

Example C14_case : exists eigh svd conv' est',
  slq_affine (1 : RA) (fun k => nseq k 0) eigh svd id (fun x => x ^+ 3) 2 5 1 (-1) false
    (Affine A None true true None) [:: 7%:R; 8%:R] 2 [:: false; false] [:: 1; 0] [:: 0; 0]
    = Some (conv', est').
Proof.
  have [eigh He] := eigh_contract_met RA. have [svd Hs] := svd_contract_met RA.
  have Hal : forall k, size (nseq k (0 : RA)) = k by move=> k; rewrite size_nseq.
  have HB : forall s : storage RA, None = Some s -> well_formed s 2 2 /\ denotes s 2 2 <> 0 by [].
  have Hop : affine_object 1 A None (Affine A None true true None).
  { by exists (Affine A None true true None), [::], [::]. }
  have [conv' [est' [H1 _]]] := @C14_many_parameters RA 1 ltr01 _ Hal eigh svd He Hs id (fun x => x ^+ 3)
    1 5 isT 1 ltr01 (-1) A None (Affine A None true true None) [:: 7%:R; 8%:R] [:: false; false]
    [:: 1; 0] [:: 0; 0] isT HB Hop isT isT isT (fun t _ => A_sym t) isT v_nz.
  by exists eigh, svd, conv', est'.
Qed.
End Examples.
