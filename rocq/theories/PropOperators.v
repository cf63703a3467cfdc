(** Theorems C12-C13: affine matrix functions t -> A + t B. *)
From mathcomp Require Import all_ssreflect all_algebra.
From Verif Require Import Mem KernelModel KernelSpec KernelProofs.
From Verif Require Import OperatorModel OperatorSpec OperatorProofs.
Set Implicit Arguments.
Unset Strict Implicit.
Unset Printing Implicit Defensive.
Import GRing.Theory.
Local Open Scope ring_scope.

Section Props.
Variable R : comRingType.

(** C12. Whatever was called before, a product uses the parameter set last.
    [matrix_of_B None] is the identity; an explicit B must not be the zero
    matrix (see C13). *)
Theorem C12_affine_products : forall (A : storage R) (B : option (storage R)) (m n : nat),
  well_formed A m n ->
  (forall s, B = Some s -> well_formed s m n /\ denotes s m n <> 0) ->
  exists op, new_affine A B m n = Some op /\
    forall (before after : seq (call R)) (t : R) (p : seq R) r,
      run op m n (before ++ SetParameters (t :: p) :: after) = Some r ->
      all (fun x => if x is SetParameters _ then false else true) after ->
      let M := denotes A m n + t *: matrix_of_B B m n in
      (forall v c, (n <= size v)%N -> (m <= size c)%N ->
         exists c', run op m n ((before ++ SetParameters (t :: p) :: after) ++ [:: Dot v c])
                    = Some (r.1, rcons r.2 c')
                 /\ writes c (M *m vec n v) (Some c')) /\
      (forall v c, (m <= size v)%N -> (n <= size c)%N ->
         exists c', run op m n ((before ++ SetParameters (t :: p) :: after) ++ [:: TransposeDot v c])
                    = Some (r.1, rcons r.2 c')
                 /\ writes c (M^T *m vec m v) (Some c')).
Proof.
  move=> A B m n HA HB.
  have [op Eop] := new_affine_total HA (fun s E => proj1 (HB s E)).
  have Hg := good_new HA HB Eop. exists op; split => // before after t p r Er Hall M.
  have Hall' : all (fun x => ~~ sets x) after.
  { apply: sub_all Hall. by case. }
  have Hp := run_after_set Er Hall'. have Hr := good_run Hg Er.
  split=> v c Hv Hc; rewrite (run_cat _ Er) /=.
  - have [c' [E H1 H2 H3]] := affine_dot_ok Hr Hp Hv Hc. exists c'.
    rewrite E /= cats1. split => //. by exists c'.
  - have [c' [E H1 H2 H3]] := affine_transpose_dot_ok Hr Hp Hv Hc. exists c'.
    rewrite E /= cats1. split => //. by exists c'.
Qed.

(** C12. Such histories do run: once a parameter is set, no sequence of calls
    with arrays of sufficient size fails. *)
Theorem C12_affine_never_fails : forall (A : storage R) (B : option (storage R)) (m n : nat),
  well_formed A m n ->
  (forall s, B = Some s -> well_formed s m n /\ denotes s m n <> 0) ->
  exists op, new_affine A B m n = Some op /\
    forall (calls : seq (call R)) (t : R) (p : seq R),
      all (fun x => match x with
                    | SetParameters p => (0 < size p)%N
                    | Dot v c => (n <= size v)%N && (m <= size c)%N
                    | TransposeDot v c => (m <= size v)%N && (n <= size c)%N
                    end) calls ->
      exists r, run op m n (SetParameters (t :: p) :: calls) = Some r.
Proof.
  move=> A B m n HA HB.
  have [op Eop] := new_affine_total HA (fun s E => proj1 (HB s E)).
  have Hg := good_new HA HB Eop. exists op; split => // calls t p Hall.
  exact: (@run_total _ (set_parameters op (t :: p)) A B m n calls t p).
Qed.

(** C13, exactly what the test does.  A dense B of non-zero size is never
    taken for the identity; a sparse B is taken for the identity exactly when
    every stored entry is an off-diagonal zero. *)
Theorem C13_identity_test : forall (s : storage R) (m n : nat),
  well_formed s m n ->
  exists b, is_identity_matrix s m n = Some b /\
    (b = true <->
     match s with
     | Dense _ _ => m = 0%N \/ n = 0%N
     | Csr d i p => forall row q, (row < m)%N -> (nth 0 p row <= q < nth 0 p row.+1)%N ->
                      row <> nth 0%N i q /\ d`_q = 0
     | Csc d i p => forall column q, (column < n)%N ->
                      (nth 0 p column <= q < nth 0 p column.+1)%N ->
                      column <> nth 0%N i q /\ d`_q = 0
     end).
Proof.
  move=> [rm A|d i p|d i p] m n Hw.
  - exists ((m == 0%N) || (n == 0%N)); rewrite identity_dense //; split => //.
    split; first by case/orP => /eqP; [left|right].
    by case=> ->; rewrite ?orbT.
  - have [b E H] := identity_csr Hw. by exists b.
  - have [b E H] := identity_csc Hw. by exists b.
Qed.

(** C13, the part that holds: the replacement never happens for a B other than
    the zero matrix, so A + t B is represented correctly (C12). *)
Theorem C13_replaced_only_zero_partial : forall (s : storage R) (m n : nat),
  well_formed s m n -> is_identity_matrix s m n = Some true -> denotes s m n = 0.
Proof. move=> *; exact: identity_zero. Qed.

(** C13, the other direction fails too: the identity is never recognised. *)
Theorem C13_identity_never_recognised : forall (s : storage R) (m n : nat),
  well_formed s m n -> (0 < m)%N -> (0 < n)%N -> denotes s m n = eye R m n ->
  is_identity_matrix s m n = Some false.
Proof.
  move=> s m n Hw Hm Hn E. have [b Eb] := identity_total Hw. rewrite Eb. case: b Eb => // Eb.
  have := identity_zero Hw Eb. rewrite E => /matrixP /(_ (Ordinal Hm) (Ordinal Hn)).
  rewrite !mxE eqxx => /eqP. by rewrite oner_eq0.
Qed.

End Props.

(** C13 refuted: a sparse B with one stored off-diagonal zero is the zero
    matrix, yet A + t B is evaluated as A + t I. *)
Theorem C13_identity_refuted :
  exists (A B : storage int_comRing) (op : affine int_comRing) (t : int) (v r : seq int),
    well_formed A 2 2 /\ well_formed B 2 2 /\ denotes B 2 2 <> eye _ 2 2 /\
    new_affine A (Some B) 2 2 = Some op /\
    affine_dot (set_parameters op [:: t]) 2 2 v [:: 0; 0] = Some r /\
    vec 2 r <> (denotes A 2 2 + t *: denotes B 2 2) *m vec 2 v.
Proof.
  pose A : storage int_comRing := Csr [:: 1; 1] [:: 0; 1]%N [:: 0; 1; 2]%N.
  pose B : storage int_comRing := Csr [:: 0] [:: 1]%N [:: 0; 1; 1]%N.
  have HB : denotes B 2 2 = 0.
  { apply: identity_zero => //. by split => // - [|[|i]] // [|q]. }
  have HA : denotes A 2 2 = 1%:M.
  { by apply/matrixP => - [[|[|i]] Hi] [[|[|j]] Hj] //; rewrite !mxE unlock. }
  exists A, B, (Affine A (Some B) true true None), 5, [:: 1; 1], [:: 6; 6].
  split; first by split => // - [|[|i]] // [|[|q]].
  split; first by split => // - [|[|i]] // [|q].
  split; first by rewrite HB => /matrixP /(_ 0 0); rewrite !mxE.
  do 2![split => //].
  rewrite HB scaler0 addr0 HA mul1mx => /matrixP /(_ 0 0). by rewrite !mxE.
Qed.

Print Assumptions C12_affine_products.
Print Assumptions C12_affine_never_fails.
Print Assumptions C13_identity_test.
Print Assumptions C13_replaced_only_zero_partial.
Print Assumptions C13_identity_never_recognised.
Print Assumptions C13_identity_refuted.

(** A non-zero B in compressed columns, parameter changed in between. *)
Example C12_example :
  let A := Csc [:: 1; 2 : int] [:: 0; 1]%N [:: 0; 1; 2]%N in
  let B := Csc [:: 3 : int] [:: 1]%N [:: 0; 1; 1]%N in
  (do op <- new_affine A (Some B) 2 2;
   omap snd (run op 2 2 [:: SetParameters [:: 7]; Dot [:: 1; 1] [:: 0; 0];
                           SetParameters [:: 2]; Dot [:: 1; 1] [:: 0; 0];
                           TransposeDot [:: 1; 1] [:: 0; 0]]))
  = Some [:: [:: 1; 23]; [:: 1; 8]; [:: 7; 2]].
Proof. by vm_compute. Qed.
