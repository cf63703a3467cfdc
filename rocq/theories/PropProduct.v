(** * C84: the products that operator objects offer to Python *)
Require Import ZArith.
From mathcomp Require Import all_ssreflect all_algebra.
From mathcomp Require Import zify.
From Verif Require Import Mem KernelModel KernelSpec OperatorModel OperatorSpec OperatorProofs.
From Verif Require Import ProductModel ProductSpec.
Set Implicit Arguments.
Unset Strict Implicit.
Unset Printing Implicit Defensive.
Import GRing.Theory.
Local Open Scope nat_scope.

Section Proofs.
Variable R : comRingType.
Implicit Types (o : object R) (mem : seq (seq R)) (us : seq (use R)).

Lemma sameE a b : same a b = true <-> a = b.
Proof. by case: a b => [] []. Qed.
Lemma same_refl a : same a a. Proof. by case: a. Qed.

Definition attribute_of (a : argument R) : attribute R :=
  match a with
  | AScalar x => ArrayParameters [:: x]
  | AArray xs => ArrayParameters xs
  | AList xs => ListParameters xs
  | ANone => NoParameters R
  end.

Definition not_valid (p : pointer R) : bool := if p is Valid _ then false else true.

(** What a history leaves *)
Definition inv o0 o (a : argument R) : Prop :=
  [/\ o_type o = o_type o0, o_rows o = o_rows o0, o_cols o = o_cols o0, o_matrix o = o_matrix o0
    & o_parameters o = attribute_of a /\ not_valid (o_pointer o)].

Lemma product_inv o0 o a t v p mem o' mem' : inv o0 o a ->
  product t o v p mem = Some (Ok (o', mem')) -> inv o0 o' a.
Proof.
move=> [H1 H2 H3 H4 [H5 H6]]. rewrite /product.
case: ifP => // _. case: ifP => // _. case: (view v) => //. case: (view p) => //.
case E : (o_parameters o) => [|xs|xs] //;
  (case: ifP => // _; case: ifP => // _; case: c_product => // r [<- _]; split=> //=).
Qed.

Lemma uses_inv o0 o a mem us o' mem' : inv o0 o a ->
  uses o mem us = Some (Ok (o', mem')) -> inv o0 o' (last_argument a us).
Proof.
elim: us o a mem => [|u us IH] o a mem Hi /=; first by move=> [<- _].
case: u => [a'|t v p].
- apply: IH. case: Hi => H1 H2 H3 H4 [H5 H6]. by split.
- case E : product => [[e||[o1 mem1]]|] //=.
  + exact: IH.
  + apply: IH. exact: product_inv Hi E.
Qed.

Lemma uses_size o mem us o' mem' : uses o mem us = Some (Ok (o', mem')) ->
  size mem <= size mem'.
Proof.
elim: us o mem => [|u us IH] o mem /=; first by move=> [_ <-].
case: u => [a'|t v p]; first exact: IH.
case E : product => [[e||[o1 mem1]]|] //=; first exact: IH.
move=> H. apply: leq_trans (IH _ _ H). move: E. rewrite /product.
case: ifP => // _. case: ifP => // _. case: (view v) => //. case: (view p) => //.
case: (o_parameters o) => [|xs|xs] //;
  (case: ifP => // _; case: ifP => // _; case: c_product => // r [_ <-]; rewrite size_set_nth; lia).
Qed.

Lemma place_plain mem T v n k : plain mem T v n -> place v k = v_start v + k.
Proof. case=> _ _ E _ _. rewrite /place E. lia. Qed.

Lemma vec_drop mem T v n : plain mem T v n ->
  vec n (drop (v_start v) (block mem (v_block v))) = entries mem v n.
Proof.
move=> H. apply/matrixP => i j. rewrite !mxE nth_drop /element (place_plain i H). by [].
Qed.

(** The effect of a product of the C++ object on memory *)
Lemma product_ok o0 mem o t v p (M : 'M[R]_(if t then o_cols o else o_rows o, if t then o_rows o else o_cols o)) o1 after :
  fitting mem o t v p -> o_type o <> OtherType -> o_type o0 = o_type o ->
  (forall x c, (if t then o_rows o else o_cols o) <= size x ->
     (if t then o_cols o else o_rows o) <= size c ->
     writes c (M *m vec _ x)%R (c_product o1 t x c)) ->
  exists2 mem',
    (if ~~ same (v_type v) (o_type o) then Some Undefined
     else if v_block v == v_block p then None
     else if c_product o1 t (drop (v_start v) (nth [::] mem (v_block v)))
                            (drop (v_start p) (nth [::] mem (v_block p))) is Some r then
       Some (Ok (with_pointer o after,
                 set_nth [::] mem (v_block p) (take (v_start p) (nth [::] mem (v_block p)) ++ r)))
     else Some Undefined) = Some (Ok (with_pointer o after, mem')) &
    entries mem' p _ = (M *m entries mem v _)%R /\ only_changes p mem mem'.
Proof.
move=> [Hv Hp Hne] HT _ Hw.
have [Tv [Nv Wv] Sv Lv [Bv Iv]] := Hv. have [Tp [Np Wp] Sp Lp [Bp Ip]] := Hp.
rewrite Tv same_refl /=. case: eqP => // _.
have [|| c' [-> Hc' Sc' Rc']] := Hw (drop (v_start v) (nth [::] mem (v_block v)))
                                   (drop (v_start p) (nth [::] mem (v_block p))).
- rewrite size_drop -(leq_add2l (v_start v)) subnKC //. by apply: leq_trans Iv; rewrite leq_addr.
- rewrite size_drop -(leq_add2l (v_start p)) subnKC //. by apply: leq_trans Ip; rewrite leq_addr.
eexists; first reflexivity.
have Ip' : v_start p <= size (nth [::] mem (v_block p)) by apply: leq_trans Ip; rewrite leq_addr.
set m1 := (if t then o_cols o else o_rows o) in Hc' Rc' Ip Lp *.
have Hst : size (take (v_start p) (nth [::] mem (v_block p))) = v_start p.
{ by rewrite size_takel. }
have Ssz : v_start p + size c' = size (nth [::] mem (v_block p)).
{ by rewrite Sc' size_drop subnKC. }
split.
- rewrite -(vec_drop Hv) -Hc'. apply/matrixP => i j. rewrite !mxE /element (place_plain _ Hp).
  rewrite /block nth_set_nth /= eqxx nth_cat Hst ltnNge leq_addr /=. by rewrite addKn.
- move=> b k Hbk. rewrite /block nth_set_nth /=. case: (b =P v_block p) => // E.
  subst b. rewrite nth_cat Hst. case: (ltnP k (v_start p)) => Hk; first by rewrite nth_take.
  case: (ltnP (k - v_start p) m1) => Hk2.
  + case: Hbk. split=> //. exists (k - v_start p); first by rewrite Lp.
    rewrite (place_plain _ Hp). lia.
  + rewrite Rc' // nth_drop subnKC //.
Qed.

Definition called o : object R :=
  if o_parameters o is ArrayParameters xs then with_pointer o (Valid xs) else o.

Lemma product_right o mem t v p (M : 'M[R]_(o_rows o, o_cols o)) :
  o_type o <> OtherType -> (forall xs, o_parameters o <> ListParameters xs) ->
  fitting mem o t v p ->
  (forall x c, o_cols o <= size x -> o_rows o <= size c ->
     writes c (M *m vec _ x)%R (c_product (called o) false x c)) ->
  (forall x c, o_rows o <= size x -> o_cols o <= size c ->
     writes c (M^T *m vec _ x)%R (c_product (called o) true x c)) ->
  exists o' mem', product t o v p mem = Some (Ok (o', mem')) /\
    (if t then entries mem' p (o_cols o) = (M^T *m entries mem v (o_rows o))%R
     else entries mem' p (o_rows o) = (M *m entries mem v (o_cols o))%R) /\
    only_changes p mem mem'.
Proof.
move=> HT Hl Hf W0 W1.
have [[Tv [Nv Wv] _ _ _] [Tp [Np' Wp] _ _ _] _] := Hf.
have G after : exists o' mem',
    (if ~~ same (v_type v) (o_type o) then Some Undefined
     else if v_block v == v_block p then None
     else if c_product (called o) t (drop (v_start v) (nth [::] mem (v_block v)))
                            (drop (v_start p) (nth [::] mem (v_block p))) is Some r then
       Some (Ok (with_pointer o after,
                 set_nth [::] mem (v_block p) (take (v_start p) (nth [::] mem (v_block p)) ++ r)))
     else Some Undefined) = Some (Ok (o', mem')) /\
    (if t then entries mem' p (o_cols o) = (M^T *m entries mem v (o_rows o))%R
     else entries mem' p (o_rows o) = (M *m entries mem v (o_cols o))%R) /\ only_changes p mem mem'.
{ destruct t.
  - have [mem' E [E1 E2]] := @product_ok o mem o true v p M^T%R (called o) after Hf HT erefl W1.
    by exists (with_pointer o after), mem'.
  - have [mem' E [E1 E2]] := @product_ok o mem o false v p M (called o) after Hf HT erefl W0.
    by exists (with_pointer o after), mem'. }
rewrite /product. rewrite {1 2}Tv {1}Tp same_refl /=.
have -> /= : same (o_type o) OtherType = false by case: (o_type o) HT.
rewrite /view Nv Wv Np' Wp /=. move: G Hl. rewrite /called. case: (o_parameters o) => [|xs|xs] G Hl.
- exact: G.
- exact: G.
- by case: (Hl xs).
Qed.

(** ** C84 *)

(** The product with a constant matrix, at any point of any history of the object and
    whatever parameters were set: the entries of the product are written, and nothing
    else. *)
Theorem C84_constant T m n (s : storage R) mem0 us o mem t v p :
  T <> OtherType -> well_formed s m n ->
  uses (new_object T m n (Constant s)) mem0 us = Some (Ok (o, mem)) ->
  (forall xs, last_argument (ANone R) us <> AList xs) ->
  let M := denotes s m n in
  fitting mem o t v p ->
  exists o' mem', product t o v p mem = Some (Ok (o', mem')) /\
    (if t then entries mem' p n = (M^T *m entries mem v m)%R
     else entries mem' p m = (M *m entries mem v n)%R) /\
    only_changes p mem mem'.
Proof.
move=> HT Hs Hu Hl M Hf.
have [|Ht Em En EM [Ep Np]] := uses_inv (o0 := new_object T m n (Constant s)) (a := ANone R) _ Hu.
  by split.
rewrite /= in Ht Em En EM. subst m n.
have EC : o_matrix (called o) = Constant s /\ o_rows (called o) = o_rows o /\ o_cols (called o) = o_cols o.
{ by rewrite /called; case: (o_parameters o). }
case: EC => EC1 [EC2 EC3].
apply: product_right => //.
- by rewrite Ht.
- rewrite Ep. move=> xs. move: (Hl xs). by case: (last_argument _ _) => //= ys H [E]; case: H; rewrite E.
- move=> x c Hx Hc. rewrite /c_product EC1 EC2 EC3. exact: dot_ok.
- move=> x c Hx Hc. rewrite /c_product EC1 EC2 EC3. exact: transpose_dot_ok.
Qed.

(** The product with A + t B, at any point of any history: t is what was set last, and
    the parameters of earlier products do not matter.  An omitted B stands for the
    identity; see C13 for a B that is zero. *)
Theorem C84_function T m n (A : storage R) (B : option (storage R)) (f : affine R)
    mem0 us o mem tr v p t :
  T <> OtherType -> well_formed A m n ->
  (forall s, B = Some s -> well_formed s m n /\ denotes s m n <> 0%R) ->
  new_affine A B m n = Some f ->
  uses (new_object T m n (Function f)) mem0 us = Some (Ok (o, mem)) ->
  gives (last_argument (ANone R) us) t ->
  let M := (denotes A m n + t *: matrix_of_B B m n)%R in
  fitting mem o tr v p ->
  exists o' mem', product tr o v p mem = Some (Ok (o', mem')) /\
    (if tr then entries mem' p n = (M^T *m entries mem v m)%R
     else entries mem' p m = (M *m entries mem v n)%R) /\
    only_changes p mem mem'.
Proof.
move=> HT HA HB Ef Hu Hg M Hf.
have Gf := good_new HA HB Ef.
have [|Ht Em En EM [Ep Np]] := uses_inv (o0 := new_object T m n (Function f)) (a := ANone R) _ Hu.
  by split.
rewrite /= in Ht Em En EM. subst m n.
have [xs Exs] : exists xs, o_parameters o = ArrayParameters (t :: xs).
{ rewrite Ep. move: Hg. case: (last_argument _ _) => [|x|[|x xs]|xs] //= ->; by eexists. }
have EC : [/\ o_matrix (called o) = Function f, o_rows (called o) = o_rows o,
              o_cols (called o) = o_cols o & o_pointer (called o) = Valid (t :: xs)].
{ by rewrite /called Exs. }
case: EC => EC1 EC2 EC3 EC4.
apply: product_right => //.
- by rewrite Ht.
- by rewrite Exs.
- move=> x c Hx Hc. rewrite /c_product EC1 EC2 EC3 EC4. exact: (@affine_dot_ok _ _ _ _ _ _ _ _ _ xs).
- move=> x c Hx Hc. rewrite /c_product EC1 EC2 EC3 EC4. exact: (@affine_transpose_dot_ok _ _ _ _ _ _ _ _ _ xs).
Qed.

(** Exactly these calls raise: vector and product of different types or of a type
    that is none of the three, an array that is not one-dimensional or cannot be
    written to (the vector too), and parameters that were set to a list. *)
Theorem C84_raises t o v p mem :
  (exists e, product t o v p mem = Some (Raise e)) <->
  v_type v <> v_type p \/ v_type v = OtherType \/
  (v_ndim v <> 1 \/ v_writeable v = false) \/ (v_ndim p <> 1 \/ v_writeable p = false) \/
  exists xs, o_parameters o = ListParameters xs.
Proof.
rewrite /product.
case S : (same (v_type v) (v_type p)) => /=; last first.
{ split=> [_|_]; last by exists TypeError. left=> E. by rewrite E same_refl in S. }
move/sameE: S => S. case S2 : (same (v_type v) OtherType).
{ split=> [_|_]; last by exists TypeError. right. left. exact/sameE. }
have N2 : v_type v <> OtherType by move=> E; rewrite E in S2.
rewrite /view. case Vv : ((v_ndim v == 1) && v_writeable v); last first.
{ split=> [_|_]; last by exists ValueError. right. right. left.
  move/negbT: Vv. rewrite negb_and => /orP[/eqP|/negbTE]; tauto. }
case Vp : ((v_ndim p == 1) && v_writeable p); last first.
{ split=> [_|_]; last by exists ValueError. right. right. right. left.
  move/negbT: Vp. rewrite negb_and => /orP[/eqP|/negbTE]; tauto. }
move: Vv Vp => /andP[/eqP-> ->] /andP[/eqP-> ->].
case: (o_parameters o) => [|xs|xs].
- split; last first.
  { case=> [|[|[[|]|[[|]|[ys]]]]] //. }
  case. case: ifP => // _. case: ifP => // _ e. by case: c_product.
- split; last first.
  { case=> [|[|[[|]|[[|]|[ys]]]]] //. }
  case. case: ifP => // _. case: ifP => // _ e. by case: c_product.
- split=> [_|_]; last by exists AttributeError. do 4 right. by exists xs.
Qed.

(** So neither the lengths of the arrays nor the distance of their elements are ever
    looked at: arrays that differ in them alone are treated alike. *)
Theorem C84_shape_refuted t o v p mem k l y z :
  product t o (Vector (v_type v) (v_ndim v) (v_block v) (v_start v) y k (v_writeable v))
    (Vector (v_type p) (v_ndim p) (v_block p) (v_start p) z l (v_writeable p)) mem =
  product t o v p mem.
Proof. by case: v; case: p. Qed.

(** A vector of another of the three types than the matrix leads to a NULL pointer
    instead of an exception. *)
Theorem C84_type_refuted t o v p mem :
  v_type v = v_type p -> v_type v <> OtherType -> v_type v <> o_type o ->
  v_ndim v = 1 -> v_writeable v -> v_ndim p = 1 -> v_writeable p ->
  (forall xs, o_parameters o <> ListParameters xs) ->
  product t o v p mem = Some Undefined.
Proof.
move=> E1 N1 N2 D1 W1 D2 W2 Hl. rewrite /product -E1 same_refl /=.
case S2 : (same (v_type v) OtherType); first by case: N1; exact/sameE.
rewrite /view D1 W1 D2 W2 /=.
case S : (same (v_type v) (o_type o)); first by case: N2; exact/sameE.
by case: (o_parameters o) Hl => [|xs|xs] // /(_ xs).
Qed.

(** The product of A + t B without a parameter is not an exception either: the pointer
    is NULL at first, and once a product was computed with a parameter that has been
    taken back it points to released memory. *)
Theorem C84_none_refuted T m n (f : affine R) mem0 us o mem t v p :
  T <> OtherType ->
  uses (new_object T m n (Function f)) mem0 us = Some (Ok (o, mem)) ->
  last_argument (ANone R) us = ANone R ->
  fitting mem o t v p ->
  product t o v p mem = Some Undefined.
Proof.
move=> HT Hu Hl Hf.
have [|Ht Em En EM [Ep Np]] := uses_inv (o0 := new_object T m n (Function f)) (a := ANone R) _ Hu.
  by split.
rewrite /= in Ht Em En EM. rewrite Hl /= in Ep.
have [[Tv [Nv Wv] _ _ _] [Tp [Np' Wp] _ _ _] Hne] := Hf.
rewrite /product Tv Tp same_refl /=.
have -> /= : same (o_type o) OtherType = false by rewrite Ht; case: (T) HT.
rewrite /view Nv Wv Np' Wp /= Ep. case: eqP => // _.
rewrite /c_product EM. case: (o_pointer o) Np => // _; case: t Hf => _.
- rewrite /affine_transpose_dot /=. by case: transpose_dot.
- rewrite /affine_dot /=. by case: dot.
- rewrite /affine_transpose_dot /=. by case: transpose_dot.
- rewrite /affine_dot /=. by case: dot.
Qed.

End Proofs.

(** ** Cases *)

Definition case_A : storage int_comRing := Dense true [:: 1; 2; 3; 4]%R.
Definition case_f : affine int_comRing := Affine case_A None true true None.
Definition case_v : vector := Vector Float64 1 0 1 (Zpos xH) 2 true.
Definition case_p : vector := Vector Float64 1 1 1 (Zpos xH) 2 true.
Definition case_mem : seq (seq int_comRing) := [:: [:: 7; 1; 10; 7]; [:: 0; 0; 0; 0]]%R.

(** A product with t = 5, one with t = 0, an exception in between, and a transposed one
    with t = 1: the last reads t = 1. *)
Definition case_uses : seq (use int_comRing) :=
  [:: SetParameters (AScalar (5 : int_comRing)%R); Product _ false case_v case_p;
      SetParameters (AArray [:: (0 : int_comRing); 3])%R; Product _ false case_v case_p;
      Product _ false (Vector Float32 1 0 1 (Zpos xH) 2 true) case_p;
      SetParameters (AScalar (1 : int_comRing)%R)].

Definition case_mem1 : seq (seq int_comRing) := [:: [:: 7; 1; 10; 7]; [:: 0; 21; 43; 0]]%R.
Definition case_mem2 : seq (seq int_comRing) := [:: [:: 7; 1; 10; 7]; [:: 0; 32; 52; 0]]%R.

(** The memory after a product *)
Definition leaves (r : option (outcome (object int_comRing * seq (seq int_comRing))))
    (mem : seq (seq int_comRing)) : bool :=
  if r is Some (Ok (_, mem')) then mem' == mem else false.

Example C84_function_case :
  new_affine case_A None 2 2 = Some case_f /\ well_formed case_A 2 2 /\
  gives (last_argument (ANone _) case_uses) 1%R /\
  fitting case_mem1 (new_object Float64 2 2 (Function case_f)) true case_v case_p /\
  match uses (new_object Float64 2 2 (Function case_f)) case_mem case_uses with
  | Some (Ok (o, mem)) => (mem == case_mem1) && leaves (product true o case_v case_p mem) case_mem2
  | _ => false
  end.
Proof. split; [by []|split; [by []|split; [by []|split; [by split|by vm_compute]]]]. Qed.

(** A constant matrix, before anything else was done. *)
Definition case_c : object int_comRing := new_object Float64 2 2 (Constant case_A).

Example C84_constant_case :
  leaves (product false case_c case_v case_p case_mem) case_mem1 /\
  fitting case_mem case_c false case_v case_p.
Proof. split; [by vm_compute|by split]. Qed.

(** Every second element of an array, as in x[::2]: its elements are 1 and 2, and the
    product is that of 1 and 10. *)
Definition every_second : vector := Vector Float64 1 0 0 (Zpos 2) 2 true.
Definition second_mem : seq (seq int_comRing) := [:: [:: 1; 10; 2; 20]; [:: 0; 0; 0]]%R.

Example C84_stride_refuted :
  element second_mem every_second 0 = 1%R /\ element second_mem every_second 1 = 2%R /\
  leaves (product false case_c every_second case_p second_mem)
    [:: [:: 1; 10; 2; 20]; [:: 0; 21; 43]]%R.
Proof. split; [by []|split; [by []|by vm_compute]]. Qed.

(** Undefined behaviour *)
Definition undefined (r : option (outcome (object int_comRing * seq (seq int_comRing)))) : bool :=
  if r is Some Undefined then true else false.

(** A vector that is too short is read past its end. *)
Example C84_length_refuted :
  undefined (product false case_c (Vector Float64 1 0 0 (Zpos xH) 1 true) case_p
               [:: [:: 1]; [:: 0; 0; 0]]%R).
Proof. by vm_compute. Qed.

(** A vector in single precision, and a matrix in double precision. *)
Example C84_type_case :
  product false case_c
    (Vector Float32 1 0 0 (Zpos xH) 2 true) (Vector Float32 1 1 0 (Zpos xH) 2 true) case_mem
  = Some Undefined.
Proof. apply: C84_type_refuted => //. Qed.

(** The parameter is taken back after a product: released memory is read. *)
Example C84_none_case :
  let us := [:: SetParameters (AScalar (5 : int_comRing)%R); Product _ false case_v case_p;
                SetParameters (ANone _)] in
  match uses (new_object Float64 2 2 (Function case_f)) case_mem us with
  | Some (Ok (o, mem)) =>
      [&& mem == [:: [:: 7; 1; 10; 7]; [:: 0; 26; 93; 0]]%R,
          if o_pointer o is Released then true else false
        & undefined (product false o case_v case_p mem)]
  | _ => false
  end.
Proof. by vm_compute. Qed.

Definition C84_assumptions :=
  (@C84_constant, @C84_function, @C84_raises, @C84_shape_refuted, @C84_type_refuted,
   @C84_none_refuted, @C84_stride_refuted, @C84_length_refuted).
Print Assumptions C84_assumptions.
