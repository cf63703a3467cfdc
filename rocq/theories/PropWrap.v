(** Theorem C70: a linear operator is the matrix it was given. *)
Require Import ZArith.
From mathcomp Require Import all_ssreflect all_algebra.
From Verif Require Import Mem KernelModel KernelSpec OperatorModel OperatorSpec OperatorProofs.
From Verif Require Import WrapModel WrapSpec WrapProofs.
Set Implicit Arguments.
Unset Strict Implicit.
Unset Printing Implicit Defensive.
From mathcomp Require Import zify.
Import GRing.Theory.
Local Open Scope nat_scope.

Section Props.
Variable R : comRingType.
Variable to_csr : nat -> nat -> seq (nat * nat * R) -> seq R * seq nat * seq nat.

(** C70. A dense, CSR or CSC matrix may be changed in place at any time, by the
    program and by sorting: the operator multiplies by the matrix as it is now. *)
Theorem C70_current_partial : forall (mem0 : memory R) (A : object) (others : seq nat)
    (h : seq (event R)) (m n : nat),
  acceptable A -> consecutive A -> direct A -> all (in_place A) h ->
  (forall h1 h2, h = h1 ++ h2 ->
     let W := run to_csr (World mem0 A others None) h1 in sound (mem W) (matrix W) m n) ->
  let W := run to_csr (World mem0 A others None) h in
  forall t v c, fits m n t v c ->
    gives (value (mem W) (matrix W) m n) t v c (step to_csr W (Compute t v c)).2.
Proof.
  move=> mem0 A o h m n Ha Hc Hd Hh Hs W t v c /andP [Hv Hz].
  have HsW : sound (mem W) (matrix W) m n by apply: (Hs h [::]); rewrite cats0.
  case: A Ha Hc Hd Hh Hs @W HsW => // [dt a|dt s] Ha Hc Hd Hh Hs W HsW.
  - have Hi : dense_inv (DenseObject dt a) W by apply: dense_run.
    exact: dense_compute Ha Hi HsW Hv Hz.
  - have Hi : sparse_inv dt s W.
    { apply: sparse_run Hd Ha Hc Hs _ _ => //. exists s. by split. }
    exact: sparse_compute Hd Ha Hc Hi HsW Hv Hz.
Qed.

(** C70. The operator of a matrix in another format is the matrix at the time of
    the first computation, whatever the program does afterwards. *)
Theorem C70_snapshot : forall (mem0 : memory R) (dt : dtype) (s : sparse) (others : seq nat)
    (h : seq (event R)) (m n : nat) t0 v0 c0,
  to_csr_ok to_csr -> acceptable (SparseObject dt s) -> ~~ compressed s ->
  sound mem0 (SparseObject dt s) m n -> fits m n t0 v0 c0 ->
  let V := value mem0 (SparseObject dt s) m n in
  let first := step to_csr (World mem0 (SparseObject dt s) others None) (Compute t0 v0 c0) in
  gives V t0 v0 c0 first.2 /\
  forall t v c, fits m n t v c -> gives V t v c (step to_csr (run to_csr first.1 h) (Compute t v c)).2.
Proof.
  move=> mem0 dt s o h m n t0 v0 c0 Hto Ha Hf Hs Hfit V first.
  have Hdt : dt <> OtherType by move=> E; rewrite E in Ha.
  have [mem' [c [w [E [Hs' Hc Cd] Hv Hi _]]]] := create_other Hto Hf Hdt Hs.
  have E1 : first = step to_csr (World mem' (SparseObject dt s) o (Some w)) (Compute t0 v0 c0).
  { by rewrite /first [LHS]/step E. }
  have EW : first.1 = World mem' (SparseObject dt s) o (Some w) by rewrite E1.
  split.
  - rewrite E1 /V -Hv. case/andP: Hfit => *. exact: copy_compute Hc Cd Hs' (Hi o) _ _.
  - move=> t v z /andP [*]. rewrite EW /V -Hv. apply: copy_compute Hc Cd Hs' _ _ _ => //.
    by apply: copy_run.
Qed.

(** C70. What is accepted, and what is raised otherwise and when. *)
Theorem C70_accepted : forall (mem0 : memory R) (A : object) (others : seq nat) t v c,
  if acceptable A then
    exists W w, [/\ construct mem0 A others = Ok W, W = World mem0 A others None,
      wrap (step to_csr W (Compute t v c)).1 = Some w &
      exists o, (step to_csr W (Compute t v c)).2 = Some (Product o)]
  else let: (constructor, e) := refusal A in
    if constructor then construct mem0 A others = Raise e
    else exists W, [/\ construct mem0 A others = Ok W, W = World mem0 A others None &
           step to_csr W (Compute t v c) = (W, Some (Failed R e))].
Proof.
  have Hset (mem1 : memory R) s k : if writeable (data s) &&
      (native_index s ==> (writeable (indices s) && writeable (indptr s)))
    then exists r, set_sparse mem1 s k = Ok r else set_sparse mem1 s k = Raise ValueError.
  { rewrite /set_sparse /astype_index.
    case: (native_index s) => /=; case: (writeable (data s)); case: (writeable (indices s)) => //=;
      case: (writeable (indptr s)) => //=; by eexists. }
  have Hes (mem1 : memory R) s : same_arrays s (ensure_sorted mem1 s).2.
  { rewrite /ensure_sorted. by case: ifP. }
  have Hcr mem0 A : if acceptable A then exists mem1 A1 w, create to_csr mem0 A = Ok (mem1, A1, w)
    else (refusal A).1 = false -> create to_csr mem0 A = Raise (refusal A).2.
  { case: A => [|dt|dt a|dt s] //; first by case: dt.
    - have Hd : if (c_contiguous a || f_contiguous a) && writeable2 a
        then exists mem1 w, set_dense mem0 a = Ok (mem1, w)
        else set_dense mem0 a =
             Raise (if c_contiguous a || f_contiguous a then ValueError else TypeError).
      { rewrite /set_dense. case: (c_contiguous a); case: (f_contiguous a); case: (writeable2 a) => //=;
          by do 2 eexists. }
      case: dt => //; rewrite /acceptable /refusal /create; case: ifP Hd => _;
        [|move=> -> //| |move=> -> //| |move=> -> //]; by move=> [mem1 [w ->]]; do 3 eexists.
    - case Ef: (compressed s).
      + have E : create to_csr mem0 (SparseObject dt s) =
          (if dt is OtherType then Raise TypeError else
           let (mem, s) := ensure_sorted mem0 s in
           match set_sparse mem s None with
           | Ok (mem, w) => Ok (mem, SparseObject dt s, w)
           | Raise e => Raise e
           end).
        { move: Ef. rewrite /compressed /create. by case: dt; case: (fmt s). }
        have Ea : acceptable (SparseObject dt s) = if dt is OtherType then false else
          writeable (data s) && (native_index s ==> (writeable (indices s) && writeable (indptr s))).
        { move: Ef. rewrite /compressed /acceptable. by case: dt {E}; case: (fmt s). }
        rewrite Ea E. have := Hes mem0 s. case: ensure_sorted => mem1 s1 /= [_ _ _ [E1 E2 E3 E4]].
        have := Hset mem1 s1 None. rewrite E1 E2 E3 E4. case: ifP => _.
        * move=> [[mem2 w] ->]. case: (dt) => //; by do 3 eexists.
        * move=> ->. by case: (dt).
      + have E : create to_csr mem0 (SparseObject dt s) =
          (if dt is OtherType then Raise TypeError else
           let (mem, c) := convert to_csr mem0 s in
           let (mem, c) := ensure_sorted mem c in
           match set_sparse mem c (Some c) with
           | Ok (mem, w) => Ok (mem, SparseObject dt s, w)
           | Raise e => Raise e
           end).
        { move: Ef. rewrite /compressed /create. by case: dt; case: (fmt s). }
        have Ea : acceptable (SparseObject dt s) = if dt is OtherType then false else true.
        { move: Ef. rewrite /compressed /acceptable. by case: dt {E}; case: (fmt s). }
        rewrite Ea E /convert. case: to_csr => [[d i] p].
        set mem1 := Memory _ _. set c := Sparse _ _ _ _ _ _ _ _.
        have := Hes mem1 c. case: ensure_sorted => mem2 s1 /= [_ _ _ [E1 E2 E3 E4]].
        have := Hset mem2 s1 (Some s1). rewrite E1 E2 E3 E4 /=. move=> [[mem3 w] ->].
        case: (dt) => //; by do 3 eexists. }
  move=> mem0 A o t v c. have := Hcr mem0 A.
  have Hc : construct mem0 A o = (let: (k, e) := refusal A in
    if k then Raise e else Ok (World mem0 A o None)).
  { by case: A => [|[]|[]?|[]?]. }
  case: ifP => Ha.
  - have Er : (refusal A).1 = false by case: A Ha {Hc} => [|[]|[]?|[]?].
    move=> [mem1 [A1 [w E]]]. exists (World mem0 A o None), w. split => //.
    + move: Hc Er. by case: refusal => k e -> /= ->.
    + by rewrite /= E.
    + rewrite /= E. by eexists.
  - rewrite Hc. case: refusal => [[] e] //= /(_ erefl) E. exists (World mem0 A o None).
    by rewrite /= E.
Qed.

(** C70. A computation does not change the matrix, nor any matrix that has no
    array in common with it. *)
Theorem C70_untouched : forall (W : world R) (m n : nat) t v c,
  to_csr_ok to_csr -> sound (mem W) (matrix W) m n ->
  let W' := (step to_csr W (Compute t v c)).1 in
  [/\ sound (mem W') (matrix W') m n, value (mem W') (matrix W') m n = value (mem W) (matrix W) m n &
      forall B k l, sound (mem W) B k l -> separate (matrix W) B ->
        sound (mem W') B k l /\ value (mem W') B k l = value (mem W) B k l].
Proof.
  move=> W m n t v c Hto Hs. rewrite [step _ _ _]/=.
  case: (wrap W) => [w|]; first by split.
  case E: create => [[[mem1 A1] w]|e]; last by split.
  rewrite [fst _]/=.
  have Hkk B k l : kept (mem W) mem1 B -> sound (mem W) B k l ->
    sound mem1 B k l /\ value mem1 B k l = value (mem W) B k l.
  { move=> K Hb. split; [exact: kept_sound K|exact: kept_value K]. }
  have Hext s dt k mem2 w2 (mem3 : memory R) : set_sparse mem3 s k = Ok (mem2, w2) ->
    sound mem3 (SparseObject dt s) m n -> extends mem3 mem2.
  { move=> E3 _. move: E3. rewrite /set_sparse /astype_index. case: (native_index s).
    - case: ifP => // _ [<- _]. exact: extends_refl.
    - case: ifP => // _ [<- _]. exists [::]. eexists. by rewrite cats0 /= -!cats1 -catA. }
  case EA: (matrix W) Hs E => [|dt|dt a|dt s] Hs E //.
  - have [E1 E2] : mem1 = mem W /\ A1 = DenseObject dt a.
    { move: E. rewrite /create /set_dense. by case: (dt) => //; do !case: ifP => // _; move=> [<- <- _]. }
    by rewrite E1 E2.
  - case Ef: (compressed s).
    + have {}E : (let (mem, s) := ensure_sorted (mem W) s in
           match set_sparse mem s None with
           | Ok (mem, w) => Ok (mem, SparseObject dt s, w)
           | Raise e => Raise e
           end) = Ok (mem1, A1, w).
      { move: Ef E. rewrite /compressed /create. by case: (dt) => //; case: (fmt s). }
      have := ensure_sorted_ok Ef Hs. have := ensure_sorted_frame Hs.
      case: ensure_sorted E => mem2 s2. case Es: set_sparse => [[mem3 w3]|] // [? ? ?].
      subst mem1 A1 w => - [F1 F2 F3 F4] [G1 G2 G3].
      have X := Hext _ _ _ _ _ _ Es G1. have K := extends_kept G1 X. split.
      * exact: kept_sound K.
      * by rewrite (kept_value G1 K).
      * move=> B k l Hb [S1 S2].
        have K2 : kept (mem W) mem2 B.
        { split; rewrite ?F3 ?F4 // => b Hin.
          - apply: F1 => Eb. by have := S1 b; rewrite /= inE Eb eqxx -Eb Hin => /(_ erefl).
          - apply: F2 => Eb. by have := S2 b; rewrite /= !inE Eb eqxx -Eb Hin => /(_ erefl). }
        have Hb2 := kept_sound Hb K2. have K3 := extends_kept Hb2 X.
        split; first exact: kept_sound K3. by rewrite (kept_value Hb2 K3) (kept_value Hb K2).
    + have Hdt : dt <> OtherType by move=> Edt; rewrite Edt in E.
      have [mem' [c' [w' [E' _ _ _ [F1 F2 F3 F4]]]]] := create_other Hto (negbT Ef) Hdt Hs.
      move: E. rewrite E' => - [? ? ?]. subst mem1 A1 w.
      have K B k l : sound (mem W) B k l -> kept (mem W) mem' B.
      { move=> Hb. have [S1 S2] := sound_bounds Hb. split => // b Hin; [exact/F1/S1|exact/F2/S2]. }
      have [K1 K2] := Hkk _ _ _ (K _ _ _ Hs) Hs. split => // B k l Hb _.
      exact: Hkk (K _ _ _ Hb) Hb.
Qed.

(** C70. Matrices A and B of the same type, data type and shape give the
    function t -> A + t B (A + t I without B).  An explicit B must not be zero
    (C13); of matrices with common arrays the indices must be sorted. *)
Theorem C70_affine_partial : forall (mem0 : memory R) (A : object) (B : option object) (m n : nat),
  to_csr_ok to_csr -> sound mem0 A m n -> acceptable A -> consecutive A ->
  (if B is Some B then
     [/\ sound mem0 B m n, acceptable B, consecutive B, separate_or_ordered mem0 A B &
         [/\ object_type A = object_type B, object_dtype A = object_dtype B &
             value mem0 B m n <> 0%R]]
   else True) ->
  exists mem1 op, create_affine to_csr mem0 A B = Ok (mem1, Some op) /\
    forall (t : R) p, let op := set_parameters op (t :: p) in
    let M := (value mem0 A m n + t *: (if B is Some B then value mem0 B m n else eye R m n))%R in
    (forall v c, n <= size v -> m <= size c -> writes c (M *m vec n v)%R (affine_dot op m n v c)) /\
    (forall v c, m <= size v -> n <= size c ->
       writes c (M^T *m vec m v)%R (affine_transpose_dot op m n v c)).
Proof.
  move=> mem0 A B m n Hto Sa Aa Ca HB.
  have Hsh X : sound mem0 X m n -> object_shape X = (m, n).
  { case: X => // [dt a|dt s] [E1 E2 _ _]; by rewrite /= E1 E2. }
  have Hck : check_affine A B = Ok tt.
  { rewrite /check_affine. case: A Sa Aa Ca HB => // [dA a|dA a] Sa Aa Ca HB.
    - have -> : (match object_dtype (DenseObject dA a) with OtherType => Raise TypeError | _ =>
        match B with None => Ok tt | Some B =>
          if ~~ same_type (object_type (DenseObject dA a)) (object_type B) then Raise TypeError
          else if ~~ same_dtype (object_dtype (DenseObject dA a)) (object_dtype B) then Raise TypeError
          else if object_shape (DenseObject dA a) != object_shape B then Raise ValueError
          else Ok tt end end) = match B with None => Ok tt | Some B =>
          if ~~ same_type (object_type (DenseObject dA a)) (object_type B) then Raise TypeError
          else if ~~ same_dtype (object_dtype (DenseObject dA a)) (object_dtype B) then Raise TypeError
          else if object_shape (DenseObject dA a) != object_shape B then Raise ValueError
          else Ok tt end :> result unit by case: (dA) Aa.
      case: B HB => // B [Sb _ _ _ [Et Ed _]]. rewrite -Et -Ed (Hsh _ Sa) (Hsh _ Sb) eqxx /=.
      by case: (dA) Aa.
    - have -> : (match object_dtype (SparseObject dA a) with OtherType => Raise TypeError | _ =>
        match B with None => Ok tt | Some B =>
          if ~~ same_type (object_type (SparseObject dA a)) (object_type B) then Raise TypeError
          else if ~~ same_dtype (object_dtype (SparseObject dA a)) (object_dtype B) then Raise TypeError
          else if object_shape (SparseObject dA a) != object_shape B then Raise ValueError
          else Ok tt end end) = match B with None => Ok tt | Some B =>
          if ~~ same_type (object_type (SparseObject dA a)) (object_type B) then Raise TypeError
          else if ~~ same_dtype (object_dtype (SparseObject dA a)) (object_dtype B) then Raise TypeError
          else if object_shape (SparseObject dA a) != object_shape B then Raise ValueError
          else Ok tt end :> result unit by case: (dA) Aa.
      case: B HB => // B [Sb _ _ _ [Et Ed _]]. rewrite -Et -Ed (Hsh _ Sa) (Hsh _ Sb) eqxx /=.
      case: (fmt a) => [||k]; rewrite ?eqxx /=; by case: (dA) Aa. }
  have HB' : match B return Prop with
      | Some B => [/\ sound mem0 B m n, acceptable B, consecutive B & separate_or_ordered mem0 A B]
      | None => True end.
  { by case: B HB {Hck} => // B []. }
  have [mem1 [sA [sB [E Wa Da Hb]]]] := @affine_storage R to_csr Hto mem0 A B m n Sa Aa Ca HB' Hck.
  have Hnz s : sB = Some s -> well_formed s m n /\ denotes s m n <> 0%R.
  { move=> Es. rewrite Es in Hb. case: B HB {HB' Hck E} Hb => // B [_ _ _ _ [_ _ Hz]] [Hw Hd].
    by rewrite Hd. }
  have [op Eop] := new_affine_total Wa (fun s Es => proj1 (Hnz s Es)).
  have Hg := good_new Wa Hnz Eop. exists mem1, op. split; first by rewrite E Eop.
  move=> t p op' M.
  have EM : M = (denotes sA m n + t *: matrix_of_B sB m n)%R.
  { rewrite /M Da. congr (_ + _ *: _)%R. move: Hb. rewrite /matrix_of_B.
    case: (B) (sB) => [X|] [s|] // [_ Hd]. by rewrite Hd. }
  have Hg' : good op' sA sB m n by apply: good_set.
  rewrite EM. split => v c Hv Hc.
  - exact: affine_dot_ok Hg' erefl Hv Hc.
  - exact: affine_transpose_dot_ok Hg' erefl Hv Hc.
Qed.

End Props.

(** ** Examples and refutations *)

(** A check of soundness for small matrices *)
Section Check.
Variable R : comRingType.

Definition inside1b (T : Type) (blocks : seq (seq T)) (a : array1) : bool :=
  (base a < size blocks) &&
  all (fun k => Z.leb Z0 (Z.add (Z.of_nat (start a)) (Z.mul (Z.of_nat k) (stride a))) &&
                (pos1 a k < size (nth [::] blocks (base a)))) (iota 0 (len a)).

Lemma inside1P (T : Type) (blocks : seq (seq T)) a : inside1b blocks a -> inside1 blocks a.
Proof.
  case/andP => H1 /allP H2. split => // k Hk.
  have /H2 /andP [/Z.leb_le H3 H4] : k \in iota 0 (len a) by rewrite mem_iota.
  by split.
Qed.

Definition compressedb (L W : nat) (d : seq R) (i p : seq nat) : bool :=
  (L < size p) &&
  all (fun l => (nth 0 p l <= nth 0 p l.+1) &&
        all (fun q => [&& q < size d, q < size i & nth 0 i q < W])
          (iota (nth 0 p l) (nth 0 p l.+1 - nth 0 p l))) (iota 0 L).

Lemma compressedP L W d i p : compressedb L W d i p -> compressed_ok L W d i p /\ nondecreasing L p.
Proof.
  case/andP => H1 /allP H2.
  have Hl l : l < L -> (nth 0 p l <= nth 0 p l.+1) &&
        all (fun q => [&& q < size d, q < size i & nth 0 i q < W])
          (iota (nth 0 p l) (nth 0 p l.+1 - nth 0 p l)) by move=> Hl; apply: H2; rewrite mem_iota.
  split; last by move=> l /Hl /andP [].
  split => // l q /Hl /andP [Hm /allP Ha] Hq.
  have /Ha /and3P [] // : q \in iota (nth 0 p l) (nth 0 p l.+1 - nth 0 p l).
  by rewrite mem_iota subnKC.
Qed.

Definition soundb (mem : memory R) (A : object) (m n : nat) : bool :=
  if A is SparseObject _ s then
    let d := elems 0%R (reals mem) (data s) in
    let i := elems 0 (ints mem) (indices s) in
    let p := elems 0 (ints mem) (indptr s) in
    [&& srows s == m, scols s == n, inside1b (reals mem) (data s), inside1b (ints mem) (indices s),
        inside1b (ints mem) (indptr s), ~~ Z.eqb (stride (data s)) Z0,
        ~~ Z.eqb (stride (indices s)) Z0, base (indices s) != base (indptr s) &
        match fmt s with
        | CSR => compressedb m n d i p
        | CSC => compressedb n m d i p
        | OtherFormat _ => [&& len (indices s) == len (data s), len (indptr s) == len (data s) &
            all (fun q => (nth 0 i q < m) && (nth 0 p q < n)) (iota 0 (len (data s)))]
        end]
  else false.

Lemma soundP mem A m n : soundb mem A m n -> sound mem A m n.
Proof.
  case: A => // dt s.
  case/and5P => /eqP E1 /eqP E2 /inside1P I1 /inside1P I2
    /and5P [/inside1P I3 /negP D1 /negP D2 /eqP Ne Hf].
  rewrite /is_true Z.eqb_eq in D1. rewrite /is_true Z.eqb_eq in D2.
  split => //; first by split => //; left.
  case: (fmt s) Hf => [||k]; [exact: compressedP|exact: compressedP|].
  case/and3P => /eqP L1 /eqP L2 /allP H. split => // q Hq.
  have /H /andP [] // : q \in iota 0 (len (data s)) by rewrite mem_iota.
Qed.

End Check.

(** Conversion that stores every entry *)
Definition all_entries (R : comRingType) (m n : nat) (t : seq (nat * nat * R)) : seq R * seq nat * seq nat :=
  (mkseq (fun k => (\sum_(x <- t | ((x.1.1 == k %/ n) && (x.1.2 == k %% n))%N) x.2)%R) (m * n),
   mkseq (fun k => k %% n) (m * n), mkseq (fun l => l * n) m.+1).

Example C70_example_conversion : forall R : comRingType, to_csr_ok (@all_entries R).
Proof.
  move=> R m n t _. rewrite /all_entries.
  have Hp l : l <= m -> nth 0 (mkseq (fun l => l * n) m.+1) l = l * n by move=> H; rewrite nth_mkseq.
  have Hin l q : l < m -> l * n <= q < l.+1 * n -> q < m * n /\ 0 < n.
  { move=> Hl /andP [H1 H2]. split; last by case: (n) H2 H1 => //; rewrite !muln0.
    apply: leq_trans H2 _. by rewrite leq_mul2r Hl orbT. }
  split.
  - split; first by rewrite size_mkseq. move=> l q Hl. rewrite !Hp ?(ltnW Hl) // => Hq.
    have [H1 H2] := Hin l q Hl Hq. by rewrite !size_mkseq nth_mkseq // ltn_mod.
  - move=> l Hl. by rewrite !Hp ?(ltnW Hl) // leq_mul2r leqnSn orbT.
  - apply/matrixP => r c. rewrite !mxE !Hp ?(ltnW (ltn_ord r)) //.
    have Hn : 0 < n by case: (n) c => [[]|].
    have Hrc : r * n <= r * n + c < r.+1 * n by rewrite leq_addr mulSn addnC ltn_add2r ltn_ord.
    have [Hlt _] := Hin r (r * n + c) (ltn_ord r) Hrc.
    rewrite big_mkcond (bigD1_seq (r * n + c)) ?mem_index_iota ?iota_uniq //= nth_mkseq // modnMDl.
    rewrite modn_small // eqxx big_nat_cond big1 ?addr0.
    { rewrite nth_mkseq // divnMDl // divn_small // addn0 modnMDl modn_small //. }
    move=> q /andP [Hq Hne]. case: eqP => // E. have [Hlt' _] := Hin r q (ltn_ord r) Hq.
    rewrite nth_mkseq // in E. case/negP: Hne. apply/eqP.
    rewrite [LHS](divn_eq q n) E. congr (_ * _ + _).
    apply/eqP. rewrite eqn_leq -ltnS ltn_divLR // leq_divRL //. lia.
Qed.

(** The examples use integers *)
Notation I := int_comRing.
Definition whole (b n : nat) : array1 := Array1 b 0 (Zpos xH) n true.

(** The outcome is the vector r *)
Definition computed (o : option (outcome I)) (r : seq int) : bool :=
  if o is Some (Product (Some c)) then c == r :> seq int else false.

Lemma computedP o r : computed o r -> o = Some (Product (Some r)).
Proof. by case: o => [[|[c|]]|] //= /eqP ->. Qed.

(** A = [[1, 2], [0, 3]] in CSR with the first row unsorted; the program writes 7
    in the first place of A.data after the first computation *)
Definition mem_csr : memory I := Memory [:: [:: 2; 1; 3]]%R [:: [:: 1; 0; 1]; [:: 0; 2; 3]].
Definition a_csr : object := SparseObject Float64 (Sparse CSR 2 2 (whole 0 3) (whole 0 3) (whole 1 3) true None).
Definition changes : seq (event I) :=
  [:: Compute false [:: 1; 1]%R [:: 0; 0]%R; Poke 0 0 (7 : I); Compute true [:: 1; 1]%R [:: 0; 0]%R].

Example C70_example_current :
  let W0 := World mem_csr a_csr [::] None in
  [/\ acceptable a_csr && direct a_csr, consecutive a_csr, all (in_place a_csr) changes,
      forall h1 h2, changes = h1 ++ h2 ->
        let W := run (@all_entries I) W0 h1 in sound (mem W) (matrix W) 2 2 &
      computed (step (@all_entries I) (run (@all_entries I) W0 changes) (Compute false [:: 1; 1] [:: 0; 0])).2
        [:: 9; 3]]%R.
Proof.
  split; [by []|by split=> //; [left|split; left]|by []| |by vm_compute].
  case=> [|e1 [|e2 [|e3 [|e4 h]]]] h2 E; cbv zeta; apply: soundP; move: E.
  - move=> _. by vm_compute.
  - case=> <- _. by vm_compute.
  - case=> <- <- _. by vm_compute.
  - case=> <- <- <- _. by vm_compute.
  - by case.
Qed.

(** Two different matrices give different outcomes *)
Lemma gives_row (n : nat) (V : 'M[I]_(1, n)) v r o : computed o [:: r] ->
  gives V false v [:: 0%R] o -> (\sum_(j < n) V ord0 j * v`_j = r)%R.
Proof.
  move=> /computedP -> [c' [[<-] [c2 [[<-] E _ _]]]].
  move/matrixP: E => /(_ ord0 ord0). rewrite !mxE /= => ->. apply: eq_bigr => j _. by rewrite !mxE.
Qed.

(** C70 refuted for sparse matrices whose arrays are not contiguous, for example
    the real part of a complex matrix: A = [1, 2], the other places of A.data are
    5 and 7; the operator multiplies by [1, 5]. *)
Theorem C70_strided_refuted : forall to_csr : nat -> nat -> seq (nat * nat * I) -> seq I * seq nat * seq nat,
  exists (mem0 : memory I) (A : object) (v : seq int),
    [/\ acceptable A && direct A, sound mem0 A 1 2,
        value mem0 A 1 2 = (\row_(j < 2) if j == ord0 then 1 else 2)%R,
        computed (step to_csr (World mem0 A [::] None) (Compute false v [:: 0%R])).2 [:: 5%R] &
        ~ gives (value mem0 A 1 2) false v [:: 0%R]
            (step to_csr (World mem0 A [::] None) (Compute false v [:: 0%R])).2].
Proof.
  move=> to_csr.
  pose mem0 : memory I := Memory [:: [:: 1; 5; 2; 7]%R] [:: [:: 0; 1]; [:: 0; 2]].
  pose A := SparseObject Float64
    (Sparse CSR 1 2 (Array1 0 0 (Zpos (xO xH)) 2 true) (whole 0 2) (whole 1 2) true None).
  exists mem0, A, [:: 0; 1]%R.
  have HV : value mem0 A 1 2 = (\row_(j < 2) if j == ord0 then 1 else 2)%R.
  { apply/matrixP => - [[|i] Hi] [[|[|j]] Hj] //; by rewrite !mxE unlock. }
  have Hc : computed (step to_csr (World mem0 A [::] None) (Compute false [:: 0; 1]%R [:: 0%R])).2 [:: 5%R].
  { by vm_compute. }
  split => //; first by apply: soundP; vm_compute.
  move/(gives_row Hc). rewrite HV !big_ord_recl big_ord0 !mxE. by [].
Qed.

(** C70 refuted for entries inserted after the first computation: scipy replaces
    the arrays of A = [3, 0], and the operator reads arrays that have been
    released. *)
Theorem C70_replaced_refuted : forall to_csr : nat -> nat -> seq (nat * nat * I) -> seq I * seq nat * seq nat,
  exists (mem0 : memory I) (A : object) (h : seq (event I)),
    [/\ acceptable A && direct A, consecutive A,
        forall h1 h2, h = h1 ++ h2 -> let W := run to_csr (World mem0 A [::] None) h1 in
          sound (mem W) (matrix W) 1 2 &
        forall v c, let W := run to_csr (World mem0 A [::] None) h in
          (step to_csr W (Compute false v c)).2 = Some (Product None)].
Proof.
  move=> to_csr.
  pose mem0 : memory I := Memory [:: [:: 3]%R] [:: [:: 0]; [:: 0; 1]].
  pose A := SparseObject Float64 (Sparse CSR 1 2 (whole 0 1) (whole 0 1) (whole 1 2) true None).
  exists mem0, A, [:: Compute false [:: 1; 1]%R [:: 0]%R; Replace [:: 3; 4]%R [:: 0; 1] [:: 0; 2]].
  split; [by []|by split; [left|split; left]| |].
  - case=> [|e1 [|e2 [|e3 h]]] h2 E; cbv zeta; apply: soundP; move: E.
    + move=> _. by vm_compute.
    + case=> <- _. by vm_compute.
    + case=> <- <- _. by vm_compute.
    + by case.
  - move=> v c. set W := run _ _ _. cbv zeta.
    have [w Ew] : exists w, wrap W = Some w by eexists.
    have Hn : storage_of W w = None by move: Ew; rewrite /W /= => - [<-].
    by rewrite /step Ew [snd _]/= /product Hn.
Qed.

(** C70 refuted for matrices that share their index arrays, as in
    B = csr_matrix((d, A.indices, A.indptr)): A = [1, 2] and B = [10, 20] have
    unsorted indices; sorting A in place changes B into [20, 10]. *)
Theorem C70_shared_refuted : forall to_csr : nat -> nat -> seq (nat * nat * I) -> seq I * seq nat * seq nat,
  exists (mem0 : memory I) (A B : object) (mem1 : memory I) (op : affine I) (r : seq int),
    [/\ [/\ acceptable A && direct A, consecutive A & sound mem0 A 1 2],
        [/\ acceptable B && direct B, consecutive B & sound mem0 B 1 2],
        object_type A = object_type B /\ object_dtype A = object_dtype B,
        create_affine to_csr mem0 A (Some B) = Ok (mem1, Some op) &
        affine_dot (set_parameters op [:: 1%R]) 1 2 [:: 1; 0]%R [:: 0]%R = Some r /\
        vec 1 r <> ((value mem0 A 1 2 + 1 *: value mem0 B 1 2) *m vec 2 [:: 1; 0])%R].
Proof.
  move=> to_csr.
  pose mem0 : memory I := Memory [:: [:: 2; 1]; [:: 20; 10]]%R [:: [:: 1; 0]; [:: 0; 2]].
  pose A := SparseObject Float64 (Sparse CSR 1 2 (whole 0 2) (whole 0 2) (whole 1 2) true None).
  pose B := SparseObject Float64 (Sparse CSR 1 2 (whole 1 2) (whole 0 2) (whole 1 2) true None).
  have HA : value mem0 A 1 2 = (\row_(j < 2) if j == ord0 then 1 else 2)%R.
  { apply/matrixP => - [[|i] Hi] [[|[|j]] Hj] //; by rewrite !mxE unlock. }
  have HB : value mem0 B 1 2 = (\row_(j < 2) if j == ord0 then 10 else 20)%R.
  { apply/matrixP => - [[|i] Hi] [[|[|j]] Hj] //; by rewrite !mxE unlock. }
  exists mem0, A, B.
  pose mem1 : memory I := Memory [:: [:: 1; 2]; [:: 20; 10]]%R [:: [:: 0; 1]; [:: 0; 2]].
  exists mem1, (Affine (Csr [:: 1; 2] [:: 0; 1]%N [:: 0; 2]%N)
                  (Some (Csr [:: 20; 10] [:: 0; 1]%N [:: 0; 2]%N)) false false None)%R, [:: 21]%R.
  split.
  - split; [by []|by split; [left|split; left]|by apply: soundP; vm_compute].
  - split; [by []|by split; [left|split; left]|by apply: soundP; vm_compute].
  - by [].
  - by [].
  - split; first by [].
    rewrite HA HB scale1r => /matrixP /(_ ord0 ord0).
    by rewrite !mxE !big_ord_recl big_ord0 !mxE.
Qed.

(** C70 refuted for other formats: the operator does not follow a change of the
    matrix after the first computation. *)
Theorem C70_stale_refuted : forall to_csr : nat -> nat -> seq (nat * nat * I) -> seq I * seq nat * seq nat,
  to_csr_ok to_csr ->
  exists (mem0 : memory I) (A : object) (h : seq (event I)),
    [/\ acceptable A, consecutive A, sound mem0 A 1 1 &
        let W := run to_csr (World mem0 A [::] None) h in
        [/\ value mem0 A 1 1 = 3%:M, value (mem W) (matrix W) 1 1 = 5%:M &
            ~ gives (value (mem W) (matrix W) 1 1) false [:: 1] [:: 0]
                (step to_csr W (Compute false [:: 1] [:: 0])).2]]%R.
Proof.
  move=> to_csr Hto.
  pose mem0 : memory I := Memory [:: [:: 3]%R] [:: [:: 0]; [:: 0]].
  pose s := Sparse (OtherFormat 0) 1 1 (whole 0 1) (whole 0 1) (whole 1 1) true None.
  pose e : event I := Compute false [:: 1]%R [:: 0]%R.
  have Hs : sound mem0 (SparseObject Float64 s) 1 1 by apply: soundP; vm_compute.
  exists mem0, (SparseObject Float64 s), [:: e; Poke 0 0 (5%R : I)]. split => //. cbv zeta.
  have Hf : fits 1 1 false [:: 1%R : I] [:: 0%R] by [].
  have [_ G] := @C70_snapshot I to_csr mem0 Float64 s [::] [:: Poke 0 0 (5%R : I)] 1 1 false
    [:: 1%R] [:: 0%R] Hto erefl erefl Hs Hf.
  have {G} b := G false _ _ Hf. move: b. set W0 := World mem0 _ _ _.
  have -> : run to_csr (step to_csr W0 (Compute false [:: 1%R] [:: 0%R])).1 [:: Poke 0 0 (5%R : I)] =
            run to_csr W0 [:: e; Poke 0 0 (5%R : I)] by [].
  set W := run _ _ _ => b.
  have HV : value mem0 (SparseObject Float64 s) 1 1 = (3%:M)%R.
  { apply/matrixP => - [[|i] Hi] [[|j] Hj] //. by rewrite !mxE big_mkcond big_ord1 /= mulr1n. }
  have HW : value (mem W) (matrix W) 1 1 = (5%:M)%R.
  { rewrite /W /run [foldl _ _ _]/= /convert. case: (to_csr _ _ _) => [[d i] p].
    rewrite /ensure_sorted. case: (has_sorted_indices _ _); rewrite /sort_indices /=;
      apply/matrixP => - [[|k] Hk] [[|j] Hj] //; by rewrite !mxE big_mkcond big_ord1 /= mulr1n. }
  split => //. move: b. rewrite HV HW => - [c1 [-> [c1' [[<-] E1 _ _]]]] [c2 [[<-] [c2' [[<-] E2 _ _]]]].
  move: E2. rewrite E1 => /matrixP /(_ ord0 ord0). by rewrite !mxE !big_ord1 !mxE.
Qed.

(** C70 refuted for index arrays of another integer type: the operator has
    copies and does not follow a change of A.indices. *)
Theorem C70_index_refuted : forall to_csr : nat -> nat -> seq (nat * nat * I) -> seq I * seq nat * seq nat,
  exists (mem0 : memory I) (A : object) (h : seq (event I)),
    [/\ acceptable A && direct A, consecutive A,
        forall h1 h2, h = h1 ++ h2 -> let W := run to_csr (World mem0 A [::] None) h1 in
          sound (mem W) (matrix W) 1 2 &
        let W := run to_csr (World mem0 A [::] None) h in
        ~ gives (value (mem W) (matrix W) 1 2) false [:: 1; 0] [:: 0]
            (step to_csr W (Compute false [:: 1; 0] [:: 0])).2]%R.
Proof.
  move=> to_csr.
  pose mem0 : memory I := Memory [:: [:: 3]%R] [:: [:: 0]; [:: 0; 1]].
  pose A := SparseObject Float64 (Sparse CSR 1 2 (whole 0 1) (whole 0 1) (whole 1 2) false None).
  exists mem0, A, [:: Compute false [:: 1; 1]%R [:: 0]%R; PokeInt I 0 0 1].
  split; [by []|by split; [left|]| |].
  - case=> [|e1 [|e2 [|e3 h]]] h2 E; cbv zeta; apply: soundP; move: E.
    + move=> _. by vm_compute.
    + case=> <- _. by vm_compute.
    + case=> <- <- _. by vm_compute.
    + by case.
  - cbv zeta. set W := run _ _ _.
    have Hc : computed (step to_csr W (Compute false [:: 1; 0]%R [:: 0%R])).2 [:: 3%R] by vm_compute.
    move/(gives_row Hc).
    have -> : value (mem W) (matrix W) 1 2 = (\row_(j < 2) if j == ord0 then 0 else 3)%R.
    { apply/matrixP => - [[|i] Hi] [[|[|j]] Hj] //; by rewrite !mxE unlock. }
    by rewrite !big_ord_recl big_ord0 !mxE.
Qed.

(** A matrix in coordinates with a repeated entry and an affine function of two
    matrices of their own *)
Example C70_example_snapshot :
  let mem0 : memory I := Memory [:: [:: 3; 4]%R] [:: [:: 1; 1]; [:: 0; 0]] in
  let A := SparseObject Float32
             (Sparse (OtherFormat 0) 2 1 (whole 0 2) (whole 0 2) (whole 1 2) false None) in
  [/\ acceptable A, sound mem0 A 2 1 & value mem0 A 2 1 = (\col_i (if i == ord0 then 0 else 7))%R].
Proof.
  split; [by []|by apply: soundP; vm_compute|].
  apply/matrixP => - [[|[|i]] Hi] [[|j] Hj] //; by rewrite !mxE big_mkcond !big_ord_recl big_ord0.
Qed.

Example C70_example_affine :
  let mem0 : memory I := Memory [:: [:: 2; 1; 3]; [:: 5]]%R [:: [:: 1; 0; 1]; [:: 0; 2; 3]; [:: 1]; [:: 0; 1; 1]] in
  let A := SparseObject Float64 (Sparse CSR 2 2 (whole 0 3) (whole 0 3) (whole 1 3) true None) in
  let B := SparseObject Float64 (Sparse CSR 2 2 (whole 1 1) (whole 2 1) (whole 3 3) true None) in
  [/\ [/\ sound mem0 A 2 2, acceptable A & consecutive A],
      [/\ sound mem0 B 2 2, acceptable B, consecutive B, separate_or_ordered mem0 A B &
          [/\ object_type A = object_type B, object_dtype A = object_dtype B &
              value mem0 B 2 2 <> 0%R]] &
      (if create_affine (@all_entries I) mem0 A (Some B) is Ok (_, Some op) then
         if affine_dot (set_parameters op [:: 10]) 2 2 [:: 1; 1] [:: 0; 0] is Some c then
           c == [:: 53; 3] :> seq int else false
       else false)%R].
Proof.
  split.
  - split; [by apply: soundP; vm_compute|by []|by split; [left|split; left]].
  - split; [by apply: soundP; vm_compute|by []|by split; [left|split; left]| |].
    + right; left. by split => b /=; rewrite !inE => /eqP; case: b => [|[|b]].
    + split=> //. move/matrixP/(_ ord0 (lift ord0 ord0)). by rewrite !mxE unlock.
  - by vm_compute.
Qed.

Definition C70_assumptions :=
  (@C70_current_partial, @C70_snapshot, @C70_accepted, @C70_untouched, @C70_affine_partial,
   @C70_strided_refuted, @C70_replaced_refuted, @C70_shared_refuted, @C70_stale_refuted,
   @C70_index_refuted).
Print Assumptions C70_assumptions.
