(** C94: the arrays in which the samples are collected. *)
From mathcomp Require Import all_ssreflect.
From Verif Require Import Mem HeapModel PropHeap SampleBufModel.
Set Implicit Arguments.
Unset Strict Implicit.
Unset Printing Implicit Defensive.

(** Specification: what was stored last at (i, j), NaN if nothing was *)
Fixpoint last_stored (V : Type) (v : V) (l : seq (nat * nat * V)) (i j : nat) : V :=
  if l is (i', j', w) :: l' then last_stored (if (i == i') && (j == j') then w else v) l' i j else v.

(** All stores are to samples and inquiries that exist *)
Definition in_range (V : Type) (m q : nat) (l : seq (nat * nat * V)) : bool :=
  all (fun a => (a.1.1 < m) && (a.1.2 < q)) l.

Lemma wr_mkseq (T : Type) (g : nat -> T) n k v : k < n ->
  wr (mkseq g n) k v = Some (mkseq (fun i => if i == k then v else g i) n).
Proof.
move=> lt; have W : wr (mkseq g n) k v = Some (set_nth v (mkseq g n) k v) by rewrite wrE ?size_mkseq.
rewrite W; congr Some; apply: (@eq_from_nth _ v); first by rewrite (size_wr W) !size_mkseq.
move=> i; rewrite (size_wr W) size_mkseq => Hi; rewrite (nth_wr _ _ W) !nth_mkseq //.
Qed.

Lemma rd_mkseq (T : Type) (g : nat -> T) n k : k < n -> rd (mkseq g n) k = Some (g k).
Proof. by move=> lt; rewrite (rdE (g k)) ?size_mkseq // nth_mkseq. Qed.

Lemma mkseq_rcons (T : Type) (g : nat -> T) k : mkseq g k.+1 = rcons (mkseq g k) (g k).
Proof. by rewrite /mkseq -addn1 iotaD map_cat cats1. Qed.

Lemma eq_mkseq_in (T : Type) (f g : nat -> T) n : (forall i, i < n -> f i = g i) -> mkseq f n = mkseq g n.
Proof.
move=> E; elim: n E => // n IH E; rewrite !mkseq_rcons E // IH // => i Hi; apply: E; exact: ltnW.
Qed.

Section Props.
Variables (V : Type) (nan : V) (p : platform) (t : type).
Hypothesis wide : t = Double -> of_pointer p = of_double p.

Lemma fits_outer m i : i < m -> fits (outer_factor p t * m) (of_pointer p) i.
Proof.
move=> lt; rewrite /fits mulnC; apply: leq_mul => //.
by case: t wide => //= ->.
Qed.

Lemma fits_row q j : j < q -> fits (row_factor p t * q) (sizeof p t) j.
Proof.
move=> lt; rewrite /fits mulnC; apply: leq_mul => //.
by case: t wide => //= ->.
Qed.

(** Arrays with blocks [bl] and contents [g] *)
Definition arrays (m q : nat) (o : nat) (bl : nat -> nat) (g : nat -> nat -> V) : buffers V :=
  Buffers o (mkseq (fun i => (bl i, mkseq (g i) q)) m).

Lemma allocateP m q h L : owns h L ->
  exists h' o bl, allocate nan p t m q h = Some (h', arrays m q o bl (fun _ _ => nan)) /\
    owns h' (mkseq bl m ++ o :: L).
Proof.
move=> H; rewrite /allocate /=.
set h0 := Heap _ _; have H0 : owns h0 (next h :: L) := owns_new H.
pose row := mkseq (fun _ => nan) q.
pose bl i := (next h).+1 + i.
pose I k (s : heap * seq (nat * seq V)) :=
  [/\ s.2 = mkseq (fun i => (bl i, row)) k, next s.1 = bl k & owns s.1 (mkseq bl k ++ next h :: L)].
set f := (fun (i : nat) (s : heap * seq (nat * seq V)) => _).
have [|k [h1 r] /andP [_ lt] [/= -> N H1]|[h1 r] -> [/= -> N H1]] := @for1_inv _ I 0 m f (h0, [::]) (leq0n m).
- by split=> //=; rewrite /bl addn0.
- rewrite /f /= fits_outer //.
  pose f2 (j : nat) (w : seq V) := if fits (row_factor p t * q) (sizeof p t) j then Some (rcons w nan) else None.
  rewrite -/f2.
  have [|j w /andP [_ lj] ->|w -> ->] := @for1_inv _ (fun j w => w = mkseq (fun _ => nan) j) 0 q f2 [::] (leq0n q).
  + by [].
  + by rewrite /f2 fits_row //; eexists; [reflexivity|rewrite mkseq_rcons].
  + rewrite /=; eexists; first reflexivity.
    split; rewrite /= ?mkseq_rcons ?N //; first by rewrite /bl addnS.
    have := owns_new H1; rewrite /= N => /owns_perm; apply.
    by rewrite -[bl 0 :: _]/(mkseq bl k.+1 ++ _) mkseq_rcons cat_rcons -cat1s perm_catCA.
- by exists h1, (next h), bl; split.
Qed.

Lemma storesP m q o bl g l : in_range m q l ->
  stores p t m q (arrays m q o bl g) l = Some (arrays m q o bl (fun i j => last_stored (g i j) l i j)).
Proof.
elim: l g => [|[[i j] v] l IH] g //= /andP [/andP [/= li lj] Hl].
rewrite fits_outer // fits_row //= rd_mkseq //= wr_mkseq //= wr_mkseq //=.
rewrite -(IH (fun i' j' => if (i' == i) && (j' == j) then v else g i' j')) //.
congr (stores _ _ _ _ (Buffers _ _) _); apply: eq_mkseq_in => i' _.
case: (i' =P i) => [->|_] //=.
Qed.

Lemma releaseP m q o bl g h L : owns h (mkseq bl m ++ o :: L) ->
  exists2 h', release m (arrays m q o bl g) h = Some h' & owns h' L.
Proof.
move=> H; rewrite /release.
pose I k h := owns h (map bl (iota k (m - k)) ++ o :: L).
set f := (fun (i : nat) (h : heap) => _).
have [|k h1 /andP [_ lt]|h1 -> ] := @for1_inv _ I 0 m f h (leq0n m).
- by rewrite /I subn0.
- rewrite /I -(subnSK lt) /= => H1; rewrite /f rd_mkseq //=.
  by have [h2 -> H2] := owns_delete H1; exists h2.
- by rewrite /I subnn /=; apply: owns_delete.
Qed.

(** Whatever is stored, and wherever as long as the sample and the inquiry exist: no
    access is outside the arrays, each array holds what was stored last and NaN
    elsewhere, and every block is released once, leaving the blocks [L] as before.  For
    double: on platforms where pointers are as large as doubles. *)
Theorem C94_safe m q l h L : owns h L -> in_range m q l ->
  exists2 h', wrapper nan p t m q l h = Some (h', mkseq (fun i => mkseq (last_stored nan l i) q) m) & owns h' L.
Proof.
move=> H Hl; rewrite /wrapper.
have [h1 [o [bl [-> H1]]]] /= := allocateP m q H.
rewrite storesP //=; have [h2 -> H2] /= := releaseP q (fun i j => last_stored nan l i j) H1.
by exists h2 => //; rewrite /arrays /= -map_comp.
Qed.
End Props.

Lemma for_first (S : Type) m (f : nat -> S -> option S) s : f 0 s = None -> for_ 0 m.+1 1 f s = None.
Proof. by rewrite /for_ /= => ->. Qed.

Lemma row_overflow (V : Type) (nan : V) p q : of_pointer p < of_double p ->
  for_ 0 q.+1 1 (fun j row =>
    if fits (of_pointer p * q.+1) (of_double p) j then Some (rcons row nan) else None) [::] = None.
Proof.
move=> lt; have F : fits (of_pointer p * q.+1) (of_double p) q = false.
  by apply/negbTE; rewrite /fits -ltnNge mulnC ltn_mul2l.
set f := (fun (j : nat) (row : seq V) => _).
suff E k i w : i + k = q -> loop k.+1 i q.+1 1 f w = None by exact: E.
elim: k i w => [|k IH] i w Ei.
  by move: Ei; rewrite addn0 => ->; rewrite /= ltnSn /f F.
have -> : loop k.+2 i q.+1 1 f w = if i < q.+1 then obind (loop k.+1 (i + 1) q.+1 1 f) (f i w) else Some w by [].
rewrite ltnS -{1}Ei leq_addr; case: (f i w) => [w'|] //.
rewrite -[obind _ _]/(loop k.+1 (i + 1) q.+1 1 f w').
by apply: IH; rewrite addn1 addSnnS.
Qed.

(** Full statement: on every platform.  It is false: sizeof(double) and
    sizeof(double* ) are swapped for double, so with pointers of 4 bytes the rows have
    half the bytes needed, and NaN is written behind the first row already *)
Theorem C94_narrow_refuted (V : Type) (nan : V) p m q l h :
  of_pointer p < of_double p -> 0 < m -> 0 < q -> wrapper nan p Double m q l h = None.
Proof.
move=> lt; case: m => // m _; case: q => // q _; rewrite /wrapper /allocate /=.
rewrite for_first //=; case: fits => //.
by rewrite (row_overflow nan q lt).
Qed.

(** Cases: x86-64 for all types; i686 is the narrow platform *)
Definition x86_64 : platform := Platform 8 4 8 16.
Definition i686 : platform := Platform 4 4 8 12.
Example C94_wide_case t : t = Double -> of_pointer x86_64 = of_double x86_64.
Proof. by []. Qed.
Example C94_narrow_case : of_pointer i686 < of_double i686.
Proof. by []. Qed.
Example C94_case : omap snd (wrapper 7 x86_64 Double 2 3 [:: (1, 2, 5); (0, 0, 4); (1, 2, 6)] (Heap [:: 9] 10)) =
  Some [:: [:: 4; 7; 7]; [:: 7; 7; 6]].
Proof. by vm_compute. Qed.

Definition C94_assumptions := (@C94_safe, @C94_narrow_refuted).
Print Assumptions C94_assumptions.
