(** Arrays with checked accesses and C-style loops.  An access outside an
    array yields [None], so a proof that a program equals [Some _] shows that
    it stays inside its arrays. *)
From mathcomp Require Import all_ssreflect.
Set Implicit Arguments.
Unset Strict Implicit.
Unset Printing Implicit Defensive.

Notation "'do' x <- e ; f" := (obind (fun x => f) e)
  (at level 200, x pattern, e at level 100, f at level 200, right associativity).

(** Read and write of position [i] of array [m]. *)
Definition rd (T : Type) (m : seq T) (i : nat) : option T := ohead (drop i m).
Definition wr (T : Type) (m : seq T) (i : nat) (v : T) : option (seq T) :=
  if i < size m then Some (set_nth v m i v) else None.

(** for (k = i; k < bound; k += step) s = f k s *)
Fixpoint loop (S : Type) (fuel i bound step : nat)
    (f : nat -> S -> option S) (s : S) : option S :=
  if i < bound then
    if fuel is fuel'.+1 then obind (loop fuel' (i + step) bound step f) (f i s)
    else None
  else Some s.

Definition for_ (S : Type) (i bound step : nat) (f : nat -> S -> option S) (s : S)
  : option S := loop bound i bound step f s.

Section MemLemmas.

Lemma rdE (T : Type) (x0 : T) m i : i < size m -> rd m i = Some (nth x0 m i).
Proof. by rewrite /rd => Hi; rewrite (drop_nth x0 Hi). Qed.

Lemma rd_some (T : Type) (m : seq T) i v : rd m i = Some v -> i < size m.
Proof.
  rewrite /rd. case: (ltnP i (size m)) => // Hi. by rewrite drop_oversize.
Qed.

Lemma wrE (T : Type) (m : seq T) i v : i < size m -> wr m i v = Some (set_nth v m i v).
Proof. by rewrite /wr => ->. Qed.

Lemma size_wr (T : Type) (m m' : seq T) i v : wr m i v = Some m' -> size m' = size m.
Proof.
  rewrite /wr. case: ifP => // Hi [<-]. rewrite size_set_nth. by apply/maxn_idPr.
Qed.

Lemma nth_wr (T : Type) (x0 : T) (m m' : seq T) i v k : wr m i v = Some m' ->
  nth x0 m' k = if k == i then v else nth x0 m k.
Proof.
  rewrite /wr. case: ifP => // Hi [<-].
  case: (ltnP k (size m)) => Hk.
  - rewrite (set_nth_default v) ?size_set_nth ?leq_max ?Hk ?orbT //.
    rewrite nth_set_nth /=. case: eqP => // _. exact: set_nth_default.
  - rewrite !nth_default // ?size_set_nth ?(maxn_idPr Hi) //.
    case: eqP => // E. by rewrite E leqNgt Hi in Hk.
Qed.

Lemma loop_inv (S : Type) (I : nat -> S -> Prop) fuel i bound step f s :
  0 < step -> step %| bound - i -> i <= bound -> bound - i <= fuel ->
  I i s ->
  (forall k s, i <= k -> k + step <= bound -> I k s ->
     exists2 s', f k s = Some s' & I (k + step) s') ->
  exists2 s', loop fuel i bound step f s = Some s' & I bound s'.
Proof.
  move=> Hst. elim: fuel i s => [|fuel IH] i s Hdiv Hi Hf HI Hbody /=.
  - have -> : i < bound = false by apply/negbTE; rewrite -leqNgt -subn_eq0 -leqn0.
    have E : i = bound by apply/eqP; rewrite eqn_leq Hi -subn_eq0 -leqn0.
    exists s => //. by rewrite -E.
  - case: (ltnP i bound) => Hlt; last first.
    { exists s => //. have -> // : bound = i. by apply/eqP; rewrite eqn_leq Hi Hlt. }
    have Hle : i + step <= bound.
    { rewrite -(subnKC Hi) leq_add2l. apply: dvdn_leq => //. by rewrite subn_gt0. }
    have [s1 E1 I1] := Hbody i s (leqnn _) Hle HI.
    rewrite E1 /=. apply: IH => //.
    + by rewrite subnDA dvdn_sub.
    + rewrite leq_subLR. rewrite leq_subLR in Hf.
      apply: leq_trans Hf _. by rewrite -addnA leq_add2l -add1n leq_add2r.
    + move=> k s2 Hk. apply: Hbody. exact: leq_trans (leq_addr _ _) Hk.
Qed.

Lemma for_inv (S : Type) (I : nat -> S -> Prop) i bound step f s :
  0 < step -> step %| bound - i -> i <= bound -> I i s ->
  (forall k s, i <= k -> k + step <= bound -> I k s ->
     exists2 s', f k s = Some s' & I (k + step) s') ->
  exists2 s', for_ i bound step f s = Some s' & I bound s'.
Proof. move=> Hs Hd Hi. apply: loop_inv => //. exact: leq_subr. Qed.

(** Unit step. *)
Lemma for1_inv (S : Type) (I : nat -> S -> Prop) i bound f s :
  i <= bound -> I i s ->
  (forall k s, i <= k < bound -> I k s ->
     exists2 s', f k s = Some s' & I k.+1 s') ->
  exists2 s', for_ i bound 1 f s = Some s' & I bound s'.
Proof.
  move=> Hi HI Hb. apply: for_inv => //; rewrite ?dvd1n //.
  move=> k s' Hk. rewrite !addn1 => Hlt. apply: Hb. by rewrite Hk Hlt.
Qed.

(** Empty loop. *)
Lemma for_empty (S : Type) i bound step f (s : S) :
  bound <= i -> for_ i bound step f s = Some s.
Proof.
  rewrite /for_ => H. have Hf : i < bound = false by rewrite ltnNge H.
  case: bound H Hf => [|b] H Hf /=; by rewrite ?Hf.
Qed.

End MemLemmas.
