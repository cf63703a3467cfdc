(** * C82: the resources on the GPU devices *)
From mathcomp Require Import all_ssreflect zify.
From Verif Require Import Mem HandleModel HandleSpec.

Set Implicit Arguments.
Unset Strict Implicit.
Unset Printing Implicit Defensive.

(** ** What a row of pointers owns *)
Fixpoint own_row (ks : seq res) (d : nat) (r : row) : seq entry :=
  match ks, r with
  | k :: ks, Ptr i :: r => (i, (k, d)) :: own_row ks d r
  | _ :: ks, _ :: r => own_row ks d r
  | _, _ => [::]
  end.
Definition own_rows ks (ds : seq nat) (tab : table) : seq entry :=
  flatten [seq own_row ks d (nth [::] tab d) | d <- ds].
Definition own_table ks (tab : table) : seq entry := own_rows ks (iota 0 (size tab)) tab.

Fixpoint fits (p : res -> slot -> bool) (ks : seq res) (r : row) : bool :=
  match ks, r with
  | k :: ks, s :: r => p k s && fits p ks r
  | [::], [::] => true
  | _, _ => false
  end.
Definition is_ptr (k : res) (s : slot) : bool := if s is Ptr _ then true else false.
Definition can_free (k : res) (s : slot) : bool :=
  match s with Ptr _ => true | Null => k == Memory | Uninit => false end.
Notation full := (fits is_ptr).
Notation freeable := (fits can_free).
Lemma full_free ks r : full ks r -> freeable ks r.
Proof. by elim: ks r => [|k ks IH] [|[||i] r] //=; exact: IH. Qed.
Definition table_is p ks n (tab : table) : Prop :=
  size tab = n /\ forall d, d < n -> fits p ks (nth [::] tab d).
Notation full_table := (table_is is_ptr).
Notation free_table := (table_is can_free).
Lemma table_free ks n tab : full_table ks n tab -> free_table ks n tab.
Proof. by case=> H1 H2; split => // d /H2; exact: full_free. Qed.

(** The devices used between two states *)
Definition within (D : pred nat) (w w' : world) : Prop :=
  {subset touched w <= touched w'} /\
  (forall d, d \in touched w' -> (d \in touched w) || D d).

Lemma within_refl D w : within D w w.
Proof. by split => // d ->. Qed.
Lemma within_trans D w1 w2 w3 : within D w1 w2 -> within D w2 w3 -> within D w1 w3.
Proof.
move=> [H1 H2] [H3 H4]; split => [d /H1 /H3 //|d /H4 /orP []]; last by move=> ->; rewrite orbT.
exact: H2.
Qed.
Lemma within_weak (D D' : pred nat) w w' : (forall d, D d -> D' d) -> within D w w' -> within D' w w'.
Proof. by move=> H [H1 H2]; split => // d /H2 /orP [->//|/H ->]; rewrite orbT. Qed.
Lemma within_touch (D : pred nat) d w l n r : D d -> within D w (World l n (d :: touched w) r).
Proof.
move=> Hd; split => [e|e] /=; rewrite inE; first by move=> ->; rewrite orbT.
by move=> /orP [/eqP ->|->] //; rewrite Hd orbT.
Qed.

Section Proofs.
Variables (order : nat -> nat -> seq nat) (limit : nat) (fails : nat -> bool).
Hypothesis Hord : any_order order.
Hypothesis Hfail : forall i, fails i = false.

Lemma fill_ok ks d w (D : pred nat) : D d -> exists r w',
  [/\ fill fails ks d w = (r, w'), full ks r,
      perm_eq (live w') (own_row ks d r ++ live w), within D w w' &
      ks != [::] -> d \in touched w'].
Proof.
move=> Hd; elim: ks w => [|k ks IH] w /=.
  by exists [::], w; split => //; exact: within_refl.
rewrite /create Hfail andbF.
have [r [w' [-> Hf Hp Hw _]]] :=
  IH (World ((next (touch d w), (k, d)) :: live (touch d w)) (next (touch d w)).+1
        (touched (touch d w)) (regions (touch d w))).
exists (Ptr (next (touch d w)) :: r), w'; split => //.
- move/permP: Hp => Hp; apply/permP => a; move: (Hp a); rewrite /= !count_cat /=; lia.
- by apply: within_trans Hw; apply: within_touch.
- by move=> _; case: Hw => Hw _; apply: Hw; rewrite /= inE eqxx.
Qed.

Lemma release_row_ok ks d r w F (D : pred nat) : D d -> freeable ks r ->
  perm_eq (live w) (own_row ks d r ++ F) ->
  exists w', [/\ release_row ks d r w = Some w', perm_eq (live w') F & within D w w'].
Proof.
move=> Hd; elim: ks r w => [|k ks IH] [|[||i] r] //= w.
  by move=> _ H; exists w; split => //; exact: within_refl.
- move=> /andP [/eqP -> Hf] Hp; rewrite eqxx /=.
  have [//|w' [-> H1 H2]] := IH r (touch d w) Hf.
  by exists w'; split => //; apply: within_trans H2; apply: within_touch.
move=> Hf Hp.
have Hi : (i, (k, d)) \in live w by rewrite (perm_mem Hp) inE eqxx.
rewrite /release [live (touch d w)]/= Hi /=.
have [//|w' [-> H1 H2]] := IH r (World (rem (i, (k, d)) (live w)) (next w) (d :: touched w) (regions w)) Hf.
  by rewrite /= -(perm_cons (i, (k, d))) -(permPl (perm_to_rem Hi)).
by exists w'; split => //; apply: within_trans H2; apply: within_touch.
Qed.

Lemma use_row_ok ks d r w (D : pred nat) : D d -> full ks r ->
  {subset own_row ks d r <= live w} ->
  exists w', [/\ use_row ks d r w = Some w', live w' = live w & within D w w'].
Proof.
move=> Hd; elim: ks r w => [|k ks IH] [|[||i] r] //= w.
  by move=> _ H; exists w; split => //; exact: within_refl.
move=> Hf Hp.
rewrite /use [live (touch d w)]/= Hp ?inE ?eqxx //=.
have [|w' [-> H1 H2]] := IH r (touch d w) Hf.
  by move=> x Hx; apply: Hp; rewrite inE Hx orbT.
by exists w'; split => //; apply: within_trans H2; apply: within_touch.
Qed.

Lemma own_rows_cons ks d ds tab :
  own_rows ks (d :: ds) tab = own_row ks d (nth [::] tab d) ++ own_rows ks ds tab.
Proof. by []. Qed.

Lemma eq_own_rows ks (ds : seq nat) tab tab' : (forall d, d \in ds -> nth [::] tab' d = nth [::] tab d) ->
  own_rows ks ds tab' = own_rows ks ds tab.
Proof.
move=> H; rewrite /own_rows; congr flatten; by apply/eq_in_map => d Hd; rewrite H.
Qed.

Lemma fill_table_ok ks ts tab w (D : pred nat) : uniq ts -> (forall t, t \in ts -> t < size tab) ->
  (forall t, t \in ts -> D t) ->
  exists tab' w',
  [/\ fill_table fails ks ts tab w = Some (tab', w'), size tab' = size tab,
      (forall d, if d \in ts then is_true (full ks (nth [::] tab' d)) else nth [::] tab' d = nth [::] tab d),
      perm_eq (live w') (own_rows ks ts tab' ++ live w) &
      within D w w' /\ (ks != [::] -> {subset ts <= touched w'})].
Proof.
elim: ts tab w => [|t ts IH] tab w /=.
  by move=> _ _ _; exists tab, w; split => //; split => //; exact: within_refl.
move=> /andP [Ht Hu] Hs HD.
have Dt : D t by apply: HD; rewrite inE eqxx.
have [r [w1 [-> Hf Hp Hw Hn]]] := fill_ok ks w Dt.
have Hts : t < size tab by apply: Hs; rewrite inE eqxx.
case E: wr => [tab1|] /=; last by move: E; rewrite wrE.
have Hsz := size_wr E.
have [//|t' Ht'|t' Ht'|tab' [w' [-> H1 H2 H3 [H4 H5]]]] := IH tab1 w1.
- by rewrite Hsz; apply: Hs; rewrite inE Ht' orbT.
- by apply: HD; rewrite inE Ht' orbT.
have Er : nth [::] tab' t = r by have := H2 t; rewrite (negbTE Ht) (nth_wr _ _ E) eqxx.
exists tab', w'; split => //.
- by rewrite H1.
- move=> d; rewrite inE; case: eqP => [->|Hd] /=; first by rewrite Er.
  by have := H2 d; case: ifP => // _; rewrite (nth_wr _ _ E); case: eqP.
- rewrite own_rows_cons Er.
  move/permP: Hp => Hp; move/permP: H3 => H3; apply/permP => a.
  by move: (Hp a) (H3 a); rewrite !count_cat; lia.
- split; first exact: within_trans H4.
  move=> Hk x; rewrite inE => /orP [/eqP ->|]; last exact: H5.
  by case: H4 => H4 _; apply: H4; apply: Hn.
Qed.

Lemma perm_own_rows ks ds ds' tab : perm_eq ds ds' ->
  perm_eq (own_rows ks ds tab) (own_rows ks ds' tab).
Proof. by move=> H; apply: perm_flatten; apply: perm_map. Qed.

Lemma release_rows_ok ks ds tab w F (D : pred nat) :
  (forall d, d \in ds -> [/\ d < size tab, freeable ks (nth [::] tab d) & D d]) ->
  perm_eq (live w) (own_rows ks ds tab ++ F) ->
  exists w', [/\ release_rows ks ds tab w = Some w', perm_eq (live w') F & within D w w'].
Proof.
elim: ds w => [|d ds IH] w Hd Hp /=.
  by exists w; split => //; exact: within_refl.
have [Hs Hf HD] := Hd d (mem_head _ _).
rewrite (rdE [::] Hs) /=.
have [|w1 [-> H1 H2]] := release_row_ok HD Hf (w := w) (F := own_rows ks ds tab ++ F).
  by rewrite catA -own_rows_cons.
rewrite /=; have [d' Hd'|//|w' [-> H3 H4]] := IH w1.
  by apply: Hd; rewrite inE Hd' orbT.
by exists w'; split => //; apply: within_trans H4.
Qed.

(** ** Tables *)

Lemma threadsE n w : n <= limit -> perm_eq (threads order limit n w) (iota 0 n).
Proof. by move=> Hl; rewrite /threads (minn_idPl Hl). Qed.

Definition below (n : nat) : pred nat := fun d => d < n.

Lemma make_table_ok ks n w : n <= limit -> exists tab w',
  [/\ make_table order limit fails ks n w = Some (tab, w'), full_table ks n tab,
      perm_eq (live w') (own_table ks tab ++ live w) &
      within (below n) w w' /\ (ks != [::] -> forall d, d < n -> d \in touched w')].
Proof.
move=> Hl; have Ht := threadsE w Hl.
have Hm t : (t \in threads order limit n w) = (t < n) by rewrite (perm_mem Ht) mem_iota.
have [|t|t|tab [w' [E H1 H2 H3 [H4 H5]]]] :=
  @fill_table_ok ks (threads order limit n w) (nseq n (nseq (size ks) Uninit)) (enter w) (below n).
- by rewrite (perm_uniq Ht) iota_uniq.
- by rewrite Hm size_nseq.
- by rewrite Hm.
exists tab, w'; rewrite size_nseq in H1; split => //.
- by split => // d Hd; have := H2 d; rewrite Hm Hd.
- rewrite /own_table H1; apply: perm_trans H3 _.
  by rewrite perm_cat2r; apply: perm_own_rows.
- split => // Hk d Hd; by apply: H5 => //; rewrite Hm.
Qed.

Lemma destroy_table_ok ks n tab w F : n <= limit -> free_table ks n tab ->
  perm_eq (live w) (own_table ks tab ++ F) ->
  exists w', [/\ destroy_table order limit ks n tab w = Some w', perm_eq (live w') F &
    within (below n) w w'].
Proof.
move=> Hl [Hs Hf] Hp; have Ht := threadsE w Hl.
have Hm t : (t \in threads order limit n w) = (t < n) by rewrite (perm_mem Ht) mem_iota.
have [d||w' [E H1 H2]] := @release_rows_ok ks (threads order limit n w) tab (enter w) F (below n).
- by rewrite Hm Hs => Hd; split => //; exact: Hf.
- apply: perm_trans Hp _; rewrite perm_cat2r /own_table Hs perm_sym; exact: perm_own_rows.
by exists w'.
Qed.

Lemma delete_rows_ok ks n tab w F : free_table ks n tab ->
  perm_eq (live w) (own_table ks tab ++ F) ->
  exists w', [/\ release_rows ks (iota 0 n) tab w = Some w', perm_eq (live w') F &
    within (below n) w w'].
Proof.
move=> [Hs Hf] Hp.
have [d|//|w' [-> H1 H2]] := @release_rows_ok ks (iota 0 n) tab w F (below n).
- by rewrite mem_iota Hs => Hd; split => //; exact: Hf.
- by rewrite -Hs.
by exists w'.
Qed.

Local Ltac perms :=
  let a := fresh "a" in
  apply/permP => a;
  repeat match goal with H : is_true (perm_eq _ _) |- _ =>
    move: (elimT permP H a); clear H end;
  rewrite ?(count_cat, cat0s, cats0) /=; lia.

(** ** Matrices *)
Definition own_mat (M : matrix) : seq entry :=
  own_table [:: Cublas] (m_cublas M) ++ own_table [:: Cusparse] (m_cusparse M) ++
  own_table (arrays (m_sparse M)) (m_arrays M) ++ own_table [:: Memory] (m_buffer M).

Definition valid (n : nat) (M : matrix) : Prop :=
  [/\ m_n M = n, full_table [:: Cublas] n (m_cublas M) &
      if m_copied M then
        full_table (arrays (m_sparse M)) n (m_arrays M) /\
        if m_sparse M then
          [/\ full_table [:: Cusparse] n (m_cusparse M),
              free_table [:: Memory] n (m_buffer M), size (m_bytes M) = n &
              forall d, d < n -> nth 0 (m_bytes M) d != 0 -> full [:: Memory] (nth [::] (m_buffer M) d)]
        else m_cusparse M = [::] /\ m_buffer M = [::]
      else [/\ m_cusparse M = [::], m_arrays M = [::] & m_buffer M = [::]]].

Lemma own_null n : own_table [:: Memory] (nseq n [:: Null]) = [::].
Proof.
rewrite /own_table /own_rows; elim: (iota _ _) => //= d ds ->.
by rewrite nth_nseq; case: ifP.
Qed.

Lemma new_matrix_ok sparse n w : n <= limit -> exists M w',
  [/\ new_matrix order limit fails sparse n w = Some (M, w'), valid n M /\ m_copied M,
      perm_eq (live w') (own_mat M ++ live w), within (below n) w w' &
      forall d, d < n -> d \in touched w'].
Proof.
move=> Hl; rewrite /new_matrix.
have [cub [w1 [-> Hc Pc [Wc Tc]]]] := make_table_ok [:: Cublas] w Hl; rewrite /=.
have T1 d : d < n -> d \in touched w1 by move=> Hd; exact: Tc.
case: sparse.
- have [cus [w2 [-> Hs Ps [Ws _]]]] := make_table_ok [:: Cusparse] w1 Hl; rewrite /=.
  have [arr [w3 [-> Ha Pa [Wa _]]]] := make_table_ok (arrays true) w2 Hl.
  eexists; exists w3; split; first by [].
  + split => //; split => //=; split => //; split => //; first last.
    * by move=> d Hd; rewrite nth_nseq Hd.
    * by rewrite size_nseq.
    * by split => [|d Hd]; rewrite ?size_nseq // nth_nseq Hd.
  + rewrite /own_mat /= own_null; perms.
  + exact: within_trans Wc (within_trans Ws Wa).
  + by move=> d /T1; case: Ws => Ws _; case: Wa => Wa _ /Ws /Wa.
- have [arr [w3 [-> Ha Pa [Wa _]]]] := make_table_ok (arrays false) w1 Hl.
  eexists; exists w3; split; first by [].
  + by split.
  + rewrite /own_mat /=; perms.
  + exact: within_trans Wc Wa.
  + by move=> d /T1; case: Wa => Wa _ /Wa.
Qed.

Lemma no_matrix_ok sparse n w : n <= limit -> exists M w',
  [/\ no_matrix order limit fails sparse n w = Some (M, w'), valid n M,
      perm_eq (live w') (own_mat M ++ live w) & within (below n) w w'].
Proof.
move=> Hl; rewrite /no_matrix.
have [cub [w1 [-> Hc Pc [Wc Tc]]]] := make_table_ok [:: Cublas] w Hl; rewrite /=.
eexists; exists w1; split; first by []; last by [].
- by split.
- rewrite /own_mat /=; perms.
Qed.

Lemma delete_matrix_ok n M w F : n <= limit -> valid n M -> perm_eq (live w) (own_mat M ++ F) ->
  exists w', [/\ delete_matrix order limit M w = Some w', perm_eq (live w') F & within (below n) w w'].
Proof.
move=> Hl; case: M => sp n' cp cub cus arr buf byt [/= -> Hc]; rewrite /own_mat /delete_matrix /=.
case: cp => /=; last first.
  move=> [-> -> ->] /= Hp.
  by have [|w' [-> H1 H2]] := destroy_table_ok Hl (table_free Hc) (w := w) (F := F); [perms|exists w'].
case: sp => /= -[Ha].
- move=> [Hs Hb _ _] Hp.
  have [|w1 [-> P1 W1]] := delete_rows_ok (table_free Ha) (w := w)
    (F := own_table [:: Cublas] cub ++ own_table [:: Cusparse] cus ++ own_table [:: Memory] buf ++ F).
    perms.
  rewrite /=; have [|w2 [-> P2 W2]] := delete_rows_ok Hb (w := w1)
    (F := own_table [:: Cublas] cub ++ own_table [:: Cusparse] cus ++ F).
    perms.
  rewrite /=; have [|w3 [-> P3 W3]] := destroy_table_ok Hl (table_free Hc) (w := w2)
    (F := own_table [:: Cusparse] cus ++ F).
    perms.
  rewrite /=; have [//|w4 [-> P4 W4]] := destroy_table_ok Hl (table_free Hs) (w := w3) (F := F).
  exists w4; split => //; exact: within_trans W1 (within_trans W2 (within_trans W3 W4)).
- move=> [-> ->] Hp.
  have [|w1 [-> P1 W1]] := delete_rows_ok (table_free Ha) (w := w)
    (F := own_table [:: Cublas] cub ++ F).
    perms.
  rewrite /=; have [//|w2 [-> P2 W2]] := destroy_table_ok Hl (table_free Hc) (w := w1) (F := F).
  exists w2; split => //; exact: within_trans W1 W2.
Qed.

Lemma own_split ks d tab : d < size tab ->
  perm_eq (own_table ks tab) (own_row ks d (nth [::] tab d) ++ own_rows ks (rem d (iota 0 (size tab))) tab).
Proof.
move=> Hd; rewrite -own_rows_cons; apply: perm_own_rows; apply: perm_to_rem.
by rewrite mem_iota.
Qed.

Lemma own_change ks d tab tab' r : wr tab d r = Some tab' ->
  perm_eq (own_table ks tab' ++ own_row ks d (nth [::] tab d)) (own_row ks d r ++ own_table ks tab).
Proof.
move=> E; have Hs := size_wr E.
have Hd : d < size tab by move: E; rewrite /wr; case: ifP.
have P1 := own_split ks Hd.
have P2 : perm_eq (own_table ks tab') (own_row ks d r ++ own_rows ks (rem d (iota 0 (size tab))) tab).
  have Hd' : d < size tab' by rewrite Hs.
  apply: perm_trans (own_split ks Hd') _; rewrite (nth_wr _ _ E) eqxx Hs perm_cat2l.
  rewrite (@eq_own_rows ks _ tab tab') // => e; rewrite mem_rem_uniq ?iota_uniq // inE => /andP [/negbTE He _].
  by rewrite (nth_wr _ _ E) He.
perms.
Qed.

Lemma own_sub ks d tab w F : d < size tab -> perm_eq (live w) (own_table ks tab ++ F) ->
  {subset own_row ks d (nth [::] tab d) <= live w}.
Proof.
move=> Hd Hp e He; rewrite (perm_mem Hp) mem_cat (perm_mem (own_split ks Hd)) mem_cat He //.
Qed.

Lemma use_table_ok ks n d tab w (D : pred nat) F : D d -> full_table ks n tab -> d < n ->
  perm_eq (live w) (own_table ks tab ++ F) ->
  rd tab d = Some (nth [::] tab d) /\
  exists w', [/\ use_row ks d (nth [::] tab d) w = Some w', live w' = live w & within D w w'].
Proof.
move=> HD [Hs Hf] Hd Hp; split; first by rewrite (rdE [::]) // Hs.
apply: use_row_ok => //; first exact: Hf.
apply: own_sub Hp; by rewrite Hs.
Qed.

Lemma allocate_buffer_ok n M d req w F (D : pred nat) : D d ->
  valid n M -> m_copied M -> m_sparse M -> d < n -> perm_eq (live w) (own_mat M ++ F) ->
  exists M' w', [/\ allocate_buffer fails M d req w = Some (M', w'),
    valid n M' /\ m_copied M', [/\ m_sparse M', m_cusparse M' = m_cusparse M, m_arrays M' = m_arrays M & nth 0 (m_bytes M') d = req],
    perm_eq (live w') (own_mat M' ++ F) & within D w w'].
Proof.
case: M => sp n' cp cub cus arr buf byt HD [/= -> Hc] H Hcp Hsp Hd.
rewrite Hcp Hsp in H *; case: H => Ha [Hs Hb Hy Hz]; rewrite /own_mat /allocate_buffer /= => Hp.
rewrite (rdE 0) ?Hy //=; case: eqP => [Hreq|Hne].
  by eexists; exists w; split; [by []|by []|by []|by []|exact: within_refl].
case E1: wr => [byt'|] /=; last by move: E1; rewrite wrE ?Hy.
have Hy' := size_wr E1.
case: Hb => Hbs Hbf.
rewrite (rdE [::]) ?Hbs //= .
have [|w1 [E2 P2 W2]] := release_row_ok (D := D) HD (Hbf _ Hd) (w := w)
  (F := own_table [:: Cublas] cub ++ own_table [:: Cusparse] cus ++ own_table (arrays true) arr ++
        own_rows [:: Memory] (rem d (iota 0 (size buf))) buf ++ F).
  have Pb := own_split [:: Memory] (leq_trans Hd (eq_leq (esym Hbs))).
  by perms.
rewrite /= in E2; rewrite E2 /=.
set cr := if req == 0 then _ else _.
have [s [w2 [Ecr [Hcs Hcz] Pcr Wcr]]] : exists s w2, [/\ cr = (s, w2),
    can_free Memory s /\ (req != 0 -> is_ptr Memory s),
    perm_eq (live w2) (own_row [:: Memory] d [:: s] ++ live w1) & within D w1 w2].
  rewrite /cr; case: (req == 0).
    by exists Null, w1; split => //; exact: within_refl.
  rewrite /create Hfail andbF /=; eexists; eexists; split; [by []|by []|by []|exact: within_touch].
rewrite Ecr.
case E3: wr => [buf'|] /=; last by move: E3; rewrite wrE ?Hbs.
have Hbs' := size_wr E3.
eexists; exists w2; split; first by [].
- split => //; split => //=; split => //; split => //; first 1 last.
  + by rewrite Hy'.
  + move=> e He; rewrite (nth_wr _ _ E1) (nth_wr _ _ E3); case: (e =P d) => _; last exact: Hz.
    by move=> /Hcz H; rewrite /= H.
  + split; first by rewrite Hbs'.
    move=> e He; rewrite (nth_wr _ _ E3); case: eqP => _; last exact: Hbf.
    by rewrite /= Hcs.
- by split; rewrite //= (nth_wr _ _ E1) eqxx.
- rewrite /own_mat /=.
  have Pb := own_split [:: Memory] (leq_trans Hd (eq_leq (esym Hbs))).
  have Pc := own_change [:: Memory] E3.
  clear -P2 Pcr Pb Pc; perms.
- exact: within_trans W2 Wcr.
Qed.

Local Arguments use_row : simpl never.
Local Arguments release_row : simpl never.
Local Arguments fill : simpl never.
Lemma product_ok n M d req w F (D : pred nat) : D d ->
  valid n M -> m_copied M -> d < n -> perm_eq (live w) (own_mat M ++ F) ->
  exists M' w', [/\ product fails M d req w = Some (M', w'), valid n M' /\ m_copied M',
    perm_eq (live w') (own_mat M' ++ F) & within D w w'].
Proof.
move=> HD Hv Hcp Hd Hp; rewrite /product.
have [En Hc Hif] := Hv; move: Hif; rewrite Hcp => -[Ha Hif].
have Hra : rd (m_arrays M) d = Some (nth [::] (m_arrays M) d) by case: Ha => Hs _; rewrite (rdE [::]) ?Hs.
rewrite Hra /=; case: ifP Hif => Hsp.
- move=> [Hcu Hb Hy _].
  have Hrc : rd (m_cusparse M) d = Some (nth [::] (m_cusparse M) d) by case: Hcu => Hs _; rewrite (rdE [::]) ?Hs.
  rewrite Hrc /=.
  have [M' [w1 [-> [Hv' Hcp'] [Hsp' Eq1 Eq2 Eq3] P1 W1]]] := allocate_buffer_ok (D := D) req HD Hv Hcp Hsp Hd Hp.
  rewrite [obind _ _]/=.
  have [En' Hc' Hif'] := Hv'; move: Hif'; rewrite Hcp' Hsp' => -[Ha' [Hcu' Hb' Hy' Hz']].
  rewrite -Eq1 -Eq2.
  have [|_ [w2 [-> L2 W2]]] := use_table_ok (D := D) HD Hcu' Hd (w := w1)
    (F := own_table [:: Cublas] (m_cublas M') ++ own_table (arrays true) (m_arrays M') ++
          own_table [:: Memory] (m_buffer M') ++ F).
    by rewrite /own_mat Hsp' in P1; perms.
  rewrite [obind _ _]/=.
  have [|_ [w3 [-> L3 W3]]] := use_table_ok (D := D) HD Ha' Hd (w := w2)
    (F := own_table [:: Cublas] (m_cublas M') ++ own_table [:: Cusparse] (m_cusparse M') ++
          own_table [:: Memory] (m_buffer M') ++ F).
    by rewrite L2; rewrite /own_mat Hsp' in P1; perms.
  rewrite [obind _ _]/=.
  case: Hb' => Hbs Hbf; rewrite (rdE [::]) ?Hbs //.
  have W13 := within_trans W1 (within_trans W2 W3).
  have Hsub : {subset own_row [:: Memory] d (nth [::] (m_buffer M') d) <= live w3}.
    rewrite L3 L2; apply: (@own_sub _ _ _ _ (own_table [:: Cublas] (m_cublas M') ++
      own_table [:: Cusparse] (m_cusparse M') ++ own_table (arrays true) (m_arrays M') ++ F)).
      by rewrite Hbs.
    by rewrite /own_mat Hsp' in P1; perms.
  rewrite [obind _ _]/=; case: eqP => [_|/eqP Hrz].
    by exists M', w3; split => //; rewrite L3 L2.
  have [|w4 [-> L4 W4]] := use_row_ok (w := w3) (D := D) HD _ Hsub.
    by apply: Hz' => //; rewrite Eq3.
  rewrite [obind _ _]/=; exists M', w4; split => //; first by rewrite L4 L3 L2.
  exact: within_trans W13 W4.
- move=> [Ec Eb].
  have [|-> [w1 [Eu L1 W1]]] := use_table_ok (D := D) HD Hc Hd (w := w)
    (F := own_table (arrays false) (m_arrays M) ++ F).
    by move: Hp; rewrite /own_mat Hsp Ec Eb => Hp; perms.
  rewrite [obind _ _]/= Eu [obind _ _]/=.
  rewrite Hsp in Ha; have [|_ [w2 [-> L2 W2]]] := use_table_ok (D := D) HD Ha Hd (w := w1)
    (F := own_table [:: Cublas] (m_cublas M) ++ F).
    by rewrite L1; move: Hp; rewrite /own_mat Hsp Ec Eb => Hp; perms.
  exists M, w2; split => //; first by rewrite L2 L1.
  exact: within_trans W1 W2.
Qed.

(** ** Operators *)
Definition own_op (op : operator) : seq entry :=
  match op with
  | Constant M => own_mat M
  | Affine count h A B _ => own_table [:: Cublas] h ++ own_mat A ++ own_mat B
  end.

(** An operator built for [n] of [count] devices *)
Definition op_ok (count n : nat) (op : operator) : Prop :=
  match op with
  | Constant M => valid n M /\ m_copied M
  | Affine c h A B id =>
      [/\ c = count, full_table [:: Cublas] count h, valid n A /\ m_copied A &
          if id then exists m, valid m B /\ m <= count else valid n B /\ m_copied B]
  end.

(** The devices an operator uses *)
Definition reach (k : kind) (count n : nat) : nat := if k is KConstant then n else count.
Definition op_kind (op : operator) : bool := if op is Constant _ then true else false.

Lemma new_operator_ok k sparse count n w : count <= limit -> 0 < count -> n <= count ->
  exists op w',
  [/\ new_operator order limit fails k sparse count n w = Some (Done (op, w')),
      op_ok count (number count n) op /\ op_kind op = (if k is KConstant then true else false),
      perm_eq (live w') (own_op op ++ live w),
      within (below (reach k count (number count n))) w w' &
      forall d, d < reach k count (number count n) -> d \in touched w'].
Proof.
move=> Hl Hc Hn; rewrite /new_operator; case: eqP => [H|_]; first lia.
have -> : (count < n) = false by lia.
set m := number count n.
have Hm : m <= count by rewrite /m /number; case: ifP.
have Hlm : m <= limit by exact: leq_trans Hm Hl.
have Wm w1 w2 : within (below m) w1 w2 -> within (below count) w1 w2.
  by apply: within_weak => d; rewrite /below => Hd; exact: leq_trans Hd Hm.
case: k => [|ob].
- have [M [w1 [-> [Hv Hcp] P W T]]] := new_matrix_ok sparse w Hlm.
  by eexists; exists w1; split; [by []| | | |].
- have [h [w1 [-> Hh Ph [Wh Th]]]] := make_table_ok [:: Cublas] w Hl; rewrite [obind _ _]/=.
  have [A [w2 [-> HA PA WA _]]] := new_matrix_ok sparse w1 Hlm; rewrite [obind _ _]/=.
  have T2 d : d < count -> d \in touched w2.
    by move=> Hd; have := Th isT d Hd; case: WA => WA _ /WA.
  case: ob => [id|].
  + have [B [w3 [-> HB PB WB _]]] := new_matrix_ok sparse w2 Hlm; rewrite [obind _ _]/=.
    eexists; exists w3; split; first by [].
    * by split => //; split => //; case: id => //; exists m; case: HB.
    * rewrite /own_op; perms.
    * exact: within_trans Wh (within_trans (Wm _ _ WA) (Wm _ _ WB)).
    * by move=> d /T2; case: WB => WB _ /WB.
  + have [B [w3 [-> HB PB WB]]] := no_matrix_ok sparse w2 Hl; rewrite [obind _ _]/=.
    eexists; exists w3; split; first by [].
    * by split => //; split => //; exists count.
    * rewrite /own_op; perms.
    * exact: within_trans Wh (within_trans (Wm _ _ WA) WB).
    * by move=> d /T2; case: WB => WB _ /WB.
Qed.

Definition op_reach (count n : nat) (op : operator) : nat := if op is Constant _ then n else count.

Lemma delete_operator_ok count n op w F : count <= limit -> n <= count -> op_ok count n op ->
  perm_eq (live w) (own_op op ++ F) ->
  exists w', [/\ delete_operator order limit op w = Some w', perm_eq (live w') F &
    within (below (op_reach count n op)) w w'].
Proof.
move=> Hl Hn; case: op => [M [Hv _]|c h A B id [-> Hh [HA _] HB]] /= Hp.
  exact: delete_matrix_ok (leq_trans Hn Hl) Hv Hp.
have [m [HvB Hm]] : exists m, valid m B /\ m <= count by case: id HB => // -[HB _]; exists n.
have Wm m' w1 w2 : m' <= count -> within (below m') w1 w2 -> within (below count) w1 w2.
  by move=> Hm'; apply: within_weak => d; rewrite /below => Hd; exact: leq_trans Hd Hm'.
have [|w1 [-> P1 W1]] := delete_matrix_ok (leq_trans Hm Hl) HvB (w := w) (F := own_table [:: Cublas] h ++ own_mat A ++ F).
  perms.
rewrite [obind _ _]/=.
have [|w2 [-> P2 W2]] := delete_matrix_ok (leq_trans Hn Hl) HA (w := w1) (F := own_table [:: Cublas] h ++ F).
  perms.
rewrite [obind _ _]/=.
have [//|w3 [-> P3 W3]] := destroy_table_ok Hl (table_free Hh) (w := w2) (F := F).
exists w3; split => //.
exact: within_trans (Wm _ _ _ Hm W1) (within_trans (Wm _ _ _ Hn W2) W3).
Qed.

Lemma handle_ok count n op d w F (D : pred nat) : D d -> n <= count -> op_ok count n op -> d < n ->
  perm_eq (live w) (own_op op ++ F) ->
  exists h w', [/\ get_cublas_handle op d = Some h, use_row [:: Cublas] d h w = Some w',
    live w' = live w & within D w w'].
Proof.
move=> HD Hn; case: op => [M [[_ Hc _] _]|c h A B id [-> Hh _ _]] Hd /= Hp.
- have [|-> [w' [? ? ?]]] := use_table_ok (D := D) HD Hc Hd (w := w)
    (F := own_table [:: Cusparse] (m_cusparse M) ++ own_table (arrays (m_sparse M)) (m_arrays M) ++
          own_table [:: Memory] (m_buffer M) ++ F).
    by rewrite /own_mat in Hp; perms.
  by eexists; exists w'; split.
- have Hd' : d < count by exact: leq_trans Hd Hn.
  have [|-> [w' [? ? ?]]] := use_table_ok (D := D) HD Hh Hd' (w := w)
    (F := own_mat A ++ own_mat B ++ F).
    by perms.
  by eexists; exists w'; split.
Qed.

Lemma apply_operator_ok count n op d ra rb z w F (D : pred nat) : D d -> n <= count ->
  op_ok count n op -> d < n -> perm_eq (live w) (own_op op ++ F) ->
  exists op' w', [/\ apply_operator fails op d ra rb z w = Some (op', w'),
    op_ok count n op' /\ op_kind op' = op_kind op,
    perm_eq (live w') (own_op op' ++ F) & within D w w'].
Proof.
move=> HD Hn; case: op => [M [Hv Hcp]|c h A B id [Ec Hh [HA HcA] HB]] Hd /= Hp.
  have [M' [w' [-> [H1 H1'] H2 H3]]] := product_ok ra (D := D) HD Hv Hcp Hd Hp.
  by eexists; exists w'; split; first by [].
have [|A' [w1 [-> H1 H2 H3]]] := product_ok ra (D := D) HD HA HcA Hd (w := w)
  (F := own_table [:: Cublas] h ++ own_mat B ++ F).
  by perms.
rewrite [obind _ _]/=; case: ifP HB => Hid HB.
- case: ifP => _.
    eexists; exists w1; split; first by [].
    + by split.
    + rewrite /own_op; perms.
    + by [].
  have Hd' : d < count by exact: leq_trans Hd Hn.
  have [|-> [w2 [Eu L2 W2]]] := use_table_ok (D := D) HD Hh Hd' (w := w1)
    (F := own_mat A' ++ own_mat B ++ F).
    by perms.
  rewrite [obind _ _]/= Eu [obind _ _]/=.
  eexists; exists w2; split; first by [].
  + by split.
  + rewrite /own_op L2; perms.
  + exact: within_trans H3 W2.
- have [HvB HcB] := HB.
  have [|B' [w2 [-> H4 H5 H6]]] := product_ok rb (D := D) HD HvB HcB Hd (w := w1)
    (F := own_table [:: Cublas] h ++ own_mat A' ++ F).
    by perms.
  rewrite [obind _ _]/=; eexists; exists w2; split; first by [].
  + by split.
  + rewrite /own_op; perms.
  + exact: within_trans H3 H6.
Qed.

(** ** The samples *)
Local Arguments fits : simpl never.
Local Arguments own_row : simpl never.
Local Notation two := [:: Memory; Memory].

(** The arrays of the threads: none, or two *)
Definition loc_ok (m : nat) (loc : table) : Prop :=
  size loc = m /\ forall d, d < m -> nth [::] loc d = [::] \/ full two (nth [::] loc d).
Definition busy (r : row) : bool := if r is [::] then false else true.
Definition inside (loc : table) (d : nat) : bool := busy (nth [::] loc d).
Lemma idle r : ~~ busy r -> r = [::]. Proof. by case: r. Qed.

Lemma own_none ks d : own_row ks d [::] = [::].
Proof. by case: ks. Qed.

Lemma loc_change m loc loc' d r : loc_ok m loc -> wr loc d r = Some loc' ->
  r = [::] \/ full two r -> loc_ok m loc'.
Proof.
move=> [Hs Hr] E Hf; split; first by rewrite (size_wr E).
by move=> e He; rewrite (nth_wr _ _ E); case: eqP => _ //; exact: Hr.
Qed.

Lemma inside_change loc loc' d r e : wr loc d r = Some loc' ->
  inside loc' e = if e == d then busy r else inside loc e.
Proof. by move=> E; rewrite /inside (nth_wr _ _ E); case: ifP. Qed.

Definition allowed (s : step) (b : bool) : bool := if s is Begin _ then ~~ b else b.
Definition after (s : step) (b : bool) : bool :=
  match s with Begin _ => true | End _ => false | _ => b end.

Lemma run_step_ok count n op loc s w F : n <= count -> op_ok count n op -> loc_ok n loc ->
  device s < n -> allowed s (inside loc (device s)) ->
  perm_eq (live w) (own_op op ++ own_table two loc ++ F) ->
  exists op' loc' w',
  [/\ run_step fails s op loc w = Some (op', loc', w'),
      op_ok count n op' /\ op_kind op' = op_kind op, loc_ok n loc' /\
      (forall e, inside loc' e = if e == device s then after s (inside loc e) else inside loc e),
      perm_eq (live w') (own_op op' ++ own_table two loc' ++ F) & within (below n) w w'].
Proof.
move=> Hn Hop Hloc Hd Hal Hp; have [Hs Hr] := Hloc.
have Hds : device s < size loc by rewrite Hs.
have HD : below n (device s) by [].
rewrite /run_step (rdE [::] Hds) [obind _ _]/=.
have Hfull : inside loc (device s) -> full two (nth [::] loc (device s)).
  by rewrite /inside; case: (Hr _ Hd) => // ->.
have Hsub : {subset own_row two (device s) (nth [::] loc (device s)) <= live w}.
  by apply: (@own_sub _ _ _ _ (own_op op ++ F)) => //; clear Hr; perms.
case: s Hd Hds HD Hal Hfull Hsub => [d|d ra rb z|d|d] /=; rewrite -/(inside loc d) => Hd Hds HD Hal Hfull Hsub.
- (* Begin *)
  have -> : nth [::] loc d = [::] by exact: idle.
  have [h [w1 [-> Eu L1 W1]]] := handle_ok (D := below n) HD Hn Hop Hd Hp.
  rewrite [obind _ _]/= Eu [obind _ _]/=.
  have [r [w2 [-> Hf P2 W2 _]]] := fill_ok two w1 HD.
  have [|w3 [-> L3 W3]] := use_row_ok (w := w2) (D := below n) HD Hf.
    by move=> e He; rewrite (perm_mem P2) mem_cat He.
  rewrite [obind _ _]/=; case E: wr => [loc'|] /=; last by move: E; rewrite wrE.
  have Hrn : busy r by case: (r) Hf.
  eexists; eexists; exists w3; split; first by [].
  + by [].
  + split; first by apply: loc_change E _ => //; right.
    by move=> e; rewrite (inside_change e E) Hrn.
  + rewrite L3; have Pc := own_change two E.
    have E0 : nth [::] loc d = [::] by exact: idle.
    rewrite E0 own_none in Pc; rewrite L1 in P2; clear Hr; perms.
  + exact: within_trans W1 (within_trans W2 W3).
- (* Apply *)
  have [//|w1 [-> L1 W1]] := use_row_ok (w := w) (D := below n) HD (Hfull Hal).
  rewrite [obind _ _]/=; rewrite -L1 in Hp.
  have [op' [w2 [-> H1 H2 H3]]] := apply_operator_ok ra rb z (D := below n) HD Hn Hop Hd Hp.
  rewrite [obind _ _]/=; exists op', loc, w2; split => //.
  + by split => // e; case: eqP.
  + exact: within_trans W1 H3.
- (* Vector *)
  have [h [w1 [-> Eu L1 W1]]] := handle_ok (D := below n) HD Hn Hop Hd Hp.
  rewrite [obind _ _]/= Eu [obind _ _]/=.
  have [|w2 [-> L2 W2]] := use_row_ok (w := w1) (D := below n) HD (Hfull Hal).
    by rewrite L1.
  rewrite [obind _ _]/=; exists op, loc, w2; split => //.
  + by split => // e; case: eqP.
  + by rewrite L2 L1.
  + exact: within_trans W1 W2.
- (* End *)
  have [|w1 [-> P1 W1]] := release_row_ok (w := w) (D := below n) HD (full_free (Hfull Hal))
    (F := own_op op ++ own_rows two (rem d (iota 0 (size loc))) loc ++ F).
    by have Pl := own_split two Hds; clear Hr; perms.
  rewrite [obind _ _]/=; case E: wr => [loc'|] /=; last by move: E; rewrite wrE.
  eexists; eexists; exists w1; split; first by [].
  + by [].
  + split; first by apply: loc_change E _ => //; left.
    by move=> e; rewrite (inside_change e E).
  + have Pc := own_change two E; rewrite own_none in Pc.
    have Pl := own_split two Hds; clear Hr; perms.
  + by [].
Qed.

Definition goes_on (n : nat) (loc : table) (ss : seq step) : Prop :=
  (forall s, List.In s ss -> device s < n) /\
  (forall d, d < n -> proper (inside loc d) [seq s <- ss | device s == d]).

Lemma proper_cons b s ss : proper b (s :: ss) = allowed s b && proper (after s b) ss.
Proof. by case: s. Qed.

Lemma run_steps_ok count n ss op loc w F : n <= count -> op_ok count n op -> loc_ok n loc ->
  goes_on n loc ss ->
  perm_eq (live w) (own_op op ++ own_table two loc ++ F) ->
  exists op' loc' w',
  [/\ run_steps fails ss op loc w = Some (op', loc', w'),
      op_ok count n op' /\ op_kind op' = op_kind op,
      perm_eq (live w') (own_op op' ++ F) & within (below n) w w'].
Proof.
move=> Hn; elim: ss op loc w => [|s ss IH] op loc w Hop Hloc [Hdev Hprop] Hp /=.
  exists op, loc, w; split => //; last exact: within_refl.
  suff E : own_table two loc = [::] by rewrite E in Hp.
  case: Hloc => Hs _; rewrite /own_table /own_rows Hs.
  have : forall d, d \in iota 0 n -> nth [::] loc d = [::].
    by move=> d; rewrite mem_iota => Hd; apply: idle; exact: Hprop d Hd.
  elim: (iota 0 n) => //= d ds IHd Hds; rewrite Hds ?inE ?eqxx // own_none IHd // => e He.
  by apply: Hds; rewrite inE He orbT.
have Hds : device s < n by apply: Hdev; left.
have := Hprop _ Hds; rewrite /= eqxx proper_cons => /andP [Hal Haf].
have [op1 [loc1 [w1 [-> [Hop1 Hk] [Hloc1 Hin] P1 W1]]]] := run_step_ok Hn Hop Hloc Hds Hal Hp.
rewrite [obind _ _]/=.
have [|//|op2 [loc2 [w2 [-> [H1 H1'] H2 H3]]]] := IH op1 loc1 w1 Hop1 Hloc1.
  split; first by move=> s' Hs'; apply: Hdev; right.
  move=> d Hd; rewrite Hin; case: eqP => [->|Hne]; first exact: Haf.
  have := Hprop d Hd; rewrite /=; case: eqP => // E; by case: Hne.
exists op2, loc2, w2; split => //; first by rewrite H1' Hk.
exact: within_trans W1 H3.
Qed.

Lemma run_ok count n ss op w F : n <= count -> op_ok count n op -> samples n ss ->
  perm_eq (live w) (own_op op ++ F) ->
  exists op' w', [/\ run fails n ss op w = Some (op', w'),
    op_ok count n op' /\ op_kind op' = op_kind op, perm_eq (live w') (own_op op' ++ F) &
    within (below n) w w'].
Proof.
move=> Hn Hop [Hs1 Hs2] Hp; rewrite /run.
have E0 d : nth [::] (nseq n [::] : table) d = [::] by rewrite nth_nseq; case: ifP.
have [|||op' [loc' [w' [-> H1 H2 H3]]]] := @run_steps_ok count n ss op (nseq n [::]) w F Hn Hop.
- by split => [|d Hd]; rewrite ?size_nseq //; left.
- by split => // d Hd; rewrite /inside E0; exact: Hs2.
- suff -> : own_table two (nseq n [::]) = [::] by [].
  rewrite /own_table /own_rows; elim: (iota _ _) => //= d ds ->.
  by rewrite E0 own_none.
by exists op', w'.
Qed.

Lemma runs_ok count n sss op w F : n <= count -> op_ok count n op ->
  (forall ss, List.In ss sss -> samples n ss) ->
  perm_eq (live w) (own_op op ++ F) ->
  exists op' w', [/\ runs fails n sss op w = Some (op', w'),
    op_ok count n op' /\ op_kind op' = op_kind op, perm_eq (live w') (own_op op' ++ F) &
    within (below n) w w'].
Proof.
move=> Hn; elim: sss op w => [|ss sss IH] op w Hop Hss Hp /=.
  by exists op, w; split => //; exact: within_refl.
have [op1 [w1 [-> [Hop1 Hk] P1 W1]]] := run_ok Hn Hop (Hss ss (or_introl erefl)) Hp.
rewrite [obind _ _]/=.
have [ss' Hss'|op2 [w2 [-> [H1 H1'] H2 H3]]] := IH op1 w1 Hop1 _ P1.
  by apply: Hss; right.
exists op2, w2; split => //; first by rewrite H1' Hk.
exact: within_trans W1 H3.
Qed.

Lemma life_ok k sparse count n sss w : count <= limit -> 0 < count -> n <= count ->
  (forall ss, List.In ss sss -> samples (number count n) ss) ->
  exists w', [/\ life order limit fails k sparse count n sss w = Some (Done w'),
    perm_eq (live w') (live w) &
    forall d, (d \in touched w') = (d \in touched w) || (d < reach k count (number count n))].
Proof.
move=> Hl Hc Hn Hss; rewrite /life.
have Hm : number count n <= count by rewrite /number; case: ifP.
have [op [w1 [-> [Hop Hk] P1 W1 T1]]] := new_operator_ok k sparse w Hl Hc Hn.
rewrite [obind _ _]/=.
have [op2 [w2 [-> [Hop2 Hk2] P2 W2]]] := runs_ok Hm Hop Hss P1.
rewrite [obind _ _]/=.
have [w3 [-> P3 W3]] := delete_operator_ok Hl Hm Hop2 P2.
exists w3; split => // d.
have Er : op_reach count (number count n) op2 = reach k count (number count n).
  by move: Hk2; rewrite Hk; case: (op2) => [?|? ? ? ? ?]; case: (k).
rewrite Er in W3.
have Hle : forall e, below (number count n) e -> below (reach k count (number count n)) e.
  by move=> e; rewrite /below /reach; case: (k) => // _ He; exact: leq_trans He Hm.
have W13 := within_trans W1 (within_trans (within_weak Hle W2) W3).
have [Wa Wb] := W13.
apply/idP/idP => [/Wb //|/orP [/Wa //|Hd]].
have := T1 d Hd; case: W2 => W2 _; case: W3 => W3 _ /W2; exact: W3.
Qed.
End Proofs.

(** ** C82 *)

(** Without a limit of the threads and with enough memory: an operator for [n] of
    [count] devices (0 stands for all), used any number of times, with any
    interleaving of the threads, never uses a resource that is not there, and when it
    is deleted all its resources are released and nothing else is. *)
Theorem C82_released order limit fails k sparse count n sss w :
  any_order order -> count <= limit -> (forall i, fails i = false) ->
  0 < count -> n <= count ->
  (forall ss, List.In ss sss -> samples (number count n) ss) ->
  exists w', life order limit fails k sparse count n sss w = Some (Done w') /\
    perm_eq (live w') (live w).
Proof.
move=> Ho Hl Hf Hc Hn Hss.
by have [w' [H1 H2 _]] := life_ok Ho Hf k sparse w Hl Hc Hn Hss; exists w'.
Qed.

(** The devices that such an operator uses, next to those used before: for a matrix
    the first [n], *)
Theorem C82_devices order limit fails sparse count n sss w w' :
  any_order order -> count <= limit -> (forall i, fails i = false) ->
  0 < n -> n <= count -> (forall ss, List.In ss sss -> samples n ss) ->
  life order limit fails KConstant sparse count n sss w = Some (Done w') ->
  forall d, (d \in touched w') = (d \in touched w) || (d < n).
Proof.
move=> Ho Hl Hf Hn0 Hn Hss E d.
have Hnum : number count n = n by rewrite /number; case: eqP => // H; move: Hn0; rewrite H.
have [|w1 [E1 _ T]] := life_ok Ho Hf KConstant sparse w Hl (leq_trans Hn0 Hn) Hn (sss := sss).
  by rewrite Hnum.
move: E; rewrite E1 => -[<-]; by rewrite T /= Hnum.
Qed.

(** but for A + t B all devices of the machine, whatever number was asked for. *)
Theorem C82_affine_devices_refuted order limit fails B sparse count n sss w w' :
  any_order order -> count <= limit -> (forall i, fails i = false) ->
  0 < n -> n <= count -> (forall ss, List.In ss sss -> samples n ss) ->
  life order limit fails (KAffine B) sparse count n sss w = Some (Done w') ->
  forall d, d < count -> d \in touched w'.
Proof.
move=> Ho Hl Hf Hn0 Hn Hss E d Hd.
have Hnum : number count n = n by rewrite /number; case: eqP => // H; move: Hn0; rewrite H.
have [|w1 [E1 _ T]] := life_ok Ho Hf (KAffine B) sparse w Hl (leq_trans Hn0 Hn) Hn (sss := sss).
  by rewrite Hnum.
move: E; rewrite E1 => -[<-]; by rewrite T /= Hd orbT.
Qed.

(** Without a device an exception is raised, and nothing is done. *)
Theorem C82_no_device order limit fails k sparse n sss w :
  life order limit fails k sparse 0 n sss w = Some Raised.
Proof. by []. Qed.

(** A number of devices that is too large ends the process, although the interface
    of Python raises exceptions for wrong arguments. *)
Theorem C82_too_many_refuted order limit fails k sparse count n sss w :
  any_order order -> count <= limit -> (forall i, fails i = false) ->
  0 < count < n -> life order limit fails k sparse count n sss w = Some Aborted.
Proof.
move=> Ho Hl Hf /andP [Hc Hn]; rewrite /life /new_operator.
case: eqP => [E|_]; first by rewrite E in Hc.
case: k => [|ob]; first by rewrite Hn.
have [tab [w1 [-> _ _ _]]] := make_table_ok Ho Hf [:: Cublas] w Hl.
by rewrite [obind _ _]/= Hn.
Qed.

(** If OpenMP provides fewer threads than devices, the pointers of the others are
    never written, and the destructor reads them. *)
Definition in_turn (r m : nat) : seq nat := iota 0 m.
Lemma in_turn_ok : any_order in_turn. Proof. by move=> r m. Qed.
Definition start : world := World [::] 0 [::] 0.

Theorem C82_limit_refuted k sparse :
  life in_turn 1 xpred0 k sparse 2 2 [::] start = None.
Proof. by case: k => [|[[]|]]; case: sparse; vm_compute. Qed.

(** A failed allocation is not noticed: here that of a new buffer, after the old one
    was released.  The product then uses the memory that was released. *)
Definition grow : seq step :=
  [:: Begin 0; Apply 0 8 0 false; Vector 0; Apply 0 16 0 false; End 0].
Lemma grow_ok : samples 1 grow.
Proof.
split; last by case.
by move=> s; do 5!(case=> [<- //|]).
Qed.
Theorem C82_memory_refuted :
  [/\ samples 1 grow,
      (exists w, life in_turn 1 xpred0 KConstant true 1 1 [:: grow] start = Some (Done w)) &
      life in_turn 1 (pred1 9) KConstant true 1 1 [:: grow] start = None].
Proof. by split; [exact: grow_ok | eexists; vm_compute; reflexivity | vm_compute]. Qed.

(** An operator that is kept from an earlier call with fewer devices (C16) does not
    have the resources of the others. *)
Definition both : seq step :=
  [:: Begin 0; Begin 1; Apply 1 8 8 false; Vector 0; Apply 0 8 8 false; Vector 1; End 1; End 0].
Lemma both_ok : samples 2 both.
Proof.
split; last by case => [|[|]].
by move=> s; do 8!(case=> [<- //|]).
Qed.
Theorem C82_kept_refuted :
  exists op w, new_operator in_turn 2 xpred0 KConstant true 2 1 start = Some (Done (op, w)) /\
    samples 2 both /\ run xpred0 2 both op w = None.
Proof.
eexists; eexists; split; first by vm_compute; reflexivity.
by split; [exact: both_ok | vm_compute].
Qed.

(** ** The hypotheses are met *)
Definition outcome_live (o : option (outcome world)) : option (seq entry * nat) :=
  if o is Some (Done w) then Some (live w, next w) else None.
Definition outcome_touched (o : option (outcome world)) : option (seq nat) :=
  if o is Some (Done w) then Some (undup (touched w)) else None.

(** Two devices, run in turn and in the other order; another resource is kept. *)
Definition in_reverse (r m : nat) : seq nat := if odd r then rev (iota 0 m) else iota 0 m.
Lemma in_reverse_ok : any_order in_reverse.
Proof. by move=> r m; rewrite /in_reverse; case: ifP => // _; rewrite perm_rev. Qed.
Definition other : world := World [:: (5, (Memory, 1))] 10 [::] 0.
Example C82_released_case :
  outcome_live (life in_reverse 4 xpred0 (KAffine (Some false)) true 3 2 [:: both; both] other) =
  Some ([:: (5, (Memory, 1))], 49).
Proof. by vm_compute. Qed.
Example C82_devices_case :
  outcome_touched (life in_reverse 4 xpred0 KConstant false 3 2 [:: both] start) = Some [:: 1; 0] /\
  outcome_touched (life in_reverse 4 xpred0 (KAffine None) false 3 2 [:: both] start) = Some [:: 2; 1; 0].
Proof. by vm_compute. Qed.
Example C82_too_many_case :
  life in_turn 4 xpred0 KConstant false 2 3 [:: both] start = Some Aborted.
Proof. by vm_compute. Qed.

Definition C82_assumptions := (@C82_released, @C82_devices, @C82_affine_devices_refuted,
  @C82_no_device, @C82_too_many_refuted, @C82_limit_refuted, @C82_memory_refuted, @C82_kept_refuted).
Print Assumptions C82_assumptions.
