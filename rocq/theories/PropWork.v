(** * C83: the work arrays of a run *)
Require Import ZArith List Lia Bool.
From Verif Require Import IndexModel WorkModel WorkSpec.
Import ListNotations.
Local Open Scope Z_scope.

Lemma wrap_id c z : 0 <= z < capacity c -> wrap c z = z.
Proof.
destruct c as [[] []]; unfold capacity, wrap, bits; simpl; intros H; rewrite Z.mod_small; lia.
Qed.
Lemma wrap_lt c z : wrap c z < capacity c.
Proof.
destruct c as [[] []]; unfold capacity, wrap, bits; cbn [long_int unsigned].
- apply (Z.mod_pos_bound z (2 ^ 64)). lia.
- assert (H := Z.mod_pos_bound (z + 2 ^ (64 - 1)) (2 ^ 64) ltac:(lia)). lia.
- apply (Z.mod_pos_bound z (2 ^ 32)). lia.
- assert (H := Z.mod_pos_bound (z + 2 ^ (32 - 1)) (2 ^ 32) ltac:(lia)). lia.
Qed.
Lemma capacity_int c : 2 ^ 31 <= capacity c.
Proof. destruct c as [[] []]; unfold capacity; cbn; lia. Qed.

Lemma in_upto k x : In x (upto k) <-> 0 <= x < k.
Proof.
unfold upto. rewrite in_map_iff. split.
- intros [y [<- Hy]]. apply in_seq in Hy. lia.
- intros H. exists (Z.to_nat x). split; [lia|]. apply in_seq. lia.
Qed.

Lemma new_array_lt k x L : new_array k = Some x -> k < L -> x < L.
Proof. unfold new_array. destruct (Z.ltb_spec k 0); intros E; inversion E; lia. Qed.

(** Vectors side by side *)
Lemma apart_row n f k : 0 < n -> (forall i, 0 <= i < k -> f i = i * n) ->
  ForallOrdPairs apart (map (fun i => (f i, n)) (upto k)).
Proof.
intros Hn Hf. unfold upto. rewrite map_map.
assert (G : forall len st, (forall i, In i (seq st len) -> f (Z.of_nat i) = Z.of_nat i * n) ->
  ForallOrdPairs apart (map (fun i => (f (Z.of_nat i), n)) (seq st len))).
{ induction len as [|len IH]; intros st H; [constructor|]. simpl. constructor.
  - apply Forall_forall. intros p Hp. apply in_map_iff in Hp. destruct Hp as [j [<- Hj]].
    left. cbn [fst snd]. rewrite (H st) by (left; reflexivity).
    rewrite (H j) by (right; assumption). apply in_seq in Hj. nia.
  - apply IH. intros i Hi. apply H. right. assumption. }
apply G. intros i Hi. apply Hf. apply in_seq in Hi. lia.
Qed.

Lemma serves_row n f k x : 0 < n -> (forall i, 0 <= i < k -> f i = i * n) -> x = n * k -> 0 <= k ->
  serves (Array (new_array x) (map (fun i => (f i, n)) (upto k))).
Proof.
intros Hn Hf -> Hk. exists (n * k). cbn [size parts]. split; [|split].
- unfold new_array. destruct (Z.ltb_spec (n * k) 0); [nia|reflexivity].
- intros p Hp. apply in_map_iff in Hp. destruct Hp as [i [<- Hi]]. apply in_upto in Hi.
  cbn [fst snd]. rewrite Hf by lia. nia.
- apply apart_row; assumption.
Qed.

Lemma serves_one x n : 0 <= n -> x = n -> serves (Array (new_array x) [(0, n)]).
Proof.
intros Hn ->. exists n. cbn [size parts]. split; [|split].
- unfold new_array. destruct (Z.ltb_spec n 0); [lia|reflexivity].
- intros p [<-|[]]. cbn. lia.
- repeat constructor.
Qed.

Lemma serves_room x n : serves (Array (new_array x) [(0, n)]) -> n <= x.
Proof.
intros [k [Hk [H _]]]. cbn [size parts] in *. specialize (H (0, n) (or_introl eq_refl)). cbn in H.
revert Hk. unfold new_array. destruct (Z.ltb_spec x 0); intros E; inversion E; lia.
Qed.

(** If a row of vectors is too long for the index, one of them is not inside. *)
Lemma row_too_long L n f k x : 0 < n -> 0 < L -> (forall i, 0 <= i -> i * n < L -> f i = i * n) ->
  x < L -> serves (Array (new_array x) (map (fun i => (f i, n)) (upto k))) -> n * k < L.
Proof.
intros Hn HL Hf Hx [y [Hy [Hin _]]]. cbn [size parts] in *.
apply Z.nle_gt. intros Hlong.
assert (Hyl : y < L) by (eapply new_array_lt; eassumption).
set (i := (L - 1) / n).
assert (Hi0 : 0 <= i) by (apply Z.div_pos; lia).
assert (Hi1 : i * n <= L - 1) by (rewrite Z.mul_comm; apply Z.mul_div_le; lia).
assert (Hi2 : L - 1 < n * (i + 1)) by (apply Z.mul_succ_div_gt; lia).
assert (Hik : i < k) by nia.
assert (Hp : In (f i, n) (map (fun i => (f i, n)) (upto k))).
{ apply in_map_iff. exists i. split; [reflexivity|]. apply in_upto. lia. }
apply Hin in Hp. cbn [fst snd] in Hp. rewrite Hf in Hp by lia. nia.
Qed.

Lemma buffer_pos gram o m : 1 <= m -> 1 <= buffer_size gram o m.
Proof.
intros Hm. unfold buffer_size, golub_kahn_buffer_size, lanczos_buffer_size.
destruct gram;
repeat match goal with |- context [?a =? ?b] => destruct (Z.eqb_spec a b) end;
repeat match goal with |- context [?a <? ?b] => destruct (Z.ltb_spec a b) end; cbn; lia.
Qed.

Lemma map_ext_upto (A : Type) (f g : Z -> A) k : (forall i, 0 <= i < k -> f i = g i) ->
  map f (upto k) = map g (upto k).
Proof. intros H. apply map_ext_in. intros i Hi. apply H. apply in_upto. assumption. Qed.

Lemma random_iff gpu num_rows threads : 0 < num_rows -> 0 < threads ->
  (serves (random_vectors gpu num_rows threads) <-> num_rows * threads < 2 ^ 31).
Proof.
intros Hn Ht. unfold random_vectors, matrix_size.
assert (Cg : 2 ^ 31 <= capacity (IndexT false gpu)) by apply capacity_int.
split.
- intros H. destruct (Z_lt_ge_dec num_rows (2 ^ 31)) as [Hs|Hs].
  + rewrite (wrap_id int32 num_rows) in H by (cbn; lia).
    eapply (row_too_long (2 ^ 31)); [assumption|lia| |apply (wrap_lt int32)|exact H].
    intros i Hi Hl. cbn beta. rewrite wrap_id; lia.
  + destruct H as [k [Hk [H _]]]. cbn [size parts] in *.
    assert (k < 2 ^ 31) by (eapply new_array_lt; [eassumption|apply (wrap_lt int32)]).
    assert (Hp : In (wrap (IndexT false gpu) (wrap int32 num_rows * 0), num_rows)
      (map (fun t => (wrap (IndexT false gpu) (wrap int32 num_rows * t), num_rows)) (upto threads))).
    { apply in_map_iff. exists 0. split; [reflexivity|]. apply in_upto. lia. }
    apply H in Hp. cbn [fst snd] in Hp. lia.
- intros H. assert (num_rows < 2 ^ 31) by nia.
  rewrite (wrap_id int32 num_rows) by (cbn; lia).
  apply (serves_row num_rows (fun t => wrap (IndexT false gpu) (num_rows * t))); [assumption| | |lia].
  + intros i Hi. rewrite wrap_id; nia.
  + apply wrap_id. change (capacity int32) with (2 ^ 31). nia.
Qed.

Lemma basis_iff c num_rows b : 0 < num_rows < 2 ^ 31 -> 1 <= b ->
  (serves (basis c num_rows b) <-> num_rows * b < capacity c).
Proof.
intros Hn Hb. unfold basis, matrix_size.
assert (Cc := capacity_int c).
rewrite (wrap_id int32 num_rows) by (cbn; lia). rewrite (wrap_id c num_rows) by lia. cbn zeta.
rewrite (map_ext_upto _ _ (fun j => (wrap c (j * num_rows), num_rows)))
  by (intros i Hi; rewrite Z.mod_small by lia; reflexivity).
split.
- intros H. eapply (row_too_long (capacity c)); [lia|lia| |apply wrap_lt|exact H].
  intros i Hi Hl. cbn beta. rewrite wrap_id; nia.
- intros H.
  apply (serves_row num_rows (fun t => wrap c (t * num_rows))); [lia| | |lia].
  + intros i Hi. rewrite wrap_id; nia.
  + apply wrap_id. nia.
Qed.

Lemma residual_ok c num_rows : 0 < num_rows < 2 ^ 31 -> serves (residual c num_rows).
Proof.
intros Hn. unfold residual, matrix_size. assert (Cc := capacity_int c).
apply serves_one; [lia|]. rewrite (wrap_id int32) by (cbn; lia). apply wrap_id. lia.
Qed.

Lemma eigen_iff s : 1 <= s < 2 ^ 31 ->
  (Forall serves (eigen_arrays s) <-> s * s < 2 ^ 31).
Proof.
intros Hs. assert (C : capacity int32 = 2 ^ 31) by reflexivity. split.
- intros H. inversion H as [|? ? H1 _]; subst. apply serves_room in H1.
  assert (L := wrap_lt int32 (s * s)). lia.
- intros H. assert (s < 2 ^ 16) by nia.
  repeat constructor; apply serves_one; try nia; rewrite ?(wrap_id int32 (2 * s)) by lia; apply wrap_id; nia.
Qed.

Lemma singular_iff s : 1 <= s < 2 ^ 31 ->
  (Forall serves (singular_arrays s) <-> 3 * s * s + 4 * s < 2 ^ 31).
Proof.
intros Hs. assert (C : capacity int32 = 2 ^ 31) by reflexivity. split.
- intros H. assert (H3 := Forall_inv (Forall_inv_tail (Forall_inv_tail H))).
  apply serves_room in H3.
  assert (L := wrap_lt int32 (wrap int32 (wrap int32 (3 * s) * s) + wrap int32 (4 * s))). lia.
- intros H. assert (s < 2 ^ 15) by nia.
  repeat constructor; apply serves_one; try nia.
  + apply wrap_id; nia.
  + apply wrap_id; nia.
  + rewrite (wrap_id int32 (3 * s)) by lia. rewrite (wrap_id int32 (3 * s * s)) by nia.
    rewrite (wrap_id int32 (4 * s)) by lia. apply wrap_id; nia.
  + apply wrap_id; nia.
Qed.

(** ** C83 *)

(** A run of [s] Lanczos steps on a matrix with [num_rows] rows has all the room it
    needs exactly if the vectors of all threads together, the vectors that are kept
    for the orthogonalization and the arrays of LAPACK can be counted by their index
    types. *)
Theorem C83_room c gpu gram num_rows threads m orthogonalize (s : Z) :
  0 < num_rows -> 0 < threads -> 1 <= s <= m -> m < 2 ^ 31 ->
  (Forall serves (work_arrays c gpu gram num_rows threads m orthogonalize s) <->
   num_rows * threads < 2 ^ 31 /\
   num_rows * buffer_size gram orthogonalize m < capacity c /\
   (if gram then 3 * s * s + 4 * s < 2 ^ 31 else s * s < 2 ^ 31)).
Proof.
intros Hn Ht Hs Hm. unfold work_arrays.
assert (Hb := buffer_pos gram orthogonalize m ltac:(lia)).
set (b := buffer_size gram orthogonalize m) in *. cbn zeta.
rewrite Forall_cons_iff, (random_iff gpu num_rows threads Hn Ht).
assert (G : num_rows * threads < 2 ^ 31 -> 0 < num_rows < 2 ^ 31) by nia.
destruct gram; cbn [app]; rewrite !Forall_cons_iff.
- split.
  + intros [H1 [H2 [_ H3]]]. rewrite basis_iff in H2 by auto. rewrite singular_iff in H3 by lia. tauto.
  + intros [H1 [H2 H3]]. rewrite basis_iff by auto. rewrite singular_iff by lia. tauto.
- split.
  + intros [H1 [H2 [_ H3]]]. rewrite basis_iff in H2 by auto. rewrite eigen_iff in H3 by lia. tauto.
  + intros [H1 [H2 H3]]. rewrite basis_iff by auto. rewrite eigen_iff by lia.
    split; [assumption|split; [assumption|split; [apply residual_ok; auto|assumption]]].
Qed.

(** Ten thousand rows, thirty-two threads, a degree of 100, all vectors kept. *)
Example C83_room_case gram :
  Forall serves (work_arrays int32 false gram 10000 32 100 (-1) 100).
Proof.
apply C83_room; try lia. destruct gram; cbn; lia.
Qed.

(** The property as one would wish it, that there is room whatever the size of the
    matrix, does not hold, and the failures are of three kinds.

    With 64-bit indices too, the vectors of the threads are counted by an int: a
    matrix with so many rows that all threads together need 2^31 numbers (16 GB in
    double precision, 8 GB in single precision) cannot be treated with so many
    threads. *)
Theorem C83_threads_refuted c gpu gram num_rows threads m orthogonalize (s : Z) :
  0 < num_rows -> 0 < threads -> 2 ^ 31 <= num_rows * threads ->
  ~ Forall serves (work_arrays c gpu gram num_rows threads m orthogonalize s).
Proof.
intros Hn Ht Hl H. unfold work_arrays in H. cbn zeta in H. apply Forall_inv in H.
apply random_iff in H; lia.
Qed.

(** The number of threads decides: 2^25 rows are too many for 64 threads, and not for
    63.  With 128 threads the array is made, without a single place. *)
Example C83_threads_case :
  size (random_vectors false (2 ^ 25) 64) = None /\
  serves (random_vectors false (2 ^ 25) 63) /\
  size (random_vectors false (2 ^ 25) 128) = Some 0.
Proof.
split; [reflexivity|split; [|reflexivity]]. apply random_iff; lia.
Qed.

(** With full reorthogonalization the vectors that are kept are counted by the index
    type of the matrices, an int by default. *)
Theorem C83_basis_refuted c gpu gram num_rows threads m orthogonalize (s : Z) :
  0 < num_rows -> 0 < threads -> 1 <= m ->
  capacity c <= num_rows * m -> (orthogonalize < 0 \/ m < orthogonalize) ->
  orthogonalize <> 1 ->
  ~ Forall serves (work_arrays c gpu gram num_rows threads m orthogonalize s).
Proof.
intros Hn Ht Hm Hl Ho Ho1 H. unfold work_arrays in H. cbn zeta in H.
assert (Hr := Forall_inv H). apply random_iff in Hr; [|lia|lia].
assert (Hb : buffer_size gram orthogonalize m = m).
{ unfold buffer_size, golub_kahn_buffer_size, lanczos_buffer_size. destruct gram;
  repeat match goal with |- context [?a =? ?b] => destruct (Z.eqb_spec a b) end;
  repeat match goal with |- context [?a <? ?b] => destruct (Z.ltb_spec a b) end; cbn; lia. }
rewrite Hb in H. apply Forall_inv_tail in H.
assert (G : serves (basis c num_rows m)) by (destruct gram; exact (Forall_inv H)).
apply basis_iff in G; nia.
Qed.

(** Ten million rows and a degree of 215, on one thread, with the default types: the
    basis is not there, although with a degree of 214, or with 64-bit indices, it is. *)
Example C83_basis_case :
  size (basis int32 10000000 215) = None /\ serves (basis int32 10000000 214) /\
  serves (basis (IndexT true false) 10000000 215).
Proof.
split; [reflexivity|split; apply basis_iff; cbn; lia].
Qed.

(** With unsigned indices the array is there and too small, and vectors of the basis
    share its places: 2^30 rows and six vectors get the room of two. *)
Example C83_unsigned_case :
  size (basis (IndexT false true) (2 ^ 30) 6) = Some (2 ^ 31) /\
  nth 0 (parts (basis (IndexT false true) (2 ^ 30) 6)) (0, 0) =
  nth 4 (parts (basis (IndexT false true) (2 ^ 30) 6)) (0, 0).
Proof. split; reflexivity. Qed.

(** A high degree needs more room for LAPACK than an int counts. *)
Theorem C83_degree_refuted c gpu (gram : bool) num_rows threads m orthogonalize (s : Z) :
  1 <= s < 2 ^ 31 ->
  2 ^ 31 <= (if gram then 3 * s * s + 4 * s else s * s) ->
  ~ Forall serves (work_arrays c gpu gram num_rows threads m orthogonalize s).
Proof.
intros Hs Hl H. unfold work_arrays in H. cbn zeta in H.
apply Forall_inv_tail in H. destruct gram.
- apply Forall_app in H. destruct H as [_ H]. apply singular_iff in H; lia.
- apply Forall_app in H. destruct H as [_ H]. apply eigen_iff in H; lia.
Qed.

(** The last degrees that work. *)
Example C83_degree_case :
  Forall serves (eigen_arrays 46340) /\ ~ Forall serves (eigen_arrays 46341) /\
  Forall serves (singular_arrays 26753) /\ ~ Forall serves (singular_arrays 26755).
Proof. rewrite !eigen_iff, !singular_iff by lia. lia. Qed.

(** Keeping fewer vectors is what saves room: with an orthogonalization against a
    fixed number of vectors the room does not depend on the degree. *)
Theorem C83_short gram orthogonalize m m' :
  0 <= orthogonalize < m -> m <= m' ->
  buffer_size gram orthogonalize m' = buffer_size gram orthogonalize m /\
  buffer_size gram orthogonalize m <= orthogonalize + 2.
Proof.
intros Ho Hm. unfold buffer_size, golub_kahn_buffer_size, lanczos_buffer_size. destruct gram;
repeat match goal with |- context [?a =? ?b] => destruct (Z.eqb_spec a b) end;
repeat match goal with |- context [?a <? ?b] => destruct (Z.ltb_spec a b) end; cbn; lia.
Qed.

(** What is kept: the last two vectors, which the recursion needs, at least; all [m] if
    so requested; as many as requested otherwise, and with [gram] one more, and never
    more than there are. *)
Theorem C83_kept (gram : bool) orthogonalize m :
  2 <= m ->
  let b := buffer_size gram orthogonalize m in
  2 <= b <= m /\
  (orthogonalize < 0 \/ m <= orthogonalize -> b = m) /\
  (0 <= orthogonalize < m ->
   b = Z.max 2 (if gram then orthogonalize + 1 else orthogonalize)).
Proof.
intros Hm b. unfold b, buffer_size, golub_kahn_buffer_size, lanczos_buffer_size. destruct gram;
repeat match goal with |- context [?a =? ?b] => destruct (Z.eqb_spec a b) end;
repeat match goal with |- context [?a <? ?b] => destruct (Z.ltb_spec a b) end; cbn [orb]; lia.
Qed.

Example C83_short_case : buffer_size true 5 1000000 = 6 /\ buffer_size false 5 1000000 = 5.
Proof. split; reflexivity. Qed.

Definition C83_assumptions :=
  (@C83_room, @C83_threads_refuted, @C83_basis_refuted, @C83_degree_refuted, @C83_short,
   @C83_kept).
Print Assumptions C83_assumptions.
