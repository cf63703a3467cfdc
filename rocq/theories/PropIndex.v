(** Dense matrices of any size: C56. *)
Require Import ZArith List Lia.
From Verif Require Import IndexModel.
Local Open Scope Z_scope.

(** The number of positions that an index can denote *)
Definition limit (c : index_type) : Z :=
  match long_int c, unsigned c with
  | false, false => 2 ^ 31
  | false, true => 2 ^ 32
  | true, false => 2 ^ 63
  | true, true => 2 ^ 64
  end.

(** Where entry (i, j) is *)
Definition place (row_major : bool) (m n i j : Z) : Z := if row_major then i * n + j else i + m * j.

Lemma wrap_id c z : 0 <= z < limit c -> wrap c z = z.
Proof.
destruct c as [[] []]; unfold limit, wrap, bits; simpl; intros H; rewrite Z.mod_small; lia.
Qed.

Lemma wrap_lt c z : wrap c z < limit c.
Proof.
destruct c as [[] []]; unfold limit, wrap, bits; cbn [long_int unsigned].
- apply (Z.mod_pos_bound z (2 ^ 64)). lia.
- assert (H := Z.mod_pos_bound (z + 2 ^ (64 - 1)) (2 ^ 64) ltac:(lia)). lia.
- apply (Z.mod_pos_bound z (2 ^ 32)). lia.
- assert (H := Z.mod_pos_bound (z + 2 ^ (32 - 1)) (2 ^ 32) ltac:(lia)). lia.
Qed.

(** C56: an entry is found where it is, exactly if its place can be denoted by an
    index *)
Theorem C56_position c row_major m n i j : 0 <= i < m -> 0 <= j < n ->
  (position c row_major m n i j = place row_major m n i j <-> place row_major m n i j < limit c).
Proof.
intros Hi Hj. unfold position, place. split.
- intros <-. destruct row_major; apply wrap_lt.
- destruct row_major; intros H.
  + rewrite (wrap_id c (i * n)) by nia. apply wrap_id. nia.
  + rewrite (wrap_id c (m * j)) by nia. apply wrap_id. nia.
Qed.

Lemma loop_sum_ext f g k : (forall j, 0 <= j < k -> f j = g j) -> loop_sum f k = loop_sum g k.
Proof.
intros H. unfold loop_sum.
assert (G : forall l a, (forall x, In x l -> f (Z.of_nat x) = g (Z.of_nat x)) ->
  fold_left (fun sum j => sum + f (Z.of_nat j)) l a = fold_left (fun sum j => sum + g (Z.of_nat j)) l a).
{ induction l as [|x l IH]; intros a Hl; [reflexivity|]. simpl. rewrite (Hl x) by (left; reflexivity).
  apply IH. intros y Hy. apply Hl. right. assumption. }
apply G. intros x Hx. apply in_seq in Hx. apply H. lia.
Qed.

(** so that the products are right for matrices with at most [limit] entries *)
Theorem C56_matvec_partial c A b m n row_major i : 0 <= i < m -> 0 < n -> m * n <= limit c ->
  dense_matvec c A b m n row_major i = loop_sum (fun j => A (place row_major m n i j) * b j) n.
Proof.
intros Hi Hn Hl. apply loop_sum_ext. intros j Hj. f_equal. f_equal.
apply C56_position; [assumption|assumption|]. unfold place. destruct row_major; nia.
Qed.

Theorem C56_transposed_partial c A b m n row_major j : 0 <= j < n -> 0 < m -> m * n <= limit c ->
  dense_transposed_matvec c A b m n row_major j = loop_sum (fun i => A (place row_major m n i j) * b i) m.
Proof.
intros Hj Hm Hl. apply loop_sum_ext. intros i Hi. f_equal. f_equal.
apply C56_position; [assumption|assumption|]. unfold place. destruct row_major; nia.
Qed.

(** and wrong for larger ones: for every size above the limit there are a matrix, zero except for one
    entry, and a vector with a wrong product *)
Lemma loop_sum_one (f : Z -> Z) k j0 : 0 <= j0 < k -> (forall j, 0 <= j < k -> j <> j0 -> f j = 0) ->
  loop_sum f k = f j0.
Proof.
intros H0 Hz. unfold loop_sum.
assert (G : forall l a, (forall x, In x l -> Z.of_nat x <> j0 -> f (Z.of_nat x) = 0) -> NoDup l ->
  fold_left (fun sum j => sum + f (Z.of_nat j)) l a =
  if in_dec Nat.eq_dec (Z.to_nat j0) l then a + f j0 else a).
{ induction l as [|x l IH]; intros a Hl Hd; [reflexivity|]. cbn [fold_left].
  inversion Hd as [|? ? Hx Hd']; subst.
  rewrite IH; [|intros y Hy; apply Hl; right; assumption|assumption].
  destruct (Z.eq_dec (Z.of_nat x) j0) as [E|D].
  - assert (E' : Z.to_nat j0 = x) by lia.
    destruct (in_dec Nat.eq_dec (Z.to_nat j0) l) as [F|_]; [congruence|].
    destruct (in_dec Nat.eq_dec (Z.to_nat j0) (x :: l)) as [_|F]; [rewrite E; reflexivity|].
    destruct F. left. symmetry. assumption.
  - rewrite (Hl x) by (try (left; reflexivity); assumption). rewrite Z.add_0_r.
    destruct (in_dec Nat.eq_dec (Z.to_nat j0) l) as [F|F];
    destruct (in_dec Nat.eq_dec (Z.to_nat j0) (x :: l)) as [F'|F']; try reflexivity; exfalso.
    + apply F'. right. assumption.
    + destruct F' as [F'|F']; [lia|contradiction]. }
rewrite G; [|intros x Hx Hne; apply in_seq in Hx; apply Hz; lia|apply seq_NoDup].
destruct (in_dec Nat.eq_dec (Z.to_nat j0) (seq 0 (Z.to_nat k))) as [_|F]; [lia|].
destruct F. apply in_seq. lia.
Qed.

Theorem C56_matvec_refuted c m n row_major : 0 < m -> 0 < n -> limit c < m * n ->
  exists A b i, 0 <= i < m /\
    dense_matvec c A b m n row_major i <> loop_sum (fun j => A (place row_major m n i j) * b j) n.
Proof.
intros Hm Hn Hl.
assert (HL : 0 < limit c) by (destruct c as [[] []]; unfold limit; cbn [long_int unsigned]; lia).
set (p := place row_major m n (m - 1) (n - 1)).
assert (Hp : limit c <= p) by (unfold p, place; destruct row_major; nia).
exists (fun a => if Z.eqb a p then 1 else 0), (fun j => if Z.eqb j (n - 1) then 1 else 0), (m - 1).
split; [lia|].
rewrite (loop_sum_one _ n (n - 1)); [|lia|].
- fold p. rewrite !Z.eqb_refl. unfold dense_matvec.
  rewrite (loop_sum_one _ n (n - 1)); [|lia|].
  + assert (D : position c row_major m n (m - 1) (n - 1) <> p).
    { intros E. apply C56_position in E; [|lia|lia]. fold p in E. lia. }
    apply Z.eqb_neq in D. rewrite D. lia.
  + intros j _ Hj. apply Z.eqb_neq in Hj. rewrite Hj. lia.
- intros j _ Hj. apply Z.eqb_neq in Hj. rewrite Hj. lia.
Qed.

(** By default the limit is exceeded by a square matrix of 46341 rows (16 GB in double precision) *)
Example C56_default : limit (IndexT false false) < 46341 * 46341 /\ 46340 * 46340 <= limit (IndexT false false).
Proof. unfold limit; cbn [long_int unsigned]. lia. Qed.

Example C56_case :
  dense_matvec (IndexT false false) (fun a => nth (Z.to_nat a) (1 :: 2 :: 3 :: 4 :: 5 :: 6 :: nil) 0) (fun _ => 1) 2 3 true 1 = 15.
Proof. reflexivity. Qed.

Definition C56_assumptions := (@C56_position, @C56_matvec_partial, @C56_transposed_partial, @C56_matvec_refuted).
Print Assumptions C56_assumptions.
