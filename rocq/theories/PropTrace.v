(** The exact trace method: C34, C35. *)
From mathcomp Require Import all_ssreflect all_algebra.
From mathcomp Require Import zify.
From Verif Require Import ArgsModel MatSpec TraceModel.
Set Implicit Arguments.
Unset Strict Implicit.
Unset Printing Implicit Defensive.
Import Order.TTheory GRing.Theory Num.Theory.
Local Open Scope ring_scope.

(** A sparse matrix stores no position twice. *)
Definition no_duplicates (R : comRingType) n m (A : mat R n m) : Prop :=
  if A is Sparse e then uniq (map fst e) else True.

Section Proofs.
Variable R : comRingType.

Lemma mxpowD n (M : 'M[R]_n) a b : mxpow M (a + b) = mxpow M a *m mxpow M b.
Proof. by elim: a => [|a IH]; rewrite ?mul1mx //= IH mulmxA. Qed.

Lemma mxpow1 n (M : 'M[R]_n) : mxpow M 1 = M.
Proof. by rewrite /mxpow /= mulmx1. Qed.

Lemma mxpow2 n (M : 'M[R]_n) : mxpow M 2 = M *m M.
Proof. by rewrite /mxpow /= mulmx1. Qed.

Arguments mxpow : simpl never.

Lemma trmx_mxpow_gram n m (M : 'M[R]_(n, m)) b :
  (mxpow (M^T *m M) b)^T = mxpow (M^T *m M) b.
Proof.
elim: b => [|b IH]; first exact: trmx1.
rewrite -[in LHS]addn1 mxpowD mxpow1 trmx_mul IH trmx_mul trmxK -[in RHS]add1n.
by rewrite mxpowD mxpow1.
Qed.

Lemma mx_entries n m (M : 'M[R]_(n, m)) : mx (Sparse (entries M)) = M.
Proof.
apply/matrixP => i j; rewrite mxE big_map big_filter_cond /=.
rewrite (eq_bigl (fun ij => (ij == (i, j)) && (M ij.1 ij.2 != 0))); last first.
  by move=> ij; rewrite andbC.
rewrite big_enum_cond /= big_mkcondr /= big_pred1_eq /=.
by case: eqP => [->|].
Qed.

Lemma mx_like n m k l (A : mat R n m) (M : 'M[R]_(k, l)) : mx (like A M) = M.
Proof. by case: A => [A|e] //=; exact: mx_entries. Qed.

Lemma uniq_entries n m (M : 'M[R]_(n, m)) : uniq (map fst (entries M)).
Proof.
rewrite -map_comp (eq_map (f2 := id)) // map_id.
by apply: filter_uniq; apply: enum_uniq.
Qed.

Lemma like_no_duplicates n m k l (A : mat R n m) (M : 'M[R]_(k, l)) :
  no_duplicates (like A M).
Proof. by case: A => [A|e] //=; exact: uniq_entries. Qed.

Lemma frobenius2E n m (A : mat R n m) : no_duplicates A ->
  frobenius2 A = \sum_i \sum_j mx A i j ^+ 2.
Proof.
case: A => [M|e] //= Hu.
rewrite (eq_bigr (fun i => \sum_j (\sum_(t <- e | t.1 == (i, j)) t.2) ^+ 2)); last first.
  by move=> i _; apply: eq_bigr => j _; rewrite mxE.
rewrite pair_big /=.
rewrite (eq_bigr (fun ij : 'I_n * 'I_m => \sum_(t <- e | t.1 == ij) t.2 ^+ 2)).
  rewrite (exchange_big_dep predT) //=; apply: eq_bigr => t _.
  by rewrite (big_pred1 t.1) // => ij; rewrite eq_sym.
move=> [i j] _ /=.
elim: e Hu => [|t e IH] /=; first by rewrite !big_nil expr0n.
case/andP => Ht Hu; rewrite !big_cons; case: eqP => [E|]; last by rewrite IH.
rewrite big1_seq ?addr0 => [|u /andP [/eqP Eu Hin]]; last first.
  by case/negP: Ht; rewrite E -Eu map_f.
rewrite big1_seq ?addr0 // => u /andP [/eqP Eu Hin].
by case/negP: Ht; rewrite E -Eu map_f.
Qed.

Lemma frobenius2_trace n m (A : mat R n m) : no_duplicates A ->
  frobenius2 A = \tr ((mx A)^T *m mx A).
Proof.
move=> /frobenius2E ->; rewrite exchange_big; apply: eq_bigr => j _.
by rewrite mxE; apply: eq_bigr => i _; rewrite mxE expr2.
Qed.

Lemma entries_sum n (M : 'M[R]_n) : \sum_(t <- entries M) t.2 = \sum_i \sum_j M i j.
Proof.
rewrite big_map big_filter /= big_enum_cond /= big_mkcond /= pair_big /=.
by apply: eq_bigr => ij _; case: eqP => //= ->.
Qed.

Lemma product_sumE n (A : mat R n n) : product_sum A = \tr (mx A *m mx A).
Proof.
have -> : product_sum A = \sum_i \sum_j mx A i j * mx A j i.
  case: A => [M|e] //; rewrite /product_sum entries_sum.
  by apply: eq_bigr => i _; apply: eq_bigr => j _; rewrite mxE.
by apply: eq_bigr => i _; rewrite mxE.
Qed.

Lemma mx_matmul n m k (X : mat R n m) (Y : mat R m k) : mx (matmul X Y) = mx X *m mx Y.
Proof. exact: mx_like. Qed.

Lemma mx_power_loop n (A : mat R n n) b :
  (0 < b)%N -> mx (power_loop A A b) = mxpow (mx A) b.
Proof.
case: b => // b _; rewrite /power_loop subn1 [b.+1.-1]/=.
elim: b => [|b IH]; first by rewrite mxpow1.
by rewrite iterS mx_matmul IH -[b.+2]addn1 mxpowD mxpow1.
Qed.

Lemma power_loop_no_duplicates n (A : mat R n n) b : (forall e, A <> Sparse e) \/ no_duplicates A ->
  no_duplicates (power_loop A A b).
Proof.
rewrite /power_loop; case: (b - 1)%N => [|k] H /=; last exact: like_no_duplicates.
by case: H => //; case: A => // e /(_ e).
Qed.

(** Without the Gramian the method returns the trace of the p-th power, for
    dense and sparse storage. *)
Theorem C34_trace_of_power n (A : mat R n n) (k : nat) :
  exact_trace (PyInt k) A = Ok (\tr (mxpow (mx A) k)).
Proof.
rewrite /exact_trace /=.
case: eqP => [[->]|/eqP k0]; first by rewrite minnn /mxpow /= mxtrace1.
case: eqP => [[->]|/eqP k1]; first by rewrite mxpow1.
case: eqP => [Ev|Od]; last first.
  by rewrite /= ?absz_nat -mx_power_loop ?lt0n.
case: eqP => [[->]|/eqP k2] /=.
  by rewrite product_sumE mxpow2.
have Ek : k = (k %/ 2 + k %/ 2)%N by lia.
rewrite ?absz_nat product_sumE mx_power_loop; last by lia.
by rewrite -mxpowD -Ek.
Qed.

(** With the Gramian: every p > 0, if a sparse matrix stores no position twice. *)
Theorem C34_gram_partial n m (A : mat R n m) (k : nat) :
  no_duplicates A -> (0 < k)%N ->
  exact_trace_gram (PyInt k) A = Ok (\tr (mxpow ((mx A)^T *m mx A) k)).
Proof.
move=> Hu k0; rewrite /exact_trace_gram /=.
case: eqP => [[Ek]|_]; first by rewrite Ek in k0.
case: eqP => [[->]|/eqP k1]; first by rewrite mxpow1 frobenius2_trace.
have Eg : mx (gramian A) = (mx A)^T *m mx A by exact: mx_like.
have Ug : no_duplicates (gramian A) by exact: like_no_duplicates.
case: eqP => [Ev|Od]; last first.
  by rewrite /= ?absz_nat -Eg -mx_power_loop.
case: eqP => [[->]|/eqP k2] /=.
  by rewrite frobenius2_trace // Eg trmx_mul trmxK mxpow2.
have Ek : k = (k %/ 2 + k %/ 2)%N by lia.
rewrite ?absz_nat frobenius2_trace; last by apply: power_loop_no_duplicates; right.
rewrite mx_power_loop; last by lia.
by rewrite Eg trmx_mxpow_gram -mxpowD -Ek.
Qed.

(** p = 0 with the Gramian: the smaller dimension, which is right for tall and
    square matrices. *)
Theorem C34_gram_zero_partial n m (A : mat R n m) : (m <= n)%N ->
  exact_trace_gram (PyInt 0) A = Ok (\tr (mxpow ((mx A)^T *m mx A) 0)).
Proof. by move=> H; rewrite /exact_trace_gram /= (minn_idPr H) mxtrace1. Qed.

(** Floats are accepted where they stand for 0, 1 or 2, with the same result. *)
Theorem C34_float_exponent n (A : mat R n n) (k : nat) : (k <= 2)%N ->
  exact_trace (PyFloat k%:R) A = exact_trace (PyInt k) A.
Proof. by case: k => [|[|[|]]]. Qed.
End Proofs.

(** The full statement fails for wide matrices and p = 0 ... *)
Theorem C34_wide_refuted :
  exists A : mat [comRingType of int] 1 2,
    exact_trace_gram (PyInt 0) A <> Ok (\tr (mxpow ((mx A)^T *m mx A) 0)).
Proof. by exists (Dense 0); rewrite /exact_trace_gram /= mxtrace1. Qed.

(** ... and for sparse matrices that store a position twice, with p = 1. *)
Theorem C34_duplicates_refuted :
  exists A : mat [comRingType of int] 1 1,
    exact_trace_gram (PyInt 1) A <> Ok (\tr (mxpow ((mx A)^T *m mx A) 1)).
Proof.
exists (Sparse [:: (ord0, ord0, 1); (ord0, ord0, 1)]).
rewrite mxpow1 /exact_trace_gram /= /mxtrace big_ord1 mxE big_ord1 !mxE.
by rewrite !big_cons !big_nil.
Qed.

(** ** C35 *)

(** A value that is not an integer is rejected (range refuses it). *)
Theorem C35_noninteger_rejected_partial (R : comRingType) n m (A : mat R n n) (G : mat R n m) (p : pynum) :
  (p = PyFloatSpecial \/ exists2 x, p = PyFloat x & x \isn't a Qint) ->
  exact_trace p A = Raise TypeError /\ exact_trace_gram p G = Raise TypeError.
Proof.
case=> [->|[x -> Hx]] //.
have H c : x == c%:~R = false.
  by apply/negP => /eqP E; case/negP: Hx; rewrite E; apply/QintP; exists c.
have Hd : denq x == 1 = false by move: Hx; rewrite Qint_def => /negbTE.
by rewrite /exact_trace /exact_trace_gram /= !H Hd.
Qed.

(** The full statement fails for every negative integer: the result is that of
    the absolute value (the exceptions are created but not raised in lines
    413-416). *)
Theorem C35_negative_refuted (R : comRingType) n m (A : mat R n n) (G : mat R n m) (k : nat) :
  (0 < k)%N ->
  exact_trace (PyInt (- k%:Z)) A = Ok (\tr (mxpow (mx A) k)) /\
  exact_trace_gram (PyInt (- k%:Z)) G = Ok (\tr (mxpow ((mx G)^T *m mx G) k)).
Proof.
move=> k0; have E0 c : (- k%:Z == Posz c) = false by apply/eqP; lia.
have Eg : mx (gramian G) = (mx G)^T *m mx G by exact: mx_like.
rewrite /exact_trace /exact_trace_gram /= !E0 abszN ?absz_nat.
case: eqP => [Ev|Od]; last first.
  by rewrite /= -Eg -!mx_power_loop.
have Ek : k = (k %/ 2 + k %/ 2)%N by lia.
rewrite /= product_sumE mx_power_loop; last by lia.
rewrite -mxpowD -Ek; split=> //.
have [->|k2] : k = 2%N \/ (2 < k)%N by lia.
  rewrite frobenius2_trace; last by exact: like_no_duplicates.
  by rewrite Eg trmx_mul trmxK mxpow2.
have E1 : - k%:Z <> - 2%:Z by lia.
rewrite frobenius2_trace; last first.
  by apply: power_loop_no_duplicates; right; exact: like_no_duplicates.
by rewrite mx_power_loop ?Eg ?trmx_mxpow_gram -?mxpowD -?Ek //; lia.
Qed.

Example C34_C35_case :
  let A : mat [comRingType of int] 2 2 :=
    Sparse [:: (ord0, ord_max, 2); (ord_max, ord0, 3); (ord_max, ord_max, 1)] in
  [/\ no_duplicates A, \tr (mx A) = 1 & (1 / 2%:R : rat) \isn't a Qint].
Proof.
split=> //.
by rewrite /mxtrace !big_ord_recl big_ord0 !mxE /= !big_cons !big_nil.
Qed.

Print Assumptions C34_trace_of_power.
Print Assumptions C34_gram_partial.
Print Assumptions C34_gram_zero_partial.
Print Assumptions C34_float_exponent.
Print Assumptions C34_wide_refuted.
Print Assumptions C34_duplicates_refuted.
Print Assumptions C35_noninteger_rejected_partial.
Print Assumptions C35_negative_refuted.
