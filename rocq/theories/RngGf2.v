(** GF(2)-linear theory of the xoshiro256 state transition: polynomials over
    GF(2), encoded as [N], act on states; the characteristic polynomial
    annihilates every state.  Used to prove the jump functions correct. *)
From Coq Require Import NArith ZArith List Lia Bool.
From Verif Require Import RngModel.
Import ListNotations.
Local Open Scope N_scope.

(** ** Bits of words *)

Lemma lt_pow2_bits x k :
  x < 2 ^ k <-> (forall i, k <= i -> N.testbit x i = false).
Proof.
  split.
  - intros Hx i Hi. destruct (N.eq_dec x 0) as [->|Hn]; [apply N.bits_0|].
    apply N.bits_above_log2. apply N.log2_lt_pow2; [lia|].
    apply N.lt_le_trans with (2 ^ k); [assumption|].
    apply N.pow_le_mono_r; lia.
  - intros H. destruct (N.eq_dec x 0) as [->|Hn].
    + apply N.neq_0_lt_0, N.pow_nonzero; lia.
    + apply N.log2_lt_pow2; [lia|].
      destruct (N.lt_ge_cases (N.log2 x) k) as [Hl|Hl]; [assumption|].
      specialize (H _ Hl). rewrite N.bit_log2 in H by assumption. discriminate.
Qed.

Lemma mod_pow2_bit x k i :
  N.testbit (x mod 2 ^ k) i = (i <? k) && N.testbit x i.
Proof.
  destruct (N.ltb_spec i k).
  - rewrite N.mod_pow2_bits_low by assumption. reflexivity.
  - rewrite N.mod_pow2_bits_high by assumption. reflexivity.
Qed.

Lemma shl64_bit x k i :
  N.testbit (shl64 x k) i = (i <? 64) && ((k <=? i) && N.testbit x (i - k)).
Proof.
  unfold shl64, word_mod. rewrite mod_pow2_bit. f_equal.
  destruct (N.leb_spec k i).
  - rewrite N.shiftl_spec_high' by assumption. reflexivity.
  - rewrite N.shiftl_spec_low by assumption. reflexivity.
Qed.

Lemma shr64_bit x k i : N.testbit (shr64 x k) i = N.testbit x (i + k).
Proof. unfold shr64. apply N.shiftr_spec'. Qed.

Lemma rot_bit x k i :
  N.testbit (rotation_left x k) i =
  ((i <? 64) && ((k <=? i) && N.testbit x (i - k)))
  || N.testbit x (i + (64 - k)).
Proof. unfold rotation_left. rewrite N.lor_spec, shl64_bit, shr64_bit. reflexivity. Qed.

Definition word (x : N) : Prop := x < word_mod.

Lemma word_bits x : word x <-> (forall i, 64 <= i -> N.testbit x i = false).
Proof. apply lt_pow2_bits. Qed.

Lemma word_lxor a b : word a -> word b -> word (N.lxor a b).
Proof.
  rewrite !word_bits. intros Ha Hb i Hi. rewrite N.lxor_spec, Ha, Hb by assumption.
  reflexivity.
Qed.

Lemma word_shl x k : word (shl64 x k).
Proof. apply N.mod_lt. discriminate. Qed.

Lemma word_shr x k : word x -> word (shr64 x k).
Proof.
  rewrite !word_bits. intros Hx i Hi. rewrite shr64_bit. apply Hx. lia.
Qed.

Lemma word_rot x k : word x -> word (rotation_left x k).
Proof.
  intros Hx. rewrite word_bits in *. intros i Hi. rewrite rot_bit.
  replace (i <? 64) with false by (symmetry; apply N.ltb_ge; lia).
  cbn [andb orb]. apply Hx. lia.
Qed.

Lemma shl64_lxor a b k : shl64 (N.lxor a b) k = N.lxor (shl64 a k) (shl64 b k).
Proof.
  apply N.bits_inj; intros i. rewrite N.lxor_spec, !shl64_bit, N.lxor_spec.
  destruct (i <? 64), (k <=? i); reflexivity.
Qed.

Lemma rot_lxor a b k : k < 64 -> word a -> word b ->
  rotation_left (N.lxor a b) k = N.lxor (rotation_left a k) (rotation_left b k).
Proof.
  intros Hk Ha Hb. rewrite word_bits in Ha, Hb.
  apply N.bits_inj; intros i. rewrite N.lxor_spec, !rot_bit, !N.lxor_spec.
  destruct (N.leb_spec k i) as [Hi|Hi].
  - rewrite (Ha (i + (64 - k))), (Hb (i + (64 - k))) by lia.
    destruct (i <? 64); cbn; rewrite ?orb_false_r; reflexivity.
  - cbn [andb]. rewrite !andb_false_r. reflexivity.
Qed.

(** ** States *)

Definition wf (s : xstate) : Prop :=
  word (x0 s) /\ word (x1 s) /\ word (x2 s) /\ word (x3 s).

Lemma wf_zero : wf xzero.
Proof. repeat split. Qed.

Lemma wf_xxor a b : wf a -> wf b -> wf (xxor a b).
Proof. intros (?&?&?&?) (?&?&?&?). repeat split; apply word_lxor; assumption. Qed.

Lemma xxor_assoc a b c : xxor a (xxor b c) = xxor (xxor a b) c.
Proof. unfold xxor; cbn. rewrite !N.lxor_assoc. reflexivity. Qed.

Lemma xxor_comm a b : xxor a b = xxor b a.
Proof.
  unfold xxor. rewrite (N.lxor_comm (x0 a)), (N.lxor_comm (x1 a)),
    (N.lxor_comm (x2 a)), (N.lxor_comm (x3 a)). reflexivity.
Qed.

Lemma xxor_nilp a : xxor a a = xzero.
Proof. unfold xxor. rewrite !N.lxor_nilpotent. reflexivity. Qed.

Lemma xxor_0_l a : xxor xzero a = a.
Proof. destruct a; reflexivity. Qed.

Lemma xxor_0_r a : xxor a xzero = a.
Proof. rewrite xxor_comm. apply xxor_0_l. Qed.

Lemma xxor_eq0 a b : xxor a b = xzero -> a = b.
Proof.
  destruct a, b. unfold xxor, xzero; cbn. intros H; injection H as H0 H1 H2 H3.
  apply N.lxor_eq in H0, H1, H2, H3. subst. reflexivity.
Qed.

Lemma xxor_swap a b c d : xxor (xxor a b) (xxor c d) = xxor (xxor a c) (xxor b d).
Proof.
  rewrite <- !xxor_assoc. f_equal. rewrite !xxor_assoc. f_equal. apply xxor_comm.
Qed.

Lemma wf_step s : wf s -> wf (xoshiro_step s).
Proof.
  intros (H0&H1&H2&H3). unfold xoshiro_step, xoshiro_next; cbn.
  repeat split; cbn; repeat first [apply word_lxor | apply word_rot | apply word_shl]; assumption.
Qed.

Lemma step_zero : xoshiro_step xzero = xzero.
Proof. reflexivity. Qed.

Lemma step_xxor a b : wf a -> wf b ->
  xoshiro_step (xxor a b) = xxor (xoshiro_step a) (xoshiro_step b).
Proof.
  intros (A0&A1&A2&A3) (B0&B1&B2&B3).
  unfold xoshiro_step, xoshiro_next, xxor; cbn [x0 x1 x2 x3 snd].
  rewrite shl64_lxor.
  assert (Hswap : forall a b c d,
    N.lxor (N.lxor a b) (N.lxor c d) = N.lxor (N.lxor a c) (N.lxor b d)).
  { intros w x y z. rewrite <- !N.lxor_assoc. f_equal. rewrite !N.lxor_assoc.
    f_equal. apply N.lxor_comm. }
  rewrite (Hswap (x3 a) (x3 b)), (Hswap (x2 a) (x2 b)).
  rewrite rot_lxor by (first [reflexivity | apply word_lxor; assumption]).
  f_equal; rewrite Hswap; reflexivity.
Qed.

(** ** Polynomials over GF(2) acting on states *)

Fixpoint actp (p : positive) (s : xstate) : xstate :=
  match p with
  | xH => s
  | xO p' => actp p' (xoshiro_step s)
  | xI p' => xxor s (actp p' (xoshiro_step s))
  end.

Definition act (p : N) (s : xstate) : xstate :=
  match p with N0 => xzero | Npos p' => actp p' s end.

Lemma act_double p s : act (N.double p) s = act p (xoshiro_step s).
Proof. destruct p; reflexivity. Qed.

Lemma act_succ_double p s :
  act (N.succ_double p) s = xxor s (act p (xoshiro_step s)).
Proof. destruct p; [symmetry; apply xxor_0_r | reflexivity]. Qed.

Lemma act_lxor p q s : act (N.lxor p q) s = xxor (act p s) (act q s).
Proof.
  destruct p as [|p]; [symmetry; apply xxor_0_l|].
  destruct q as [|q]; [symmetry; apply xxor_0_r|].
  cbn [N.lxor]. revert q s. induction p as [p IH|p IH|]; intros q s; destruct q as [q|q|];
    cbn [Pos.lxor]; rewrite ?act_double, ?act_succ_double, ?IH; cbn [act actp].
  - rewrite xxor_swap, xxor_nilp, xxor_0_l. reflexivity.
  - rewrite xxor_assoc. reflexivity.
  - rewrite (xxor_comm s), <- xxor_assoc, xxor_nilp, xxor_0_r. reflexivity.
  - rewrite !xxor_assoc. f_equal. apply xxor_comm.
  - reflexivity.
  - apply xxor_comm.
  - rewrite xxor_assoc, xxor_nilp, xxor_0_l. reflexivity.
  - reflexivity.
  - symmetry; apply xxor_nilp.
Qed.

Lemma wf_act p s : wf s -> wf (act p s).
Proof.
  destruct p as [|p]; [intros; apply wf_zero|]. cbn [act]. revert s.
  induction p as [p IH|p IH|]; intros s Hs; cbn [actp].
  - apply wf_xxor; [assumption|]. apply IH, wf_step, Hs.
  - apply IH, wf_step, Hs.
  - assumption.
Qed.

Lemma act_xxor p a b : wf a -> wf b ->
  act p (xxor a b) = xxor (act p a) (act p b).
Proof.
  destruct p as [|p]; [reflexivity|]. cbn [act]. revert a b.
  induction p as [p IH|p IH|]; intros a b Ha Hb; cbn [actp]; try reflexivity;
    rewrite (step_xxor a b), IH by (try apply wf_step; assumption); [|reflexivity].
  apply xxor_swap.
Qed.

Lemma act_step p s : wf s -> act p (xoshiro_step s) = xoshiro_step (act p s).
Proof.
  destruct p as [|p]; [reflexivity|]. cbn [act]. revert s.
  induction p as [p IH|p IH|]; intros s Hs; cbn [actp]; try reflexivity.
  - rewrite step_xxor; [|assumption|apply (wf_act (Npos p)), wf_step, Hs].
    rewrite IH by (apply wf_step, Hs). reflexivity.
  - apply IH, wf_step, Hs.
Qed.

(** ** Every word is a sum of unit words *)

Lemma nrange_in s len i : In i (nrange s len) <-> s <= i < s + N.of_nat len.
Proof.
  revert s. induction len as [|len IH]; intros s.
  - cbn. lia.
  - cbn [nrange In]. rewrite IH. lia.
Qed.

Lemma word_ind (P : N -> Prop) (k : nat) :
  P 0 -> (forall a b, P a -> P b -> P (N.lxor a b)) ->
  (forall i, i < N.of_nat k -> P (2 ^ i)) ->
  forall x, x < 2 ^ N.of_nat k -> P x.
Proof.
  intros H0 Hx. induction k as [|k IH]; intros Hu x Hlt.
  - assert (x = 0) as -> by (cbn in Hlt; lia). assumption.
  - assert (IH' : forall x, x < 2 ^ N.of_nat k -> P x).
    { apply IH. intros i Hi. apply Hu. lia. }
    destruct (N.testbit x (N.of_nat k)) eqn:Eb.
    + replace x with (N.lxor (2 ^ N.of_nat k) (N.lxor (2 ^ N.of_nat k) x))
        by (rewrite <- N.lxor_assoc, N.lxor_nilpotent, N.lxor_0_l; reflexivity).
      apply Hx; [apply Hu; lia|]. apply IH'.
      apply lt_pow2_bits. intros i Hi. rewrite N.lxor_spec, N.pow2_bits_eqb.
      destruct (N.eqb_spec (N.of_nat k) i) as [<-|Hne]; [rewrite Eb; reflexivity|].
      rewrite (proj1 (lt_pow2_bits x (N.of_nat (S k))) Hlt) by lia. reflexivity.
    + apply IH'. apply lt_pow2_bits. intros i Hi.
      destruct (N.eq_dec i (N.of_nat k)) as [->|Hne]; [assumption|].
      apply (proj1 (lt_pow2_bits x (N.of_nat (S k))) Hlt). lia.
Qed.

(** ** The characteristic polynomial *)

Definition charpoly : N :=
  0x10003c03c3f3ecb1904b4edcf26259f850280002bcefd1a5e9d116f2bb0f0f001.

Definition xeqb (a b : xstate) : bool :=
  (x0 a =? x0 b) && (x1 a =? x1 b) && (x2 a =? x2 b) && (x3 a =? x3 b).

Lemma xeqb_eq a b : xeqb a b = true -> a = b.
Proof.
  destruct a, b. unfold xeqb; cbn. rewrite !andb_true_iff, !N.eqb_eq.
  intros [[[-> ->] ->] ->]. reflexivity.
Qed.

(** The same step with the modulus computed by masking, for evaluation. *)
Definition mask64 : N := 0xffffffffffffffff.
Definition fast_shl (x k : N) : N := N.land (N.shiftl x k) mask64.
Definition fast_step (s : xstate) : xstate :=
  let t := fast_shl (x1 s) 17 in
  let s2 := N.lxor (x2 s) (x0 s) in
  let s3 := N.lxor (x3 s) (x1 s) in
  X (N.lxor (x0 s) s3) (N.lxor (x1 s) s2) (N.lxor s2 t)
    (N.lor (fast_shl s3 45) (N.shiftr s3 19)).

Lemma fast_shl_eq x k : fast_shl x k = shl64 x k.
Proof. unfold fast_shl, shl64, word_mod. rewrite <- N.land_ones. reflexivity. Qed.

Lemma fast_step_eq s : fast_step s = xoshiro_step s.
Proof. unfold fast_step. rewrite !fast_shl_eq. reflexivity. Qed.

Fixpoint fast_actp (p : positive) (s : xstate) : xstate :=
  match p with
  | xH => s
  | xO p' => fast_actp p' (fast_step s)
  | xI p' => xxor s (fast_actp p' (fast_step s))
  end.

Definition fast_act (p : N) (s : xstate) : xstate :=
  match p with N0 => xzero | Npos p' => fast_actp p' s end.

Lemma fast_act_eq p s : fast_act p s = act p s.
Proof.
  destruct p as [|p]; [reflexivity|]. cbn [act fast_act]. revert s.
  induction p as [p IH|p IH|]; intros s; cbn [actp fast_actp];
    rewrite ?fast_step_eq, ?IH; reflexivity.
Qed.

(** It is enough to check the 64 unit states of the last word: the states
    killed by the polynomial form a linear space that is closed under the
    step, and the step spreads the last word into the other three. *)
Lemma charpoly_units :
  forallb (fun i => xeqb (fast_act charpoly (X 0 0 0 (2 ^ i))) xzero) (nrange 0 64) = true.
Proof. vm_cast_no_check (eq_refl true). Qed.

Lemma step_e3 d : xoshiro_step (X 0 0 0 d) = X d 0 0 (rotation_left d 45).
Proof. unfold xoshiro_step, xoshiro_next; cbn [x0 x1 x2 x3 snd]. rewrite ?N.lxor_0_r, ?N.lxor_0_l. reflexivity. Qed.

Lemma step_e0 a : xoshiro_step (X a 0 0 0) = X a a a 0.
Proof. unfold xoshiro_step, xoshiro_next; cbn [x0 x1 x2 x3 snd]. rewrite ?N.lxor_0_r, ?N.lxor_0_l. reflexivity. Qed.

Lemma step_e12 a : xoshiro_step (X 0 a a 0) =
  X a 0 (N.lxor a (shl64 a 17)) (rotation_left a 45).
Proof.
  unfold xoshiro_step, xoshiro_next; cbn [x0 x1 x2 x3 snd].
  rewrite ?N.lxor_0_r, ?N.lxor_0_l, ?N.lxor_nilpotent. reflexivity.
Qed.

Lemma shl64_shl64 x j k : shl64 (shl64 x j) k = shl64 x (j + k).
Proof.
  apply N.bits_inj; intros i. rewrite !shl64_bit.
  destruct (N.ltb_spec i 64), (N.leb_spec k i), (N.leb_spec (j + k) i); cbn [andb]; try reflexivity; try lia.
  - rewrite (proj2 (N.ltb_lt (i - k) 64)) by lia. rewrite (proj2 (N.leb_le j (i - k))) by lia.
    cbn [andb]. f_equal. lia.
  - rewrite (proj2 (N.leb_gt j (i - k))) by lia. rewrite andb_false_r. reflexivity.
Qed.

(** x -> x xor (x << 17) is onto the words. *)
Lemma shl17_onto w : word w -> exists a, word a /\ N.lxor a (shl64 a 17) = w.
Proof.
  intros Hw. exists (N.lxor (N.lxor w (shl64 w 17)) (N.lxor (shl64 w 34) (shl64 w 51))).
  split; [repeat apply word_lxor; auto using word_shl|].
  rewrite !shl64_lxor, !shl64_shl64.
  change (17 + 17) with 34. change (34 + 17) with 51. change (51 + 17) with 68.
  assert (E : shl64 w 68 = 0).
  { apply N.bits_inj; intros i. rewrite shl64_bit, N.bits_0.
    destruct (N.ltb_spec i 64), (N.leb_spec 68 i); try reflexivity. lia. }
  rewrite E, N.lxor_0_r.
  set (a := shl64 w 17). set (b := shl64 w 34). set (c := shl64 w 51).
  apply N.bits_inj; intros i. rewrite !N.lxor_spec.
  destruct (N.testbit w i), (N.testbit a i), (N.testbit b i), (N.testbit c i); reflexivity.
Qed.

Lemma linear_kills (f : xstate -> xstate) :
  (forall a b, wf a -> wf b -> f (xxor a b) = xxor (f a) (f b)) ->
  (forall a, wf a -> f (xoshiro_step a) = xoshiro_step (f a)) ->
  (forall d, word d -> f (X 0 0 0 d) = xzero) ->
  forall s, wf s -> f s = xzero.
Proof.
  intros Hlin Hcom K3 s.
  assert (Hadd : forall a b, wf a -> wf b -> f a = xzero -> f (xxor a b) = f b).
  { intros a b Ha Hb E. rewrite Hlin, E, xxor_0_l by assumption. reflexivity. }
  assert (Hstep : forall a, wf a -> f a = xzero -> f (xoshiro_step a) = xzero).
  { intros a Ha E. rewrite Hcom, E by assumption. reflexivity. }
  assert (W : forall a b c d, word a -> word b -> word c -> word d -> wf (X a b c d))
    by (intros; repeat split; assumption).
  assert (w0 : word 0) by reflexivity.
  assert (K0 : forall a, word a -> f (X a 0 0 0) = xzero).
  { intros a Ha. pose proof (Hstep _ (W _ _ _ _ w0 w0 w0 Ha) (K3 a Ha)) as E.
    rewrite step_e3 in E.
    replace (X a 0 0 (rotation_left a 45)) with (xxor (X 0 0 0 (rotation_left a 45)) (X a 0 0 0)) in E
      by (unfold xxor; cbn [x0 x1 x2 x3]; rewrite ?N.lxor_0_r, ?N.lxor_0_l; reflexivity).
    rewrite Hadd in E; auto using word_rot. }
  assert (K12 : forall a, word a -> f (X 0 a a 0) = xzero).
  { intros a Ha. pose proof (Hstep _ (W _ _ _ _ Ha w0 w0 w0) (K0 a Ha)) as E.
    rewrite step_e0 in E.
    replace (X a a a 0) with (xxor (X a 0 0 0) (X 0 a a 0)) in E
      by (unfold xxor; cbn [x0 x1 x2 x3]; rewrite ?N.lxor_0_r, ?N.lxor_0_l; reflexivity).
    rewrite Hadd in E; auto. }
  assert (K2 : forall c, word c -> f (X 0 0 c 0) = xzero).
  { intros c Hc. destruct (shl17_onto c Hc) as [a [Ha <-]].
    pose proof (Hstep _ (W _ _ _ _ w0 Ha Ha w0) (K12 a Ha)) as E.
    rewrite step_e12 in E. set (c := N.lxor a (shl64 a 17)) in *.
    replace (X a 0 c (rotation_left a 45))
      with (xxor (X a 0 0 0) (xxor (X 0 0 0 (rotation_left a 45)) (X 0 0 c 0))) in E
      by (unfold xxor; cbn [x0 x1 x2 x3]; rewrite ?N.lxor_0_r, ?N.lxor_0_l; reflexivity).
    rewrite Hadd in E; auto using wf_xxor, word_rot.
    rewrite Hadd in E; auto using word_rot. }
  intros Hs. destruct s as [a b c d]. destruct Hs as (Ha&Hb&Hc&Hd). cbn [x0 x1 x2 x3] in *.
  replace (X a b c d) with
    (xxor (X a 0 0 0) (xxor (X 0 b b 0) (xxor (X 0 0 (N.lxor b c) 0) (X 0 0 0 d)))).
  - rewrite !Hadd; auto 10 using wf_xxor, word_lxor.
  - unfold xxor; cbn [x0 x1 x2 x3].
    rewrite ?N.lxor_0_r, ?N.lxor_0_l, <- N.lxor_assoc, N.lxor_nilpotent, N.lxor_0_l. reflexivity.
Qed.

Lemma charpoly_kills s : wf s -> act charpoly s = xzero.
Proof.
  revert s. apply linear_kills; [intros; apply act_xxor; assumption|intros; apply act_step; assumption|].
  intros d Hd.
  assert (word d /\ act charpoly (X 0 0 0 d) = xzero) as [_ G]; [|exact G].
  refine (word_ind (fun d => word d /\ act charpoly (X 0 0 0 d) = xzero) 64 _ _ _ d Hd).
  - split; [reflexivity|]. vm_compute. reflexivity.
  - intros a b [Ha Ea] [Hb Eb]. split; [apply word_lxor; assumption|].
    change (X 0 0 0 (N.lxor a b)) with (xxor (X 0 0 0 a) (X 0 0 0 b)).
    rewrite act_xxor; [rewrite Ea, Eb; reflexivity| |]; (repeat split; assumption).
  - intros i Hi. split; [apply N.pow_lt_mono_r; lia|]. apply xeqb_eq. rewrite <- fast_act_eq.
    refine (proj1 (forallb_forall _ _) charpoly_units i _). apply nrange_in. lia.
Qed.

(** ** Arithmetic modulo the characteristic polynomial *)

Definition xtimes (r : N) : N :=
  let d := N.double r in
  if N.testbit d 256 then N.lxor d charpoly else d.

Fixpoint pmulp (p : positive) (q : N) : N :=
  match p with
  | xH => q
  | xO p' => xtimes (pmulp p' q)
  | xI p' => N.lxor q (xtimes (pmulp p' q))
  end.

Definition pmul (p q : N) : N :=
  match p with N0 => 0 | Npos p' => pmulp p' q end.

Lemma act_xtimes r s : wf s -> act (xtimes r) s = act r (xoshiro_step s).
Proof.
  intros Hs. unfold xtimes.
  destruct (N.testbit (N.double r) 256).
  - rewrite act_lxor, act_double, charpoly_kills, xxor_0_r by assumption. reflexivity.
  - apply act_double.
Qed.

Lemma act_pmul p q s : wf s -> act (pmul p q) s = act p (act q s).
Proof.
  destruct p as [|p]; [reflexivity|]. change (wf s -> act (pmulp p q) s = actp p (act q s)). revert s.
  induction p as [p IH|p IH|]; intros s Hs; cbn [pmulp actp]; try reflexivity.
  - rewrite act_lxor, act_xtimes, IH by (try apply wf_step; assumption).
    rewrite act_step by assumption. reflexivity.
  - rewrite act_xtimes, IH by (try apply wf_step; assumption).
    rewrite act_step by assumption. reflexivity.
Qed.

(** Fast squaring: squaring a polynomial over GF(2) spreads its bits; the
    upper half is reduced with a table of x^(256+2i). *)
Fixpoint spreadp (p : positive) : positive :=
  match p with
  | xH => xH
  | xO p' => xO (xO (spreadp p'))
  | xI p' => xI (xO (spreadp p'))
  end.

Definition spread (p : N) : N :=
  match p with N0 => 0 | Npos p' => Npos (spreadp p') end.

Fixpoint mktable (n : nat) (y : N) : list N :=
  match n with O => [] | S n' => y :: mktable n' (xtimes (xtimes y)) end.

Fixpoint tsum (p : positive) (tbl : list N) : option N :=
  match p, tbl with
  | _, [] => None
  | xH, y :: _ => Some y
  | xO p', _ :: tbl' => tsum p' tbl'
  | xI p', y :: tbl' => option_map (N.lxor y) (tsum p' tbl')
  end.

Definition sqtable : list N :=
  Eval vm_compute in mktable 128 (xtimes (2 ^ 255)).

Definition sq (p : N) : N :=
  let lo := spread (N.land p (N.ones 128)) in
  match N.shiftr p 128 with
  | N0 => lo
  | Npos h =>
      match tsum h sqtable with
      | Some r => N.lxor lo r
      | None => pmul p p
      end
  end.

(** x^e modulo the characteristic polynomial. *)
Fixpoint xpow (e : positive) : N :=
  match e with
  | xH => 2
  | xO e' => sq (xpow e')
  | xI e' => xtimes (sq (xpow e'))
  end.

(** A polynomial evaluated at the double step. *)
Fixpoint act2p (p : positive) (s : xstate) : xstate :=
  match p with
  | xH => s
  | xO p' => act2p p' (xoshiro_step (xoshiro_step s))
  | xI p' => xxor s (act2p p' (xoshiro_step (xoshiro_step s)))
  end.

Definition act2 (p : N) (s : xstate) : xstate :=
  match p with N0 => xzero | Npos p' => act2p p' s end.

Lemma act2_double p s : act2 (N.double p) s = act2 p (xoshiro_step (xoshiro_step s)).
Proof. destruct p; reflexivity. Qed.

Lemma act2_succ_double p s :
  act2 (N.succ_double p) s = xxor s (act2 p (xoshiro_step (xoshiro_step s))).
Proof. destruct p; [symmetry; apply xxor_0_r | reflexivity]. Qed.

Lemma act2_lxor p q s : act2 (N.lxor p q) s = xxor (act2 p s) (act2 q s).
Proof.
  destruct p as [|p]; [symmetry; apply xxor_0_l|].
  destruct q as [|q]; [symmetry; apply xxor_0_r|].
  cbn [N.lxor]. revert q s. induction p as [p IH|p IH|]; intros q s; destruct q as [q|q|];
    cbn [Pos.lxor]; rewrite ?act2_double, ?act2_succ_double, ?IH; cbn [act2 act2p].
  - rewrite xxor_swap, xxor_nilp, xxor_0_l. reflexivity.
  - rewrite xxor_assoc. reflexivity.
  - rewrite (xxor_comm s), <- xxor_assoc, xxor_nilp, xxor_0_r. reflexivity.
  - rewrite !xxor_assoc. f_equal. apply xxor_comm.
  - reflexivity.
  - apply xxor_comm.
  - rewrite xxor_assoc, xxor_nilp, xxor_0_l. reflexivity.
  - reflexivity.
  - symmetry; apply xxor_nilp.
Qed.

(** Frobenius: squaring cancels the cross terms. *)
Lemma act2_square p s : wf s -> act2 p s = act p (act p s).
Proof.
  destruct p as [|p]; [reflexivity|]. change (wf s -> act2p p s = actp p (actp p s)).
  revert s. induction p as [p IH|p IH|]; intros s Hs; cbn [act2p actp]; try reflexivity.
  - rewrite IH by (apply wf_step, wf_step, Hs).
    pose proof (act_step (Npos p)) as C. cbn [act] in C.
    pose proof (act_xxor (Npos p)) as L. cbn [act] in L.
    pose proof (wf_act (Npos p)) as W. cbn [act] in W.
    rewrite (step_xxor s) by auto using wf_step.
    rewrite L by auto using wf_step.
    rewrite <- (C (xoshiro_step s)) by auto using wf_step.
    set (u := actp p (xoshiro_step s)). set (v := actp p (actp p _)).
    rewrite <- xxor_assoc, (xxor_assoc u u v), xxor_nilp, xxor_0_l. reflexivity.
  - rewrite IH by (apply wf_step, wf_step, Hs).
    pose proof (act_step (Npos p)) as C. cbn [act] in C.
    pose proof (wf_act (Npos p)) as W. cbn [act] in W.
    rewrite <- (C (xoshiro_step s)) by auto using wf_step. reflexivity.
Qed.

Lemma act_spread p s : act (spread p) s = act2 p s.
Proof.
  destruct p as [|p]; [reflexivity|]. change (actp (spreadp p) s = act2p p s).
  revert s. induction p as [p IH|p IH|]; intros s; cbn [spreadp actp act2p]; rewrite ?IH; reflexivity.
Qed.

Lemma act_tsum p y n r f s : wf s ->
  (forall s, wf s -> act y s = f s) -> (forall s, wf s -> wf (f s)) ->
  (forall s, wf s -> f (xoshiro_step s) = xoshiro_step (f s)) ->
  tsum p (mktable n y) = Some r ->
  act r s = act2p p (f s).
Proof.
  intros Hs Hy Hw Hc. revert y n r f s Hs Hy Hw Hc.
  induction p as [p IH|p IH|]; intros y n r f s Hs Hy Hw Hc H;
    (destruct n as [|n]; [cbn in H; try destruct p; discriminate|]); cbn [mktable tsum] in H.
  - destruct (tsum p _) as [r'|] eqn:E; [|discriminate]. cbn in H. injection H as <-.
    rewrite act_lxor, Hy by assumption. cbn [act2p]. f_equal.
    rewrite (IH _ _ _ (fun s => xoshiro_step (xoshiro_step (f s))) s Hs) with (4 := E).
    + reflexivity.
    + intros t Ht. rewrite !act_xtimes, Hy, !Hc by auto using wf_step. reflexivity.
    + auto using wf_step.
    + intros t Ht. rewrite Hc by assumption. reflexivity.
  - cbn [act2p].
    rewrite (IH _ _ _ (fun s => xoshiro_step (xoshiro_step (f s))) s Hs) with (4 := H).
    + reflexivity.
    + intros t Ht. rewrite !act_xtimes, Hy, !Hc by auto using wf_step. reflexivity.
    + auto using wf_step.
    + intros t Ht. rewrite Hc by assumption. reflexivity.
  - injection H as <-. cbn [act2p]. apply Hy, Hs.
Qed.

Lemma act_pow2_iter k s : act (2 ^ k) s = N.iter k xoshiro_step s.
Proof.
  revert s. induction k as [|k IH] using N.peano_ind; intros s; [reflexivity|].
  rewrite N.pow_succ_r', <- N.double_spec, act_double, IH, N.iter_succ_r. reflexivity.
Qed.

Lemma act2_shiftl w k s :
  act2 (N.shiftl w k) s = act2 w (N.iter (2 * k) xoshiro_step s).
Proof.
  revert s. induction k as [|k IH] using N.peano_ind; intros s.
  - rewrite N.shiftl_0_r. reflexivity.
  - replace (N.shiftl w (N.succ k)) with (N.double (N.shiftl w k))
      by (rewrite N.double_spec, !N.shiftl_mul_pow2, N.pow_succ_r'; lia).
    rewrite act2_double, IH. replace (2 * N.succ k) with (N.succ (N.succ (2 * k))) by lia.
    rewrite !N.iter_succ_r. reflexivity.
Qed.

Lemma split_128 p : p = N.lxor (N.land p (N.ones 128)) (N.shiftl (N.shiftr p 128) 128).
Proof.
  apply N.bits_inj; intros i. rewrite N.lxor_spec, N.land_spec.
  destruct (N.lt_ge_cases i 128) as [Hi|Hi].
  - rewrite N.ones_spec_low, N.shiftl_spec_low by assumption.
    rewrite andb_true_r, xorb_false_r. reflexivity.
  - rewrite N.ones_spec_high, N.shiftl_spec_high', N.shiftr_spec' by assumption.
    rewrite andb_false_r, xorb_false_l. f_equal. lia.
Qed.

Lemma sqtable_eq : sqtable = mktable 128 (xtimes (2 ^ 255)).
Proof. vm_cast_no_check (eq_refl sqtable). Qed.

Lemma wf_iter_step n s : wf s -> wf (N.iter n xoshiro_step s).
Proof.
  intros H. induction n as [|n IH] using N.peano_ind; [assumption|].
  rewrite N.iter_succ. apply wf_step, IH.
Qed.

Lemma act_sq p s : wf s -> act (sq p) s = act p (act p s).
Proof.
  intros Hs. rewrite <- act2_square by assumption. unfold sq.
  assert (Hsplit : act2 p s =
    xxor (act2 (N.land p (N.ones 128)) s)
         (act2 (N.shiftr p 128) (N.iter 256 xoshiro_step s))).
  { rewrite (split_128 p) at 1. rewrite act2_lxor, act2_shiftl. reflexivity. }
  destruct (N.shiftr p 128) as [|h] eqn:Eh.
  - rewrite act_spread, Hsplit. symmetry. apply xxor_0_r.
  - destruct (tsum h sqtable) as [r|] eqn:Er.
    + rewrite act_lxor, act_spread, Hsplit. f_equal.
      rewrite sqtable_eq in Er.
      rewrite (act_tsum h _ 128 r (N.iter 256 xoshiro_step) s Hs) with (4 := Er).
      * reflexivity.
      * intros t Ht. rewrite act_xtimes, act_pow2_iter by assumption.
        rewrite <- N.iter_succ_r. reflexivity.
      * intros t Ht. apply wf_iter_step, Ht.
      * intros t Ht. rewrite <- N.iter_succ_r, N.iter_succ. reflexivity.
    + rewrite act_pmul by assumption. symmetry. apply act2_square, Hs.
Qed.

Lemma act_xpow e s : wf s -> act (xpow e) s = Pos.iter xoshiro_step s e.
Proof.
  revert s. induction e as [e IH|e IH|]; intros s Hs; cbn [xpow].
  - rewrite act_xtimes, act_sq, !IH by auto using wf_step, wf_act.
    rewrite (Pos.xI_succ_xO e), <- (Pos.add_diag e), Pos.iter_succ_r, Pos.iter_add. reflexivity.
  - rewrite act_sq, !IH by auto using wf_act.
    rewrite <- (Pos.add_diag e), Pos.iter_add. reflexivity.
  - reflexivity.
Qed.
