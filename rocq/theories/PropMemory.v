(** C51: the human-readable memory is the same amount.
    C59: what Memory.read returns. *)
Require Import ZArith Reals List String Lia Lra.
From Flocq Require Import Core Relative.
From Verif Require Import DeviceModel.
Import ListNotations.
Local Open Scope R_scope.

(** ** Specification: the number of bytes in a unit *)
Definition bytes_per (u : string) : option Z :=
  match u with
  | "b" => Some 1 | "Kb" => Some (2 ^ 10) | "Mb" => Some (2 ^ 20) | "Gb" => Some (2 ^ 30)
  | "Tb" => Some (2 ^ 40) | "Pb" => Some (2 ^ 50) | "Eb" => Some (2 ^ 60) | "Zb" => Some (2 ^ 70)
  | "Yb" => Some (2 ^ 80) | _ => None
  end%string%Z.

(** ** Rounding *)
Local Instance prec53 : Prec_gt_0 53. Proof. reflexivity. Qed.
Notation FLX53 := (generic_format radix2 (FLX_exp 53)).

Lemma float64_FLX x : 1 <= x -> float64 x = round radix2 (FLX_exp 53) ZnearestE x.
Proof.
  intros H. apply round_FLT_FLX. rewrite Rabs_pos_eq by lra. apply Rle_trans with (2 := H).
  change 1 with (bpow radix2 0). now apply bpow_le.
Qed.

Lemma shift_format x e : FLX53 x -> FLX53 (x * bpow radix2 e).
Proof.
  intros H. apply generic_format_FLX. destruct (FLX_format_generic radix2 53 _ H) as [[m f] E L].
  apply FLX_spec with (f := Float radix2 m (f + e)); [|exact L].
  rewrite E. unfold F2R. simpl. now rewrite bpow_plus, Rmult_assoc.
Qed.

Lemma int_format m : (Z.abs m <= 2 ^ 53)%Z -> FLX53 (IZR m).
Proof.
  intros H. apply generic_format_FLX. destruct (Z.eq_dec (Z.abs m) (2 ^ 53)) as [E|N].
  - apply FLX_spec with (f := Float radix2 (m / 2) 1).
    + unfold F2R. simpl. rewrite <- mult_IZR. f_equal.
      assert (Hm : m = (2 ^ 53)%Z \/ m = (- 2 ^ 53)%Z) by lia. now destruct Hm as [-> | ->].
    + assert (Hm : m = (2 ^ 53)%Z \/ m = (- 2 ^ 53)%Z) by lia. now destruct Hm as [-> | ->].
  - apply FLX_spec with (f := Float radix2 m 0); [unfold F2R; simpl; ring|].
    simpl. change (Z.pow_pos 2 53) with (2 ^ 53)%Z. lia.
Qed.

Lemma k1024 : 1024 = bpow radix2 10. Proof. simpl. lra. Qed.
Lemma div1024 x : x / 1024 = x * bpow radix2 (-10). Proof. simpl. lra. Qed.

Lemma float64_exact x : 1024 < x -> FLX53 x -> float64 (x / 1024) = x / 1024.
Proof.
  intros H F. rewrite float64_FLX by lra. apply round_generic; [apply valid_rnd_N|].
  rewrite div1024. now apply shift_format.
Qed.

(** ** The loop on a float *)
Lemma hr_float fuel x c : FLX53 x -> x <= 1024 ^ fuel -> (0 < fuel)%nat ->
  exists v k, hr_loop fuel x c = Some (v, (c + k)%nat) /\ v * 1024 ^ k = x /\ v <= 1024 /\
    ((0 < k)%nat -> 1 < v).
Proof.
  revert x c. induction fuel as [|fuel IH]; intros x c F Hx Hf; [lia|]. simpl.
  case Rlt_bool_spec; intros H; [|exists x, 0%nat; rewrite Nat.add_0_r; repeat split; try (simpl; lra); lia].
  rewrite (float64_exact x H F). simpl in Hx.
  destruct fuel as [|fuel]; [simpl in Hx; lra|].
  destruct (IH (x / 1024) (S c)) as (v & k & E & Ev & Hv & Hk).
  - rewrite div1024. now apply shift_format.
  - lra.
  - lia.
  - exists v, (S k). rewrite E. replace (S c + k)%nat with (c + S k)%nat by lia. repeat split; trivial.
    + simpl. replace (v * (1024 * 1024 ^ k)) with (1024 * (v * 1024 ^ k)) by ring. rewrite Ev. lra.
    + intros _. destruct k as [|k]; [simpl in Ev; lra|]. apply Hk. lia.
Qed.

Lemma float64_le x y : x <= y -> float64 x <= float64 y.
Proof. apply round_le; [now apply FLT_exp_valid|apply valid_rnd_N]. Qed.

(** The first quotient *)
Lemma first_quotient m : (1024 < m)%Z -> FLX53 (float64 (IZR m / 1024)) /\ 1 < float64 (IZR m / 1024) /\
  Rabs (float64 (IZR m / 1024) - IZR m / 1024) <= / 2 ^ 53 * (IZR m / 1024) /\
  ((m <= 2 ^ 53)%Z -> float64 (IZR m / 1024) = IZR m / 1024).
Proof.
  intros H. assert (H' : 1025 <= IZR m) by (apply IZR_le; lia).
  rewrite float64_FLX by lra. repeat split.
  - apply generic_format_round; [now apply FLX_exp_valid|apply valid_rnd_N].
  - apply Rlt_le_trans with (1025 / 1024); [lra|].
    apply round_ge_generic; [now apply FLX_exp_valid|apply valid_rnd_N| |lra].
    rewrite div1024. apply shift_format, (int_format 1025). now vm_compute.
  - assert (P53 : Prec_gt_0 53) by reflexivity.
    generalize (relative_error_N_FLX radix2 53 P53 (fun x => negb (Z.even x)) (IZR m / 1024)).
    rewrite (Rabs_pos_eq (IZR m / 1024)) by lra. intros R. apply Rle_trans with (1 := R).
    apply Rmult_le_compat_r; [lra|]. simpl. lra.
  - intros Hm. apply round_generic; [apply valid_rnd_N|]. rewrite div1024. apply shift_format, int_format. lia.
Qed.

Lemma unit_bytes k : (k <= 8)%nat -> exists u z, unit_name k = Some u /\ bytes_per u = Some z /\ IZR z = 1024 ^ k.
Proof.
  intros H. do 9 (destruct k as [|k]; [eexists; eexists; repeat split; simpl; lra|]). lia.
Qed.

Lemma pow1024 k j : 1024 ^ k < 1024 ^ j -> (k < j)%nat.
Proof.
  intros H. destruct (Nat.lt_ge_cases k j) as [L|L]; trivial. exfalso.
  apply (Rle_pow 1024) in L; lra.
Qed.

(** ** C51 *)
Theorem C51_same_amount m fuel : (m <= 2 ^ 90)%Z -> (10 <= fuel)%nat ->
  exists v u z, human_readable fuel m = Some (v, u) /\ bytes_per u = Some z /\
    Rabs (v * IZR z - IZR m) <= / 2 ^ 53 * Rabs (IZR m) /\
    ((m <= 2 ^ 53)%Z -> v * IZR z = IZR m) /\
    v <= 1024 /\ (u <> "b"%string -> 1 < v).
Proof.
  intros Hm Hf. destruct fuel as [|fuel]; [lia|]. unfold human_readable. simpl.
  case Rlt_bool_spec; intros H.
  - assert (H' : (1024 < m)%Z) by now apply lt_IZR.
    destruct (first_quotient m H') as (F & G1 & Err & Ex).
    set (x := float64 (IZR m / 1024)) in *.
    assert (Hx : x <= 1024 ^ 8).
    { assert (L : x <= float64 (1024 ^ 8)).
      { apply float64_le. apply Rmult_le_reg_r with 1024; [lra|].
        unfold Rdiv. rewrite Rmult_assoc, Rinv_l, Rmult_1_r by lra.
        replace (1024 ^ 8 * 1024) with (IZR (2 ^ 90)); [now apply IZR_le|]. vm_compute (2 ^ 90)%Z. simpl. lra. }
      apply Rle_trans with (1 := L). apply Req_le.
      rewrite float64_FLX by (simpl; lra). apply round_generic; [apply valid_rnd_N|].
      replace (1024 ^ 8) with (bpow radix2 80) by (simpl; lra).
      apply generic_format_bpow. vm_compute. discriminate. }
    destruct (hr_float fuel x 1 F) as (v & k & E & Ev & Hv & Hk).
    { apply Rle_trans with (1 := Hx). apply Rle_pow; [lra|lia]. }
    { lia. }
    assert (V1 : 1 < v). { destruct k as [|k]; [simpl in Ev; lra|]. apply Hk. lia. }
    assert (K8 : (k < 8)%nat).
    { apply pow1024. assert (P : 0 < 1024 ^ k) by (apply pow_lt; lra).
      apply Rlt_le_trans with (v * 1024 ^ k); [|lra].
      rewrite <- (Rmult_1_l (1024 ^ k)) at 1. now apply Rmult_lt_compat_r. }
    destruct (unit_bytes (1 + k)) as (u & z & U & B & Z); [lia|].
    rewrite E. exists v, u, z. rewrite U. split; [reflexivity|]. split; [exact B|].
    assert (EZ : v * IZR z = 1024 * x). { rewrite Z. simpl. rewrite <- Ev. ring. }
    rewrite EZ. repeat split; trivial.
    + assert (Pm : 0 < IZR m) by lra. rewrite (Rabs_pos_eq (IZR m)) by lra.
      replace (1024 * x - IZR m) with (1024 * (x - IZR m / 1024)) by field.
      rewrite Rabs_mult, (Rabs_pos_eq 1024) by lra.
      apply Rmult_le_compat_l with (r := 1024) in Err; [|lra].
      apply Rle_trans with (1 := Err). apply Req_le. field.
    + intros L. rewrite (Ex L). field.
  - exists (IZR m), "b"%string, 1%Z. simpl. repeat split; try lra.
    + rewrite Rmult_1_r, Rminus_diag_eq, Rabs_R0 by reflexivity. apply Rmult_le_pos; [lra|apply Rabs_pos].
    + intros []. reflexivity.
Qed.

(** Beyond the last unit the variable [unit] is not assigned *)
Lemma hr_large fuel x c v k : FLX53 x -> hr_loop fuel x c = Some (v, k) ->
  (c <= k)%nat /\ x <= 1024 * 1024 ^ (k - c).
Proof.
  revert x c. induction fuel as [|fuel IH]; intros x c F; [discriminate|]. simpl.
  case Rlt_bool_spec; intros H; intros E.
  - rewrite (float64_exact x H F) in E. destruct (IH (x / 1024) (S c)) as [L B]; trivial.
    + rewrite div1024. now apply shift_format.
    + split; [lia|]. replace (k - c)%nat with (S (k - S c)) by lia. simpl. lra.
  - injection E as <- <-. split; [lia|]. rewrite Nat.sub_diag. simpl. lra.
Qed.

Theorem C51_no_unit m fuel : (2 ^ 91 <= m)%Z -> human_readable fuel m = None.
Proof.
  intros Hm. unfold human_readable. destruct fuel as [|fuel]; [reflexivity|]. simpl.
  assert (M : IZR (2 ^ 91) <= IZR m) by now apply IZR_le.
  assert (M2 : IZR (2 ^ 91) = 2 * 1024 ^ 9). { vm_compute (2 ^ 91)%Z. simpl. lra. }
  rewrite M2 in M. rewrite Rlt_bool_true by (simpl in M; lra).
  destruct (hr_loop fuel (float64 (IZR m / 1024)) 1) as [[v k]|] eqn:E; [|reflexivity].
  destruct (first_quotient m) as (F & _); [lia|].
  destruct (hr_large _ _ _ _ _ F E) as [L B].
  assert (G : 2 * 1024 ^ 8 <= float64 (IZR m / 1024)).
  { apply Rle_trans with (float64 (2 * 1024 ^ 8)).
    - apply Req_le, eq_sym. rewrite float64_FLX by (simpl; lra). apply round_generic; [apply valid_rnd_N|].
      replace (2 * 1024 ^ 8) with (bpow radix2 81) by (simpl; lra).
      apply generic_format_bpow. vm_compute. discriminate.
    - apply float64_le. simpl in M |- *. lra. }
  assert (K : (8 < k)%nat).
  { assert (8 < k - 1 + 1)%nat; [|lia]. apply pow1024. rewrite pow_add. simpl (1024 ^ 1).
    simpl in G |- *. lra. }
  assert (N : unit_name k = None). { do 9 (destruct k as [|k]; [lia|]). reflexivity. }
  now rewrite N.
Qed.

(** The documented names of the units (_memory.py 220-229, 322-331) are not the
    ones returned *)
Theorem C51_documented_units_refuted fuel m v u : human_readable fuel m = Some (v, u) ->
  ~ In u ["KB"; "MB"; "GB"; "TB"; "PB"; "EB"; "ZB"; "YB"]%string.
Proof.
  unfold human_readable. destruct (hr_loop fuel (IZR m) 0) as [[x k]|]; [|discriminate].
  destruct (unit_name k) as [w|] eqn:U; [|discriminate]. injection 1 as _ <-.
  do 9 (destruct k as [|k]; [injection U as <-; simpl; intuition discriminate|]). discriminate.
Qed.

Example C51_example : exists v, human_readable 10 92954624 = Some (v, "Mb"%string) /\ v * 2 ^ 20 = 92954624.
Proof.
  destruct (C51_same_amount 92954624 10) as (v & u & z & E & B & _ & X & Hv & H1); [now vm_compute|lia|].
  exists v. specialize (X ltac:(now vm_compute)).
  pose proof E as E0. unfold human_readable in E. destruct (hr_loop 10 (IZR 92954624) 0) as [[x k]|]; [|discriminate].
  destruct (unit_name k) as [w|] eqn:U; [|discriminate]. injection E as -> ->.
  destruct k as [|k]; [injection U as <-; injection B as <-; simpl in X; lra|].
  destruct k as [|k]; [injection U as <-; injection B as <-; simpl in X; lra|].
  destruct k as [|k]; [injection U as <-; injection B as <-; split; [exact E0|simpl in X; simpl; lra]|].
  assert (V : 1 < v). { apply H1. intros ->. do 6 (destruct k as [|k]; [discriminate U|]). discriminate. }
  exfalso. do 6 (destruct k as [|k]; [injection U as <-; injection B as <-; simpl in X; lra|]). discriminate.
Qed.

(** ** C59 *)
Local Open Scope Z_scope.

(** The largest element (0 for none): the specification of the peak *)
Definition peak (p : Z) (l : list Z) : Prop := 0 <= p /\ (forall x, In x l -> x <= p) /\ (p = 0 \/ In p l).

Lemma ru_maxrss_peak l : peak (ru_maxrss l) l.
Proof.
  induction l as [|x l [H0 [H1 H2]]]; simpl; [split; [lia|split; [intros _ []|now left]]|].
  split; [lia|]. split.
  - intros y [<-|Hy]; [lia|]. specialize (H1 y Hy). lia.
  - destruct (Z.max_spec x (ru_maxrss l)) as [[_ ->]|[_ ->]]; [destruct H2; [left|right; right]; assumption|right; left; reflexivity].
Qed.

(** What is read is how far the peak of the whole run exceeds the peak up to
    start: it is never negative *)
Theorem C59_read_peak before during p q : peak p before -> peak q (during ++ before) ->
  mem_read (mem_start before) (during ++ before) = 1024 * (q - p) /\
  0 <= mem_read (mem_start before) (during ++ before).
Proof.
  intros (P0 & P1 & P2) (Q0 & Q1 & Q2).
  destruct (ru_maxrss_peak before) as (A0 & A1 & A2).
  destruct (ru_maxrss_peak (during ++ before)) as (B0 & B1 & B2).
  assert (EA : ru_maxrss before = p).
  { apply Z.le_antisymm; [destruct A2 as [->|A2]; [lia|auto]|destruct P2 as [->|P2]; [lia|auto]]. }
  assert (EB : ru_maxrss (during ++ before) = q).
  { apply Z.le_antisymm; [destruct B2 as [->|B2]; [lia|auto]|destruct Q2 as [->|Q2]; [lia|auto]]. }
  unfold mem_read, mem_start, resident_memory_in_bytes. rewrite EA, EB. split; [ring|].
  assert (p <= q); [|lia]. destruct P2 as [->|P2]; [lia|]. apply Q1, in_or_app. now right.
Qed.

(** The documented meaning, the resident memory now minus the one at start, holds
    when neither is below an earlier size... *)
Theorem C59_read_partial a before c during : 0 <= a -> 0 <= c ->
  (forall x, In x before -> x <= a) -> (forall x, In x (during ++ a :: before) -> x <= c) ->
  mem_read (mem_start (a :: before)) (c :: during ++ a :: before) = 1024 * (c - a).
Proof.
  intros Ha Hc Hb Hd. change (c :: during ++ a :: before) with ((c :: during) ++ a :: before).
  apply (C59_read_peak (a :: before) (c :: during) a c).
  - split; [lia|split; [|right; now left]]. intros x [<-|Hx]; [lia|auto].
  - split; [lia|split; [|right; now left]]. intros x [<-|Hx]; [lia|auto].
Qed.

(** ... and only then: memory that has been given back is still reported *)
Theorem C59_read_refuted a before c during : 0 <= a -> (forall x, In x before -> x <= a) ->
  (exists x, In x (during ++ a :: before) /\ c < x) ->
  1024 * (c - a) < mem_read (mem_start (a :: before)) (c :: during ++ a :: before).
Proof.
  intros Ha Hb (x & Hx & Hlt).
  change (c :: during ++ a :: before) with ((c :: during) ++ a :: before).
  destruct (ru_maxrss_peak ((c :: during) ++ a :: before)) as (Q0 & Q1 & Q2).
  destruct (C59_read_peak (a :: before) (c :: during) a (ru_maxrss ((c :: during) ++ a :: before))) as [-> _].
  - split; [lia|split; [|right; now left]]. intros y [<-|Hy]; [lia|auto].
  - now split; [|split].
  - specialize (Q1 x (or_intror Hx)). lia.
Qed.

Example C59_example : mem_read (mem_start [300; 200]) [900; 300; 200] = 1024 * 600 /\
  mem_read (mem_start [300; 200]) [300; 900; 300; 200] = 1024 * 600.
Proof. split; reflexivity. Qed.

Definition C51_assumptions := (C51_same_amount, C51_no_unit, C51_documented_units_refuted).
Print Assumptions C51_assumptions.
Print Assumptions C59_read_peak.
Print Assumptions C59_read_partial.
Print Assumptions C59_read_refuted.
