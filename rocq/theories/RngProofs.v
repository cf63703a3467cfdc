(** Proofs about the random generators: jumps, period, seeding, array filling. *)
From Coq Require Import NArith ZArith Znumtheory List Lia Bool Arith.
From Verif Require Import RngModel RngGf2 Pocklington.
Import ListNotations.
Local Open Scope N_scope.

(** ** Iteration lemmas *)

Lemma nat_iter_succ_r {A} n (f : A -> A) x :
  Nat.iter (S n) f x = Nat.iter n f (f x).
Proof. induction n as [|n IH]; [reflexivity|]. cbn in *. rewrite IH. reflexivity. Qed.

Lemma iter_add {A} (f : A -> A) (a b : N) (x : A) :
  N.iter (a + b) f x = N.iter a f (N.iter b f x).
Proof. apply N.iter_add. Qed.

Lemma iter_mul_fix {A} (f : A -> A) (k m : N) (x : A) :
  N.iter k f x = x -> N.iter (m * k) f x = x.
Proof.
  intros H. induction m as [|m IH] using N.peano_ind; [reflexivity|].
  rewrite N.mul_succ_l, iter_add, H. assumption.
Qed.

Lemma iter_mul {A} (f : A -> A) (k m : N) (x : A) :
  N.iter (m * k) f x = N.iter m (N.iter k f) x.
Proof.
  induction m as [|m IH] using N.peano_ind; [reflexivity|].
  rewrite N.mul_succ_l, N.add_comm, iter_add, IH, N.iter_succ. reflexivity.
Qed.

Lemma wf_iter n s : wf s -> wf (N.iter n xoshiro_step s).
Proof.
  intros H. induction n as [|n IH] using N.peano_ind; [assumption|].
  rewrite N.iter_succ. apply wf_step, IH.
Qed.

Lemma wf_nat_iter n s : wf s -> wf (Nat.iter n xoshiro_step s).
Proof. intros H. induction n as [|n IH]; [assumption|]. apply wf_step, IH. Qed.

Lemma act_pow2 e s : wf s -> act (xpow e) s = N.iter (Npos e) xoshiro_step s.
Proof. apply act_xpow. Qed.

(** ** Jump functions *)

Lemma jump_bit_loop w len b acc st :
  fold_left (jump_bit w) (nrange b len) (acc, st) =
  (xxor acc (act ((N.shiftr w b) mod 2 ^ N.of_nat len) st),
   Nat.iter len xoshiro_step st).
Proof.
  revert b acc st. induction len as [|len IH]; intros b acc st.
  - cbn [nrange fold_left]. change (2 ^ N.of_nat 0) with 1. rewrite N.mod_1_r.
    cbn [act]. rewrite xxor_0_r. reflexivity.
  - cbn [nrange fold_left]. unfold jump_bit at 2. rewrite IH. clear IH.
    assert (E : (N.shiftr w b) mod 2 ^ N.of_nat (S len) =
                if N.testbit w b then N.succ_double (N.shiftr w (b + 1) mod 2 ^ N.of_nat len)
                else N.double (N.shiftr w (b + 1) mod 2 ^ N.of_nat len)).
    { apply N.bits_inj. intros i. rewrite mod_pow2_bit, N.shiftr_spec'.
      destruct (N.eq_dec i 0) as [->|Hi].
      - replace (0 <? N.of_nat (S len)) with true by (symmetry; apply N.ltb_lt; lia).
        rewrite N.add_0_l. destruct (N.testbit w b).
        + rewrite N.succ_double_spec, N.testbit_odd_0. reflexivity.
        + rewrite N.double_spec, N.testbit_even_0. reflexivity.
      - replace i with (N.succ (N.pred i)) by lia. set (j := N.pred i).
        assert (E2 : N.testbit (N.shiftr w (b + 1) mod 2 ^ N.of_nat len) j =
                     (j <? N.of_nat len) && N.testbit w (j + (b + 1)))
          by (rewrite mod_pow2_bit, N.shiftr_spec'; reflexivity).
        replace (N.succ j <? N.of_nat (S len)) with (j <? N.of_nat len)
          by (destruct (N.ltb_spec j (N.of_nat len)), (N.ltb_spec (N.succ j) (N.of_nat (S len))); lia).
        replace (N.succ j + b) with (j + (b + 1)) by lia.
        destruct (N.testbit w b).
        + rewrite N.succ_double_spec, N.testbit_odd_succ by lia. symmetry; apply E2.
        + rewrite N.double_spec, N.testbit_even_succ by lia. symmetry; apply E2. }
    rewrite E, nat_iter_succ_r. destruct (N.testbit w b).
    + rewrite act_succ_double, xxor_assoc. reflexivity.
    + rewrite act_double. reflexivity.
Qed.

Lemma jump_word_spec acc st w : word w ->
  jump_word (acc, st) w = (xxor acc (act w st), Nat.iter 64 xoshiro_step st).
Proof.
  intros Hw. unfold jump_word. rewrite jump_bit_loop. rewrite N.shiftr_0_r.
  rewrite N.mod_small by exact Hw. reflexivity.
Qed.

Lemma act_shiftl w k s :
  act (N.shiftl w k) s = act w (N.iter k xoshiro_step s).
Proof.
  revert s. induction k as [|k IH] using N.peano_ind; intros s.
  - rewrite N.shiftl_0_r. reflexivity.
  - replace (N.shiftl w (N.succ k)) with (N.double (N.shiftl w k))
      by (rewrite N.double_spec, !N.shiftl_mul_pow2, N.pow_succ_r'; lia).
    rewrite act_double, IH, N.iter_succ_r. reflexivity.
Qed.

(** A table of four words, as one polynomial. *)
Definition pack4 (l : list N) : N :=
  fold_right (fun w acc => N.lxor w (N.shiftl acc 64)) 0 l.

Lemma pack4_cons w l : pack4 (w :: l) = N.lxor w (N.shiftl (pack4 l) 64).
Proof. reflexivity. Qed.

Lemma fold_left_cons {A B} (f : A -> B -> A) b l a :
  fold_left f (b :: l) a = fold_left f l (f a b).
Proof. reflexivity. Qed.

Lemma nat_iter_64 s : Nat.iter 64 xoshiro_step s = N.iter 64 xoshiro_step s.
Proof. rewrite N2Nat.inj_iter. reflexivity. Qed.

Lemma jump_table_spec l s : Forall word l ->
  jump_table l s = act (pack4 l) s.
Proof.
  intros Hl. unfold jump_table.
  enough (G : forall acc st, fst (fold_left jump_word l (acc, st)) = xxor acc (act (pack4 l) st)).
  { rewrite G. apply xxor_0_l. }
  induction Hl as [|w l Hw Hl IH]; intros acc st.
  - symmetry; apply xxor_0_r.
  - rewrite fold_left_cons, pack4_cons, jump_word_spec, IH by assumption.
    rewrite act_lxor, act_shiftl, xxor_assoc, nat_iter_64. reflexivity.
Qed.

Lemma word_ltb w : (w <? word_mod) = true -> word w.
Proof. apply N.ltb_lt. Qed.

Lemma jump_poly : N.eqb (xpow (2 ^ 128)) (pack4 JUMP) = true.
Proof. vm_cast_no_check (eq_refl true). Qed.

Lemma long_jump_poly : N.eqb (xpow (2 ^ 192)) (pack4 LONG_JUMP) = true.
Proof. vm_cast_no_check (eq_refl true). Qed.

Lemma jump_spec s : wf s -> xoshiro_jump s = N.iter (2 ^ 128) xoshiro_step s.
Proof.
  intros Hs. unfold xoshiro_jump. rewrite jump_table_spec.
  - rewrite <- (proj1 (N.eqb_eq _ _) jump_poly).
    rewrite act_pow2 by assumption. reflexivity.
  - repeat constructor.
Qed.

Lemma long_jump_spec s : wf s ->
  xoshiro_long_jump s = N.iter (2 ^ 192) xoshiro_step s.
Proof.
  intros Hs. unfold xoshiro_long_jump. rewrite jump_table_spec.
  - rewrite <- (proj1 (N.eqb_eq _ _) long_jump_poly).
    rewrite act_pow2 by assumption. reflexivity.
  - repeat constructor.
Qed.

Lemma jump_iter_spec n s : wf s ->
  Nat.iter n xoshiro_jump s = N.iter (N.of_nat n * 2 ^ 128) xoshiro_step s.
Proof.
  intros Hs. induction n as [|n IH]; [reflexivity|].
  cbn [Nat.iter nat_rect]. unfold Nat.iter in IH. rewrite IH.
  rewrite jump_spec by (apply wf_iter; assumption).
  rewrite <- iter_add. f_equal. lia.
Qed.

(** ** Period *)

Definition period : N := 2 ^ 256 - 1.
Definition period_pos : positive :=
  Eval vm_compute in Z.to_pos (2 ^ 256 - 1).

Lemma period_eq : period = Npos period_pos.
Proof. reflexivity. Qed.

Lemma xpow_period : N.eqb (xpow period_pos) 1 = true.
Proof. vm_cast_no_check (eq_refl true). Qed.

Lemma iter_period s : wf s -> N.iter period xoshiro_step s = s.
Proof.
  intros Hs. rewrite period_eq, <- act_pow2 by assumption.
  rewrite (proj1 (N.eqb_eq _ _) xpow_period). reflexivity.
Qed.

Definition period_primes : list Z :=
  [3; 5; 17; 257; 641; 65537; 274177; 6700417; 67280421310721;
   59649589127497217; 5704689200685129054721]%Z.

Lemma period_primes_prime : Forall prime period_primes.
Proof.
  repeat (constructor; [first [exact p3 | exact p5 | exact p17 | exact p257 | exact p641
    | exact p65537 | exact p274177 | exact p6700417 | exact p67280421310721
    | exact p59649589127497217 | exact p5704689200685129054721]|]).
  constructor.
Qed.

Lemma period_factored :
  Z.eqb (fold_right Z.mul 1 period_primes)%Z (Z.of_N period) = true.
Proof. vm_compute. reflexivity. Qed.

(** Inverses of x^(period/q) + 1 modulo the characteristic polynomial, one
    for each prime factor [q] of the period. *)
Definition cofactor_inverses : list (Z * N) :=
  [(3%Z, 0x54d6a48aae687fb68b7f13ce6607e276afab085596734aa97762f281b25ed783);
   (5%Z, 0x9b17f5767b72e1a3c673d4c3e369b20235e972559753b37fdedc95dc103781f);
   (17%Z, 0xf4646ef27133b2d46393a4c40448d75b8f3adcab0a20793ef8bb26f5b81e7ecf);
   (257%Z, 0x618e9a9a97b4105e9870464ee696824b10a336ec58f59159b1165cabfe23cd76);
   (641%Z, 0x56ced9120f236c15fdd49ed161d46abc0269afa58693de573c5dcc0645c4b0ff);
   (65537%Z, 0x5b7382b05dc5a20686e618650a39fab806017ce589bb2d98cf9b5a05139e793f);
   (274177%Z, 0x24d5461cfd63732f63b6b60adc840b312db07c0c8c7b46872d3955d70f9e6ac5);
   (6700417%Z, 0x1c10854fe79f6066b6b1fe5c68be2282e701b5777ef01c8fd5b0ea5458d18c36);
   (67280421310721%Z, 0xc3bc6f4888606c0bfb4a6ce96aa43d28506b49c1c962aba2928641dd24af8cf8);
   (59649589127497217%Z, 0x2b0b5d0e0d5dcbfd343a0c7c13920e58856efc82f8b6f3e99a6368bb225afce6);
   (5704689200685129054721%Z, 0xca8fcba3c0dd08871d4e3f7290e3e7fb8436109b90a55fd4bc6fe9d31b611e5)].

Definition cofactor_ok (c : Z * N) : bool :=
  let '(q, u) := c in
  N.eqb (pmul u (N.lxor (xpow (Z.to_pos (Z.of_N period / q))) 1)) 1.

Lemma cofactors_ok : forallb cofactor_ok cofactor_inverses = true.
Proof. vm_cast_no_check (eq_refl true). Qed.

Lemma cofactor_inverse q : In q period_primes ->
  exists u, pmul u (N.lxor (xpow (Z.to_pos (Z.of_N period / q))) 1) = 1.
Proof.
  intros Hin.
  assert (E : period_primes = map fst cofactor_inverses) by reflexivity.
  rewrite E in Hin. apply in_map_iff in Hin. destruct Hin as [[q' u] [<- Hin]].
  exists u. cbn [fst]. apply N.eqb_eq.
  exact (proj1 (forallb_forall _ _) cofactors_ok (q', u) Hin).
Qed.

Lemma prime_in_list (l : list Z) (q : Z) :
  Forall prime l -> prime q -> (q | fold_right Z.mul 1 l)%Z -> In q l.
Proof.
  intros Hl Hq. induction Hl as [|p l Hp Hl IH]; cbn [fold_right]; intros Hd.
  - exfalso. pose proof (prime_ge_2 _ Hq). apply Z.divide_1_r_nonneg in Hd; lia.
  - destruct (prime_mult q Hq _ _ Hd) as [H|H].
    + left. symmetry. apply (prime_div_prime q p); assumption.
    + right. apply IH, H.
Qed.

Lemma iter_gcd s a b : 0 < a ->
  N.iter a xoshiro_step s = s -> N.iter b xoshiro_step s = s ->
  N.iter (N.gcd a b) xoshiro_step s = s.
Proof.
  intros Ha Fa Fb.
  destruct (N.gcd_bezout_pos a b Ha) as [u [v Huv]].
  rewrite <- (iter_mul_fix _ b v s Fb) at 1.
  rewrite <- iter_add, <- Huv. apply iter_mul_fix, Fa.
Qed.

Lemma period_minimal s k : wf s -> s <> xzero -> 0 < k < period ->
  N.iter k xoshiro_step s <> s.
Proof.
  intros Hs Hnz [Hk0 Hk] Hfix.
  set (d := N.gcd k period).
  assert (Fd : N.iter d xoshiro_step s = s).
  { apply iter_gcd; [assumption|assumption|apply iter_period; assumption]. }
  destruct (N.gcd_divide_l k period) as [k' Hk'].
  destruct (N.gcd_divide_r k period) as [e He]. fold d in Hk', He.
  assert (Hd0 : 0 < d) by (destruct (N.eq_dec d 0) as [E|E]; [rewrite E in Hk'; lia|lia]).
  assert (Hdk : d <= k) by (destruct (N.eq_dec k' 0); nia).
  assert (He1 : 1 < e) by nia.
  destruct (prime_divisor (Z.of_N e)) as [q [Hq Hqe]]; [lia|].
  pose proof (prime_ge_2 _ Hq) as Hq2.
  assert (HqM : (q | Z.of_N period)%Z).
  { rewrite He, N2Z.inj_mul. apply Z.divide_mul_l, Hqe. }
  assert (Hin : In q period_primes).
  { apply prime_in_list; [apply period_primes_prime|assumption|].
    rewrite (proj1 (Z.eqb_eq _ _) period_factored). assumption. }
  destruct (cofactor_inverse q Hin) as [u Hok].
  destruct Hqe as [e' He'].
  assert (Hquot : (Z.of_N period / q = e' * Z.of_N d)%Z).
  { rewrite He, N2Z.inj_mul, He'.
    replace (e' * q * Z.of_N d)%Z with ((e' * Z.of_N d) * q)%Z by ring.
    apply Z.div_mul. lia. }
  assert (He'0 : (0 < e')%Z) by nia.
  set (m := Z.to_pos (Z.of_N period / q)) in *.
  assert (Hm : Npos m = Z.to_N e' * d).
  { unfold m. rewrite Hquot. apply N2Z.inj.
    rewrite N2Z.inj_mul, Z2N.id by lia. cbn [Z.of_N].
    rewrite Z2Pos.id by nia. reflexivity. }
  assert (Fm : act (xpow m) s = s).
  { rewrite act_pow2 by assumption. rewrite Hm. apply iter_mul_fix, Fd. }
  assert (Z0 : act (N.lxor (xpow m) 1) s = xzero).
  { rewrite act_lxor, Fm. cbn [act actp]. apply xxor_nilp. }
  apply Hnz.
  assert (act 1 s = act u (act (N.lxor (xpow m) 1) s)) as E.
  { rewrite <- act_pmul, Hok by assumption. reflexivity. }
  rewrite Z0 in E. change (act 1 s) with s in E. rewrite E.
  assert (G : forall p, act p xzero = xzero).
  { intros [|p]; [reflexivity|]. cbn [act]. induction p as [p IH|p IH|]; cbn [actp];
      rewrite ?step_zero, ?IH; reflexivity. }
  apply G.
Qed.

Lemma iter_cancel i j s : wf s ->
  N.iter i xoshiro_step s = N.iter j xoshiro_step s -> i <= j ->
  N.iter (j - i) xoshiro_step s = s.
Proof.
  intros Hs E Hij.
  (* complete i to a multiple of the period *)
  set (c := i * period - i).
  assert (Hc : c + i = i * period) by (unfold c, period; nia).
  assert (E1 : N.iter (c + i) xoshiro_step s = N.iter (c + j) xoshiro_step s).
  { rewrite !iter_add, E. reflexivity. }
  rewrite Hc in E1. rewrite iter_mul_fix in E1 by (apply iter_period, Hs).
  replace (c + j) with ((j - i) + i * period) in E1 by lia.
  rewrite iter_add, iter_mul_fix in E1 by (apply iter_period, Hs).
  symmetry. assumption.
Qed.

Lemma states_distinct s i j : wf s -> s <> xzero -> i < period -> j < period -> i <> j ->
  N.iter i xoshiro_step s <> N.iter j xoshiro_step s.
Proof.
  intros Hs Hnz Hi Hj Hne E.
  destruct (N.lt_ge_cases i j) as [H|H].
  - apply (period_minimal s (j - i) Hs Hnz); [lia|].
    apply iter_cancel; [assumption|assumption|lia].
  - apply (period_minimal s (i - j) Hs Hnz); [lia|].
    apply iter_cancel; [assumption|symmetry; assumption|lia].
Qed.

Lemma iter_nonzero s k : wf s -> s <> xzero -> N.iter k xoshiro_step s <> xzero.
Proof.
  intros Hs Hnz E. apply Hnz.
  set (c := k * period - k).
  assert (Hc : c + k = k * period) by (unfold c, period; nia).
  rewrite <- (iter_mul_fix _ period k s (iter_period s Hs)).
  rewrite <- Hc, iter_add, E.
  clear. induction c as [|c IH] using N.peano_ind; [reflexivity|].
  rewrite N.iter_succ, IH. reflexivity.
Qed.

(** ** SplitMix64 is a bijection on words, so seeding never gives zero *)

Lemma xorshift_inj k a b : 0 < k ->
  N.lxor a (shr64 a k) = N.lxor b (shr64 b k) -> a = b.
Proof.
  intros Hk E. apply N.lxor_eq.
  assert (Ed : N.lxor a b = shr64 (N.lxor a b) k).
  { unfold shr64 in *. rewrite N.shiftr_lxor.
    apply N.lxor_eq.
    replace (N.lxor (N.lxor a b) (N.lxor (N.shiftr a k) (N.shiftr b k)))
      with (N.lxor (N.lxor a (N.shiftr a k)) (N.lxor b (N.shiftr b k))).
    - rewrite E. apply N.lxor_nilpotent.
    - rewrite !N.lxor_assoc. f_equal. rewrite <- !N.lxor_assoc. f_equal. apply N.lxor_comm. }
  set (d := N.lxor a b) in *.
  destruct (N.eq_dec d 0) as [|Hd]; [assumption|exfalso].
  unfold shr64 in Ed. rewrite N.shiftr_div_pow2 in Ed.
  assert (d / 2 ^ k < d); [|lia].
  apply N.div_lt; [lia|]. apply N.lt_le_trans with (2 ^ 1); [reflexivity|].
  apply N.pow_le_mono_r; lia.
Qed.

Lemma mul64_inj m m' a b : mul64 m m' = 1 -> word a -> word b ->
  mul64 a m = mul64 b m -> a = b.
Proof.
  intros Hm Ha Hb E.
  assert (G : forall x, word x -> mul64 (mul64 x m) m' = x).
  { intros x Hx. unfold mul64 in *. rewrite N.mul_mod_idemp_l by discriminate.
    rewrite <- N.mul_assoc, <- N.mul_mod_idemp_r, Hm by discriminate.
    rewrite N.mul_1_r. apply N.mod_small, Hx. }
  rewrite <- (G a Ha), <- (G b Hb), E. reflexivity.
Qed.

Lemma word_mul64 a b : word (mul64 a b).
Proof. apply N.mod_lt. discriminate. Qed.

Lemma word_add64 a b : word (add64 a b).
Proof. apply N.mod_lt. discriminate. Qed.

Lemma word_mix z : word (splitmix_mix z).
Proof. unfold splitmix_mix. apply word_lxor; [|apply word_shr]; apply word_mul64. Qed.

Lemma mix_inj a b : word a -> word b -> splitmix_mix a = splitmix_mix b -> a = b.
Proof.
  intros Ha Hb E. unfold splitmix_mix in E.
  apply (xorshift_inj 31) in E; [|reflexivity].
  apply (mul64_inj _ 0x319642b2d24d8ec3) in E;
    [| vm_compute; reflexivity | apply word_lxor; [|apply word_shr]; apply word_mul64
     | apply word_lxor; [|apply word_shr]; apply word_mul64 ].
  apply (xorshift_inj 27) in E; [|reflexivity].
  apply (mul64_inj _ 0x96de1b173f119089) in E;
    [| vm_compute; reflexivity | apply word_lxor; [|apply word_shr]; assumption
     | apply word_lxor; [|apply word_shr]; assumption ].
  apply (xorshift_inj 30) in E; [assumption|reflexivity].
Qed.

Lemma mix_zero z : word z -> splitmix_mix z = 0 -> z = 0.
Proof. intros Hz E. apply mix_inj; [assumption|reflexivity|exact E]. Qed.

Lemma xoshiro_init_eq clock seed :
  let s := splitmix_init clock seed in
  let g := 0x9e3779b97f4a7c15 in
  xoshiro_init clock seed =
  X (splitmix_mix (add64 s g)) (splitmix_mix (add64 (add64 s g) g))
    (splitmix_mix (add64 (add64 (add64 s g) g) g))
    (splitmix_mix (add64 (add64 (add64 (add64 s g) g) g) g)).
Proof. reflexivity. Qed.

Lemma wf_init clock seed : wf (xoshiro_init clock seed).
Proof. rewrite xoshiro_init_eq. repeat split; cbn [x0 x1 x2 x3]; apply word_mix. Qed.

Lemma init_nonzero clock seed : xoshiro_init clock seed <> xzero.
Proof.
  rewrite xoshiro_init_eq. cbn zeta. intros E. injection E as E0 E1 _ _.
  apply mix_zero in E0; [|apply word_add64].
  apply mix_zero in E1; [|apply word_add64].
  rewrite E0 in E1. vm_compute in E1. discriminate.
Qed.

Lemma add64_inj g a b : word a -> word b -> add64 a g = add64 b g -> a = b.
Proof.
  unfold word, add64, word_mod. intros Ha Hb E.
  pose proof (N.div_mod (a + g) (2 ^ 64) ltac:(discriminate)) as Da.
  pose proof (N.div_mod (b + g) (2 ^ 64) ltac:(discriminate)) as Db.
  rewrite E in Da.
  set (qa := (a + g) / 2 ^ 64) in *. set (qb := (b + g) / 2 ^ 64) in *.
  set (r := (b + g) mod 2 ^ 64) in *. clearbody qa qb r.
  change (2 ^ 64) with 18446744073709551616 in *. nia.
Qed.

Lemma init_inj s s' clock clock' : word s -> word s' ->
  splitmix_init clock (Z.of_N s) <> splitmix_init clock' (Z.of_N s') ->
  xoshiro_init clock (Z.of_N s) <> xoshiro_init clock' (Z.of_N s').
Proof.
  intros Hs Hs' Hne E. apply Hne. clear Hne.
  rewrite !xoshiro_init_eq in E. cbn zeta in E. injection E as E0 _ _ _.
  apply mix_inj in E0; [|apply word_add64|apply word_add64].
  apply add64_inj in E0; [assumption| |].
  - unfold splitmix_init. destruct (Z.leb_spec 0 (Z.of_N s)); [|lia].
    rewrite N2Z.id. rewrite word_bits in *. intros i Hi. rewrite N.lor_spec, Hs by assumption.
    rewrite (proj1 (word_bits _) (word_shl s 32)) by assumption. reflexivity.
  - unfold splitmix_init. destruct (Z.leb_spec 0 (Z.of_N s')); [|lia].
    rewrite N2Z.id. rewrite word_bits in *. intros i Hi. rewrite N.lor_spec, Hs' by assumption.
    rewrite (proj1 (word_bits _) (word_shl s' 32)) by assumption. reflexivity.
Qed.

Lemma splitmix_init_low s clock : word s ->
  N.land (splitmix_init clock (Z.of_N s)) (N.ones 32) = N.land s (N.ones 32).
Proof.
  intros Hs. unfold splitmix_init. destruct (Z.leb_spec 0 (Z.of_N s)); [|lia].
  rewrite N2Z.id. apply N.bits_inj; intros i. rewrite !N.land_spec, N.lor_spec, shl64_bit.
  destruct (N.ltb_spec i 32) as [Hi|Hi].
  - replace (32 <=? i) with false by (symmetry; apply N.leb_gt; lia).
    cbn [andb]. rewrite andb_false_r. reflexivity.
  - rewrite N.ones_spec_high by lia. rewrite !andb_false_r. reflexivity.
Qed.

Lemma seeds_distinct s s' clock clock' : s < 2 ^ 32 -> s' < 2 ^ 32 -> s <> s' ->
  xoshiro_init clock (Z.of_N s) <> xoshiro_init clock' (Z.of_N s').
Proof.
  intros Hs Hs' Hne.
  assert (word s) by (unfold word, word_mod; apply N.lt_trans with (2 ^ 32); [assumption|reflexivity]).
  assert (word s') by (unfold word, word_mod; apply N.lt_trans with (2 ^ 32); [assumption|reflexivity]).
  apply init_inj; [assumption|assumption|]. intros E. apply Hne.
  pose proof (splitmix_init_low s clock ltac:(assumption)) as E1.
  pose proof (splitmix_init_low s' clock' ltac:(assumption)) as E2.
  rewrite E in E1. rewrite E1 in E2. rewrite !N.land_ones in E2.
  rewrite !N.mod_small in E2 by assumption. assumption.
Qed.

(** ** Table of generators *)

Lemma rng_initialize_nth n clock seed t : (t < n)%nat ->
  nth_error (rng_initialize n clock seed) t =
  Some (N.iter ((N.of_nat t + 1) * 2 ^ 128) xoshiro_step (xoshiro_init (clock t) seed)).
Proof.
  intros Ht. unfold rng_initialize.
  rewrite nth_error_map, nth_error_nth' with (d := 0%nat) by (rewrite seq_length; assumption).
  rewrite seq_nth by assumption. cbn [option_map Nat.add]. f_equal.
  rewrite jump_iter_spec by apply wf_init. f_equal. lia.
Qed.

Lemma upd_length {A} (l : list A) i v l' : upd l i v = Some l' -> length l' = length l.
Proof.
  revert i l'. induction l as [|a l IH]; intros i l' H; destruct i as [|i]; cbn in H; try discriminate.
  - injection H as <-. reflexivity.
  - destruct (upd l i v) as [l''|] eqn:E; cbn in H; [|discriminate]. injection H as <-.
    cbn. f_equal. apply (IH _ _ E).
Qed.

Lemma upd_some {A} (l : list A) i v : (i < length l)%nat -> exists l', upd l i v = Some l'.
Proof.
  revert i. induction l as [|a l IH]; intros i Hi; cbn in Hi; [lia|].
  destruct i as [|i]; [eexists; reflexivity|].
  destruct (IH i ltac:(lia)) as [l' E]. cbn. rewrite E. eexists; reflexivity.
Qed.

Lemma upd_lt {A} (l : list A) i v l' : upd l i v = Some l' -> (i < length l)%nat.
Proof.
  revert i l'. induction l as [|a l IH]; intros i l' H; destruct i as [|i]; cbn in *; try discriminate; [lia|].
  destruct (upd l i v) eqn:E; [|discriminate]. apply IH in E. lia.
Qed.

Lemma upd_nth {A} (l : list A) i v l' k : upd l i v = Some l' ->
  nth_error l' k = if Nat.eqb k i then Some v else nth_error l k.
Proof.
  revert i l' k. induction l as [|a l IH]; intros i l' k H; destruct i as [|i]; cbn in H; try discriminate.
  - injection H as <-. destruct k; reflexivity.
  - destruct (upd l i v) as [l''|] eqn:E; cbn in H; [|discriminate]. injection H as <-.
    destruct k as [|k]; [reflexivity|]. cbn. apply (IH _ _ _ E).
Qed.

(** The word produced by the [k]-th draw from generator [g]. *)
Definition nth_output (g : xstate) (k : nat) : N :=
  fst (xoshiro_next (Nat.iter k xoshiro_step g)).

Lemma rng_next_spec table t g : nth_error table t = Some g ->
  exists table', rng_next table t = Some (fst (xoshiro_next g), table') /\
    nth_error table' t = Some (xoshiro_step g) /\
    (forall u, u <> t -> nth_error table' u = nth_error table u) /\
    length table' = length table.
Proof.
  intros H. unfold rng_next. rewrite H.
  assert (Hl : (t < length table)%nat) by (apply nth_error_Some; rewrite H; discriminate).
  destruct (xoshiro_next g) as [bits g'] eqn:E.
  destruct (upd_some table t g' Hl) as [table' Ht]. rewrite Ht. cbn [option_map fst].
  exists table'. split; [reflexivity|]. split; [|split].
  - rewrite (upd_nth _ _ _ _ t Ht), Nat.eqb_refl. unfold xoshiro_step. rewrite E. reflexivity.
  - intros u Hu. rewrite (upd_nth _ _ _ _ u Ht).
    destruct (Nat.eqb_spec u t); [contradiction|reflexivity].
  - apply (upd_length _ _ _ _ Ht).
Qed.

(** ** Filling an array *)

Lemma fill_bits_spec bits base j n arr : (base + j + n <= length arr)%nat ->
  exists arr', fill_bits bits base j n arr = Some arr' /\ length arr' = length arr /\
    forall k, nth_error arr' k =
      if (Nat.leb (base + j) k && Nat.ltb k (base + j + n))%bool
      then Some (sign_of_bit bits (k - base)) else nth_error arr k.
Proof.
  revert j arr. induction n as [|n IH]; intros j arr Hlen.
  - exists arr. split; [reflexivity|]. split; [reflexivity|]. intros k.
    destruct (Nat.leb_spec (base + j) k), (Nat.ltb_spec k (base + j + 0)); try reflexivity. lia.
  - cbn [fill_bits].
    destruct (upd_some arr (base + j) (sign_of_bit bits j)) as [arr1 E1]; [lia|].
    rewrite E1. pose proof (upd_length _ _ _ _ E1) as L1.
    destruct (IH (S j) arr1) as [arr' [E [L H]]]; [lia|].
    exists arr'. split; [assumption|]. split; [lia|]. intros k. rewrite H.
    rewrite (upd_nth _ _ _ _ k E1).
    destruct (Nat.leb_spec (base + S j) k), (Nat.ltb_spec k (base + S j + n)),
      (Nat.eqb_spec k (base + j)), (Nat.leb_spec (base + j) k), (Nat.ltb_spec k (base + j + S n));
      cbn [andb]; try reflexivity; try lia.
    subst k. f_equal. f_equal. lia.
Qed.

Lemma fill_chunks_spec t i n table arr g :
  nth_error table t = Some g -> ((i + n) * 64 <= length arr)%nat ->
  exists table' arr', fill_chunks t i n table arr = Some (table', arr') /\
    length arr' = length arr /\ length table' = length table /\
    nth_error table' t = Some (Nat.iter n xoshiro_step g) /\
    (forall u, u <> t -> nth_error table' u = nth_error table u) /\
    forall k, nth_error arr' k =
      if (Nat.leb (i * 64) k && Nat.ltb k ((i + n) * 64))%bool
      then Some (sign_of_bit (nth_output g (k / 64 - i)) (k mod 64)) else nth_error arr k.
Proof.
  revert i table arr g. induction n as [|n IH]; intros i table arr g Hg Hlen.
  - exists table, arr. repeat split; try assumption. intros k.
    destruct (Nat.leb_spec (i * 64) k), (Nat.ltb_spec k ((i + 0) * 64)); try reflexivity. lia.
  - cbn [fill_chunks].
    destruct (rng_next_spec table t g Hg) as (table1 & En & Hg1 & Hoth & Hl1). rewrite En.
    destruct (fill_bits_spec (fst (xoshiro_next g)) (i * 64) 0 64 arr) as (arr1 & E1 & L1 & H1); [lia|].
    rewrite E1.
    destruct (IH (S i) table1 arr1 _ Hg1) as (table' & arr' & E & L & Lt & Hg' & Hoth' & H); [lia|].
    exists table', arr'. split; [assumption|]. split; [lia|]. split; [lia|]. split.
    { rewrite Hg', nat_iter_succ_r. reflexivity. }
    split.
    { intros u Hu. rewrite Hoth', Hoth by assumption. reflexivity. }
    intros k. rewrite H, H1.
    destruct (Nat.leb_spec (S i * 64) k) as [Ha|Ha], (Nat.ltb_spec k ((S i + n) * 64)) as [Hb|Hb],
      (Nat.leb_spec (i * 64 + 0) k) as [Hc|Hc], (Nat.ltb_spec k (i * 64 + 0 + 64)) as [Hd|Hd],
      (Nat.leb_spec (i * 64) k) as [He|He], (Nat.ltb_spec k ((i + S n) * 64)) as [Hf|Hf];
      cbn [andb]; try reflexivity; try lia.
    + (* later chunk *)
      assert (Hq : (S i <= k / 64)%nat) by (apply Nat.div_le_lower_bound; lia).
      replace (k / 64 - i)%nat with (S (k / 64 - S i)) by lia.
      unfold nth_output. rewrite nat_iter_succ_r. reflexivity.
    + (* this chunk *)
      assert (Hq : (k / 64 = i)%nat).
      { symmetry. apply (Nat.div_unique k 64 i (k - i * 64)); lia. }
      assert (Hr : (k mod 64 = k - i * 64)%nat).
      { symmetry. apply (Nat.mod_unique k 64 i (k - i * 64)); lia. }
      rewrite Hq, Hr, Nat.sub_diag. reflexivity.
Qed.

Lemma generate_random_array_spec table t g arr size :
  nth_error table t = Some g -> (size <= length arr)%nat ->
  exists table' arr', generate_random_array table t arr size = Some (table', arr') /\
    length arr' = length arr /\
    (forall k, (k < size)%nat -> nth_error arr' k =
       Some (if N.testbit (nth_output g (k / 64)) (N.of_nat (k mod 64)) then 1%Z else (-1)%Z)) /\
    (forall k, (size <= k)%nat -> nth_error arr' k = nth_error arr k) /\
    nth_error table' t = Some (Nat.iter (size / 64 + 1) xoshiro_step g) /\
    (forall u, u <> t -> nth_error table' u = nth_error table u) /\
    length table' = length table.
Proof.
  intros Hg Hlen. unfold generate_random_array.
  set (nc := (size / 64)%nat).
  assert (Hnc : (nc * 64 <= size)%nat) by (unfold nc; rewrite Nat.mul_comm; apply Nat.mul_div_le; lia).
  assert (Hnc2 : (size < (nc + 1) * 64)%nat).
  { unfold nc. pose proof (Nat.mul_succ_div_gt size 64 ltac:(lia)). lia. }
  destruct (fill_chunks_spec t 0 nc table arr g Hg) as (table1 & arr1 & E1 & L1 & Lt1 & Hg1 & Ho1 & H1); [lia|].
  rewrite E1.
  destruct (rng_next_spec table1 t _ Hg1) as (table2 & En & Hg2 & Ho2 & Hl2). rewrite En.
  destruct (fill_bits_spec (fst (xoshiro_next (Nat.iter nc xoshiro_step g))) (nc * 64) 0 (size - nc * 64) arr1)
    as (arr2 & E2 & L2 & H2); [lia|].
  rewrite E2. cbn [option_map]. exists table2, arr2. split; [reflexivity|].
  split; [lia|]. split; [|split; [|split; [|split]]].
  - intros k Hk. rewrite H2, H1.
    destruct (Nat.leb_spec (nc * 64 + 0) k) as [Ha|Ha], (Nat.ltb_spec k (nc * 64 + 0 + (size - nc * 64))) as [Hb|Hb],
      (Nat.leb_spec (0 * 64) k) as [Hc|Hc], (Nat.ltb_spec k ((0 + nc) * 64)) as [Hd|Hd];
      cbn [andb]; try lia.
    + assert (Hq : (k / 64 = nc)%nat).
      { symmetry. apply (Nat.div_unique k 64 nc (k - nc * 64)); lia. }
      assert (Hr : (k mod 64 = k - nc * 64)%nat).
      { symmetry. apply (Nat.mod_unique k 64 nc (k - nc * 64)); lia. }
      rewrite Hq, Hr. reflexivity.
    + rewrite Nat.sub_0_r. reflexivity.
  - intros k Hk. rewrite H2, H1.
    destruct (Nat.leb_spec (nc * 64 + 0) k) as [Ha|Ha], (Nat.ltb_spec k (nc * 64 + 0 + (size - nc * 64))) as [Hb|Hb],
      (Nat.leb_spec (0 * 64) k) as [Hc|Hc], (Nat.ltb_spec k ((0 + nc) * 64)) as [Hd|Hd];
      cbn [andb]; try lia; reflexivity.
  - rewrite Hg2, Nat.add_1_r. reflexivity.
  - intros u Hu. rewrite Ho2, Ho1 by assumption. reflexivity.
  - lia.
Qed.

(** ** Draw histories *)

Lemma rng_initialize_clock n clock clock' seed :
  (0 <= seed)%Z -> rng_initialize n clock seed = rng_initialize n clock' seed.
Proof.
  intros Hs. unfold rng_initialize. apply map_ext. intros t.
  unfold xoshiro_init, splitmix_init.
  destruct (Z.leb_spec 0 seed); [reflexivity|lia].
Qed.

Definition draws_of (t : nat) (outs : list (nat * N)) : list N :=
  map snd (filter (fun o => Nat.eqb (fst o) t) outs).

Lemma run_draws_spec table schedule :
  (forall t, In t schedule -> (t < length table)%nat) ->
  exists outs, run_draws table schedule = Some outs /\ map fst outs = schedule /\
    forall t g, nth_error table t = Some g ->
      draws_of t outs = map (nth_output g) (seq 0 (count_occ Nat.eq_dec schedule t)).
Proof.
  revert table. induction schedule as [|u sch IH]; intros table Hin.
  - exists []. repeat split.
  - destruct (nth_error table u) as [gu|] eqn:Eu.
    2:{ apply nth_error_None in Eu. specialize (Hin u (or_introl eq_refl)). lia. }
    destruct (rng_next_spec table u gu Eu) as (table' & En & Hg & Ho & Hl).
    destruct (IH table') as (outs & E & Hf & H).
    { intros t Ht. rewrite Hl. apply Hin. right; assumption. }
    exists ((u, fst (xoshiro_next gu)) :: outs). cbn [run_draws]. rewrite En, E.
    split; [reflexivity|]. split; [cbn; rewrite Hf; reflexivity|].
    intros t g Eg. unfold draws_of. cbn [filter fst].
    destruct (Nat.eqb_spec u t) as [->|Hne].
    + rewrite Eu in Eg. injection Eg as ->.
      rewrite count_occ_cons_eq by reflexivity. cbn [map seq snd].
      f_equal. fold (draws_of t outs). rewrite (H t _ Hg).
      rewrite <- seq_shift, map_map. apply map_ext. intros k.
      unfold nth_output. rewrite nat_iter_succ_r. reflexivity.
    + rewrite count_occ_cons_neq by assumption. fold (draws_of t outs).
      apply H. rewrite Ho by (intros ->; contradiction). assumption.
Qed.

Lemma apply_ops_iter ops s : wf s ->
  exists k, fold_left apply_op ops s = N.iter k xoshiro_step s.
Proof.
  revert s. induction ops as [|o ops IH]; intros s Hs; [exists 0; reflexivity|].
  assert (exists k, apply_op s o = N.iter k xoshiro_step s) as [k Ek].
  { destruct o; [exists 1; reflexivity | exists (2 ^ 128) | exists (2 ^ 192)].
    - apply jump_spec, Hs.
    - apply long_jump_spec, Hs. }
  rewrite fold_left_cons, Ek.
  destruct (IH (N.iter k xoshiro_step s)) as [k' E]; [apply wf_iter, Hs|].
  exists (k' + k). rewrite E, iter_add. reflexivity.
Qed.

Lemma never_zero ops clock seed :
  fold_left apply_op ops (xoshiro_init clock seed) <> xzero.
Proof.
  destruct (apply_ops_iter ops _ (wf_init clock seed)) as [k ->].
  apply iter_nonzero; [apply wf_init|apply init_nonzero].
Qed.

Lemma streams_disjoint clock seed t t' i i' :
  t < 2 ^ 127 -> t' < 2 ^ 127 -> i < 2 ^ 128 -> i' < 2 ^ 128 ->
  (t, i) <> (t', i') ->
  N.iter ((t + 1) * 2 ^ 128 + i) xoshiro_step (xoshiro_init clock seed) <>
  N.iter ((t' + 1) * 2 ^ 128 + i') xoshiro_step (xoshiro_init clock seed).
Proof.
  intros Ht Ht' Hi Hi' Hne.
  change (2 ^ 127) with 170141183460469231731687303715884105728 in *.
  change (2 ^ 128) with 340282366920938463463374607431768211456 in *.
  apply states_distinct; [apply wf_init|apply init_nonzero| | |].
  - change period with 115792089237316195423570985008687907853269984665640564039457584007913129639935. nia.
  - change period with 115792089237316195423570985008687907853269984665640564039457584007913129639935. nia.
  - intros E. apply Hne. assert (t = t') by nia. subst. f_equal. lia.
Qed.

Lemma nth_error_Some_lt {A} (l : list A) k x : nth_error l k = Some x -> (k < length l)%nat.
Proof. intros H. apply nth_error_Some. congruence. Qed.

Lemma table_streams_disjoint :
  forall (n : nat) (clock : nat -> N) (seed : Z) (t t' : nat) (g g' : xstate) (i i' : N),
    (0 <= seed)%Z -> N.of_nat n <= 2 ^ 127 ->
    nth_error (rng_initialize n clock seed) t = Some g ->
    nth_error (rng_initialize n clock seed) t' = Some g' ->
    i < 2 ^ 128 -> i' < 2 ^ 128 -> (t, i) <> (t', i') ->
    N.iter i xoshiro_step g <> N.iter i' xoshiro_step g'.
Proof.
  intros n clock seed t t' g g' i i' Hs Hn Hg Hg' Hi Hi' Hne.
  rewrite (rng_initialize_clock n clock (fun _ => 0) seed Hs) in Hg, Hg'.
  assert (Ht : (t < n)%nat).
  { apply nth_error_Some_lt in Hg. unfold rng_initialize in Hg.
    rewrite map_length, seq_length in Hg. assumption. }
  assert (Ht' : (t' < n)%nat).
  { apply nth_error_Some_lt in Hg'. unfold rng_initialize in Hg'.
    rewrite map_length, seq_length in Hg'. assumption. }
  rewrite rng_initialize_nth in Hg, Hg' by assumption.
  injection Hg as <-. injection Hg' as <-.
  rewrite <- !N.iter_add.
  assert (H : forall i t, i + (N.of_nat t + 1) * 2 ^ 128 = (N.of_nat t + 1) * 2 ^ 128 + i)
    by (intros; lia).
  rewrite !H. apply streams_disjoint; try lia.
  intros E. apply Hne. injection E as E1 E2. f_equal; [lia|assumption].
Qed.
