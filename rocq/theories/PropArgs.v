(** Properties of the argument handling: C31, C32. *)
From mathcomp Require Import all_ssreflect all_algebra.
From mathcomp Require Import zify.
From mathcomp.real_closed Require Import realalg.
From Verif Require Import Mem ConvModel ArgsModel ArgsSpec.

Set Implicit Arguments.
Unset Strict Implicit.
Unset Printing Implicit Defensive.
Import Order.TTheory GRing.Theory Num.Theory.
Local Open Scope ring_scope.

(** ** C31 *)
Section Inquiries.
Variable T : Type.

(** Python's int / int is the correctly rounded quotient; all we use is that
    integers up to 2^53 are doubles. *)
Variable fl : rat -> rat.
Definition keeps_integers := forall k : nat, (k%:R <= 2 ^+ 53 :> rat) -> fl k%:R = k%:R.

Lemma py_int_divE s k : keeps_integers -> s%:R <= 2 ^+ 53 :> rat -> (0 < k)%N -> (k %| s)%N ->
  py_int_div fl s k = (s %/ k)%N.
Proof.
move=> flP sb k0 /dvdnP [q Es].
have k0' : k%:R != 0 :> rat by rewrite pnatr_eq0 -lt0n.
rewrite /py_int_div Es mulnK // natrM mulfK // flP; last first.
  by apply: le_trans sb; rewrite ler_nat Es leq_pmulr.
have -> : q%:R = (q%:Z)%:Q by [].
by rewrite numq_int denq_int divz1 absz_nat.
Qed.

(** The number of inquiries for an operator with k parameters. *)
Theorem C31_num_inquiries k (p : parameters T) xs :
  keeps_integers -> valid_view p -> given p = Some xs -> (size xs)%:R <= 2 ^+ 53 :> rat ->
  (k = 0%N -> exists mem, inquiries fl k p = Ok (1%N, mem)) /\
  ((0 < k)%N -> (size xs < k)%N \/ ~~ (k %| size xs)%N ->
     inquiries fl k p = Raise ValueError) /\
  ((0 < k)%N -> (k <= size xs)%N -> (k %| size xs)%N ->
     exists2 mem, inquiries fl k p = Ok ((size xs %/ k)%N, mem) & (0 < size xs %/ k)%N).
Proof.
move=> flP vp Eg sb.
have [p' Ep] : exists p', get_operator_parameters p = Ok (p', size xs).
  case: p vp Eg => //= [_ [<-]|x _ [<-]|ys _ [<-]|buf off st n vp]; try by eexists.
  case=> <-; eexists; congr (Ok (_, _)).
  rewrite size_pmap -[LHS](size_iota 0); symmetry; apply/eqP; rewrite -all_count.
  apply/allP => i; rewrite mem_iota add0n => /andP [_ Hi].
  have [j E Hj] := vp _ Hi; rewrite /= E.
  by case: (buf) Hj => // x0 b Hj; rewrite (nth_map x0).
rewrite /inquiries Ep /find_num_inquiries; split; [|split].
- by move=> -> /=; eexists.
- move=> k0 H; rewrite (gtn_eqF k0).
  case: ltnP => // Hk; case: H => [|]; first by rewrite ltnNge Hk.
  by rewrite /dvdn => ->.
- move=> k0 Hk kd; rewrite (gtn_eqF k0) ltnNge Hk /= -/(dvdn _ _) kd.
  rewrite py_int_divE //; eexists; [reflexivity|by rewrite divn_gt0].
Qed.

Lemma given_contiguous (buf : seq T) off n :
  valid_view (Array1 buf off 1%R n) ->
  given (Array1 buf off 1%R n) = Some (take n (drop off buf)) /\ (n <= size (drop off buf))%N.
Proof.
move=> vp.
have H i : (i < n)%N -> (off + i < size buf)%N.
  by move=> /vp [k]; rewrite mul1r -PoszD => -[<-].
split; last by rewrite size_drop; case: n vp H => // n _ /(_ n (leqnn _)); lia.
rewrite /given; congr Some; set f := (fun i => _).
have [[x0]|e] : inhabited T \/ size buf = 0%N by case: (buf) => [|x ?]; [right|left].
  have -> : take n (drop off buf) = [seq nth x0 buf (off + i) | i <- iota 0 n].
    apply: (@eq_from_nth _ x0).
      rewrite size_map size_iota size_take size_drop.
      case: n vp H => [|n] _ H; first by case: ltnP; lia.
      by have := H n (leqnn _); case: (ltnP n.+1); lia.
    move=> i; rewrite size_take => Hi.
    have {}Hi : (i < n)%N by move: Hi; case: (ltnP n) => // H1 H2; apply: leq_trans H2 H1.
    by rewrite nth_take // nth_drop (nth_map 0%N) ?size_iota // nth_iota.
  have fE i : (i < n)%N -> f i = Some (nth x0 buf (off + i)).
    by move=> Hi; rewrite /f mul1n (nth_map x0) ?H.
  have: {subset iota 0 n <= iota 0 n} by [].
  elim: {-2}(iota 0 n) => //= j s IH Hs.
  have Hj : (j < n)%N by have := Hs j (mem_head _ _); rewrite mem_iota.
  rewrite fE //=; congr cons; apply: IH => l ls.
  by apply: Hs; rewrite in_cons ls orbT.
case: n vp H => [|n] vp H; first by rewrite take0.
by have := H 0%N isT; rewrite e.
Qed.

(** Each inquiry reads its own k parameters, all of them inside the caller's
    array, when that array is contiguous (or a list or scalar). *)
Theorem C31_reads_partial k (p : parameters T) xs q mem j i :
  keeps_integers -> valid_view p -> contiguous p -> given p = Some xs ->
  (size xs)%:R <= 2 ^+ 53 :> rat ->
  inquiries fl k p = Ok (q, mem) -> (j < q)%N -> (i < k)%N ->
  (j * k + i < size xs)%N /\
  forall x0, read_parameter mem k j i = Some (nth x0 xs (j * k + i)).
Proof.
move=> flP vp cp Eg sb E jq ik.
have k0 : (0 < k)%N by apply: leq_ltn_trans ik.
have [_ [H1 H2]] := C31_num_inquiries k flP vp Eg sb.
have kx : (k <= size xs)%N.
  by case: (leqP k (size xs)) => // Hl; have := H1 k0 (or_introl Hl); rewrite E.
have kd : (k %| size xs)%N.
  by case Ed: (k %| size xs)%N => //; have := H1 k0 (or_intror (negbT Ed)); rewrite E.
have Eq : q = (size xs %/ k)%N by have [m] := H2 k0 kx kd; rewrite E => -[->].
have Hs : (j * k + i < size xs)%N.
  have : (q * k = size xs)%N by rewrite Eq divnK.
  have : (j.+1 * k <= q * k)%N by rewrite leq_mul2r jq orbT.
  by rewrite mulSn; lia.
split=> // x0.
suff Em : exists t, mem = xs ++ t.
  case: Em => t Et; rewrite /read_parameter Et (rdE x0) ?nth_cat ?Hs //.
  by rewrite size_cat ltn_addr.
move: E; rewrite /inquiries.
case: p vp cp Eg {H1 H2} => //= [_ _ [Ex]|x _ _ [Ex]|ys _ _ [Ex]|buf off st n vp st1].
- by move: kx; rewrite -Ex leqNgt k0.
- by case: (find_num_inquiries _ _ _) => // ? [_ <-]; exists [::]; rewrite Ex cats0.
- by case: (find_num_inquiries _ _ _) => // ? [_ <-]; exists [::]; rewrite Ex drop0 cats0.
- rewrite st1 in vp *; have [E2 _] := given_contiguous vp => E3.
  have -> : xs = take n (drop off buf) by apply: Some_inj; rewrite -E2; exact: esym E3.
  case: (find_num_inquiries _ _ _) => // ? [_ <-]; exists (drop n (drop off buf)).
  by rewrite cat_take_drop.
Qed.
End Inquiries.

Lemma small_size n : (n <= 8)%N -> n%:R <= 2 ^+ 53 :> rat.
Proof.
move=> n8; apply: (@le_trans _ _ (2 ^+ 3)); first by rewrite -natrX ler_nat.
by rewrite ler_eexpn2l.
Qed.

(** The full statement fails for numpy views with a stride: the pointer to the
    first element is passed on without the stride, so inquiry 1 reads an element
    the caller did not give. *)
Theorem C31_strided_refuted :
  exists (p : parameters nat) xs q mem,
    [/\ valid_view p, given p = Some xs,
        forall fl, keeps_integers fl -> inquiries fl 1 p = Ok (q, mem),
        q = 2%N & read_parameter mem 1 1 0 <> Some (nth 0%N xs 1)].
Proof.
exists (Array1 [:: 5; 6; 7; 8]%N 0 2 2), [:: 5; 7]%N, 2%N, [:: 5; 6; 7; 8]%N; split=> //.
  by move=> [|[|i]] //= _; [exists 0%N|exists 2%N].
move=> fl flP; rewrite /inquiries /= /find_num_inquiries.
by rewrite (@py_int_divE fl 2 1 flP (@small_size 2 isT)).
Qed.

(** Going backwards through an array even reads outside its buffer. *)
Theorem C31_backwards_refuted :
  exists (p : parameters nat) xs q mem,
    [/\ valid_view p, given p = Some xs,
        forall fl, keeps_integers fl -> inquiries fl 1 p = Ok (q, mem),
        q = 2%N & read_parameter mem 1 1 0 = None].
Proof.
exists (Array1 [:: 5; 6]%N 1 (-1) 2), [:: 6; 5]%N, 2%N, [:: 6]%N; split=> //.
  by move=> [|[|i]] //= _; [exists 1%N|exists 0%N].
move=> fl flP; rewrite /inquiries /= /find_num_inquiries.
by rewrite (@py_int_divE fl 2 1 flP (@small_size 2 isT)).
Qed.

Example C31_case : let p := FlatList [:: 10; 11; 20; 21; 30; 31]%N in
  [/\ keeps_integers id, valid_view p, contiguous p,
      inquiries id 2 p = Ok (3%N, [:: 10; 11; 20; 21; 30; 31]%N)
    & read_parameter [:: 10; 11; 20; 21; 30; 31]%N 2 1 1 = Some 21%N].
Proof.
by split.
Qed.

(** ** C32 *)
Section Check.
Variable R : rcfType.
Implicit Types (v : pyval R) (x : num R).

Lemma orelseN (a b : check) : orelse a b = None <-> a = None /\ b = None.
Proof. by case: a => /=; split=> // -[]. Qed.

Lemma raise_ifN g e : raise_if g e = None <-> g = false.
Proof. by case: g. Qed.

Lemma check_boolN v : check_bool v = None <-> boolean_arg v.
Proof. by case: v; (split; [move=> //|case=> //]); move=> *; eexists. Qed.

Lemma check_exponentN v : check_exponent v = None <-> v <> PNone R /\ v <> NonScalar R.
Proof. by case: v; split=> // -[]. Qed.

Lemma int_checkN v e (c : check) :
  orelse (raise_if (is_none v) e) (orelse (raise_if (~~ isscalar v) TypeError)
    (orelse (raise_if (~~ (is_int v || is_npint v)) TypeError) c)) = None <->
  (exists z, integer_arg v z) /\ c = None.
Proof.
case: v => [|b|z|z|b|x|x|x y||] //=; try by split=> // -[[? H]]; inversion H.
- by split=> [->|[]] //; split=> //; exists (Posz b); constructor.
- by split=> [->|[]] //; split=> //; exists z; constructor.
- by split=> [->|[]] //; split=> //; exists z; constructor.
Qed.

Lemma integer_number v z : integer_arg v z -> number v = Some (Fin z%:~R).
Proof. by case. Qed.

Lemma integer_uniq v z z' : integer_arg v z -> integer_arg v z' -> z = z'.
Proof. by case=> {v z} [b|z|z] H; inversion H. Qed.

Lemma raise_ltN (a b : int) e :
  raise_lt (Some (Fin (a%:~R : R))) (Some (Fin b%:~R)) e = None <-> b <= a.
Proof. by rewrite /= ltr_int raise_ifN leNgt; split=> [->|/negbTE]. Qed.

Lemma check_num_samplesN v :
  check_num_samples v = None <-> exists2 z, integer_arg v z & 1 <= z.
Proof.
rewrite int_checkN; split=> [[[z H]]|[z H z1]].
  by rewrite (integer_number H) => /(raise_ltN z 1) z1; exists z.
by split; [exists z|rewrite (integer_number H); apply/(raise_ltN z 1)].
Qed.

Lemma check_degreeN v : check_degree v = None <-> exists2 z, integer_arg v z & 1 <= z.
Proof.
rewrite int_checkN; split=> [[[z H]]|[z H z1]].
  by rewrite (integer_number H) => /(raise_ltN z 1) z1; exists z.
by split; [exists z|rewrite (integer_number H); apply/(raise_ltN z 1)].
Qed.

Lemma check_countN v : check_count v = None <-> exists2 z, integer_arg v z & 0 <= z.
Proof.
rewrite int_checkN; split=> [[[z H]]|[z H z1]].
  by rewrite (integer_number H) => /(raise_ltN z 0) z1; exists z.
by split; [exists z|rewrite (integer_number H); apply/(raise_ltN z 0)].
Qed.

Lemma check_orthogonalizeN v w d : integer_arg w d ->
  check_orthogonalize v w = None <-> exists2 z, integer_arg v z & z <= d.
Proof.
move=> Hw; rewrite int_checkN (integer_number Hw); split=> [[[z H]]|[z H z1]].
  by rewrite (integer_number H) => /raise_ltN z1; exists z.
by split; [exists z|rewrite (integer_number H); apply/raise_ltN].
Qed.

Lemma check_seedN v : check_seed v = None <-> v = PNone R \/ exists z, integer_arg v z.
Proof.
case: v => [|b|z|z|b|x|x|x y||] //=; first by split=> // _; left.
all: split=> // H; try by right; eexists; constructor.
all: by case: H => // -[? H]; inversion H.
Qed.

Lemma real_number np v x : real_arg np v x -> number v = Some x.
Proof. by case. Qed.

Lemma real_checkN np e v (c : check) :
  orelse (raise_if (is_none v) e) (orelse (raise_if (~~ isscalar v) TypeError)
    (orelse (raise_if (~~ (is_int v || np && is_npint v || is_float v)) TypeError) c)) = None <->
  (exists x, real_arg np v x) /\ c = None.
Proof.
case: v => [|b|z|z|b|x|x|x y||]; case: np => //=; try by split=> // -[[? H]]; inversion H.
all: by split=> [->|[]] //; split=> //; eexists; constructor.
Qed.

Lemma raise_neg (x : num R) e : x <> @NaN R ->
  raise_lt (Some x) (const 0) e = None <-> nonnegative x.
Proof.
case: x => [r| | |] //= _; rewrite raise_ifN; try by split.
by rewrite leNgt; split=> [->|/negbTE].
Qed.

Lemma not_nan np v x : v <> PFloat (@NaN R) -> real_arg np v x -> x <> @NaN R.
Proof. by move=> H0 H; case: H H0 => // y H0 E; apply: H0; rewrite E. Qed.

Lemma check_toleranceN v : v <> PFloat (@NaN R) ->
  check_tolerance v = None <->
  v = PNone R \/ exists2 x, real_arg false v x & nonnegative x.
Proof.
move=> nv; rewrite /check_tolerance; case En: (is_none v).
  by case: v En {nv} => // _; split=> // _; left.
have := real_checkN false TypeError v (raise_lt (number v) (const 0) ValueError).
rewrite En /= orbF => ->; split.
  case=> -[x H]; rewrite (real_number H) => /(raise_neg _ (not_nan nv H)) Hx.
  by right; exists x.
case=> [E|[x H Hx]]; first by rewrite E in En.
by split; [exists x|rewrite (real_number H); apply/(raise_neg _ (not_nan nv H))].
Qed.

Lemma check_lanczos_tolN v : v <> PFloat (@NaN R) ->
  check_lanczos_tol v = None <->
  v = PNone R \/ exists2 x, real_arg true v x & nonnegative x.
Proof.
move=> nv; rewrite /check_lanczos_tol; case En: (is_none v).
  by case: v En {nv} => // _; split=> // _; left.
have := real_checkN true TypeError v (raise_lt (number v) (const 0) ValueError).
rewrite En /= => ->; split.
  case=> -[x H]; rewrite (real_number H) => /(raise_neg _ (not_nan nv H)) Hx.
  by right; exists x.
case=> [E|[x H Hx]]; first by rewrite E in En.
by split; [exists x|rewrite (real_number H); apply/(raise_neg _ (not_nan nv H))].
Qed.

Lemma unit_interval (x : num R) e : x <> @NaN R ->
  orelse (raise_lt (Some x) (const 0) e) (raise_lt (const 1) (Some x) e) = None <->
  exists2 c : R, x = Fin c & 0 <= c <= 1.
Proof.
case: x => [r| | |] // _; rewrite orelseN; try by split=> [[]|[]].
rewrite /= !raise_ifN !ltNge; split=> [[/negbFE H0 /negbFE H1]|[c [<-] /andP [-> ->]]] //.
by exists r => //; rewrite H0.
Qed.

Lemma check_confidenceN v : v <> PFloat (@NaN R) ->
  check_confidence v = None <-> exists2 c, real_arg false v (Fin c) & 0 <= c <= 1.
Proof.
move=> nv.
have := real_checkN false TypeError v
  (orelse (raise_lt (number v) (const 0) ValueError) (raise_lt (const 1) (number v) ValueError)).
rewrite /= orbF => ->; split.
  case=> -[x H]; rewrite (real_number H) => /(unit_interval _ (not_nan nv H)) [c Ec Hc].
  by exists c => //; rewrite -Ec.
case=> c H Hc; split; first by exists (Fin c).
by rewrite (real_number H); apply/(unit_interval _ (not_nan nv H)); exists c.
Qed.

Lemma check_outlierN v : v <> PFloat (@NaN R) ->
  check_outlier v = None <-> exists2 c, real_arg true v (Fin c) & 0 <= c <= 1.
Proof.
move=> nv.
have := real_checkN true TypeError v
  (orelse (raise_lt (number v) (const 0) ValueError) (raise_lt (const 1) (number v) ValueError)).
rewrite /= => ->; split.
  case=> -[x H]; rewrite (real_number H) => /(unit_interval _ (not_nan nv H)) [c Ec Hc].
  by exists c => //; rewrite -Ec.
case=> c H Hc; split; first by exists (Fin c).
by rewrite (real_number H); apply/(unit_interval _ (not_nan nv H)); exists c.
Qed.

(** Apart from not-a-number, exactly the well-formed arguments are accepted
    (everything else raises), and a missing tolerance becomes 0. *)
Theorem C32_accepted_iff_partial (a : arguments R) :
  no_nan a ->
  ((exists r, check_arguments a = Ok r) <-> well_formed a) /\
  (forall r, check_arguments a = Ok r ->
     [/\ error_atol a = PNone R -> r.1 = PFloat (Fin 0),
         error_atol a <> PNone R -> r.1 = error_atol a,
         error_rtol a = PNone R -> r.2 = PFloat (Fin 0)
       & error_rtol a <> PNone R -> r.2 = error_rtol a]).
Proof.
case=> nan1 nan2 nan3 nan4 nan5; split; last first.
  rewrite /check_arguments => r; case: (orelse _ _) => // -[<-] /=; rewrite /tolerance.
  by split; [move=> ->|case: (error_atol a)|move=> ->|case: (error_rtol a)].
have -> : (exists r, check_arguments a = Ok r) <->
  orelse (check_bool (gram a)) (orelse (check_exponent (exponent a))
  (orelse (check_num_samples (min_num_samples a))
  (orelse (check_num_samples (max_num_samples a))
  (orelse (raise_lt (number (max_num_samples a)) (number (min_num_samples a)) ValueError)
  (orelse (check_tolerance (error_atol a)) (orelse (check_tolerance (error_rtol a))
  (orelse (check_confidence (confidence_level a))
  (orelse (check_outlier (outlier_significance_level a))
  (orelse (check_levels (outlier_significance_level a) (confidence_level a))
  (orelse (check_degree (lanczos_degree a)) (orelse (check_lanczos_tol (lanczos_tol a))
  (orelse (check_orthogonalize (orthogonalize a) (lanczos_degree a))
  (orelse (check_seed (seed a)) (orelse (check_count (num_threads a))
  (orelse (check_count (num_gpu_devices a)) (orelse (check_bool (verbose a))
  (orelse (check_bool (plot a)) (check_bool (gpu a))))))))))))))))))) = None.
  rewrite /check_arguments; case: (orelse _ _) => [e|]; first by split=> // -[].
  by split=> // _; eexists.
split.
  move=> /orelseN [/check_boolN b1] /orelseN [/check_exponentN e1].
  move=> /orelseN [/check_num_samplesN [lo Hlo lo1]] /orelseN [/check_num_samplesN [hi Hhi hi1]].
  move=> /orelseN [Hle] /orelseN [/(check_toleranceN nan1) t1] /orelseN [/(check_toleranceN nan2) t2].
  move=> /orelseN [/(check_confidenceN nan4) [c Hc c01]] /orelseN [/(check_outlierN nan5) [o Ho o01]].
  move=> /orelseN [Hl] /orelseN [/check_degreeN [d Hd d1]] /orelseN [/(check_lanczos_tolN nan3) t3].
  move=> /orelseN [Hk] /orelseN [/check_seedN s1] /orelseN [/check_countN n1].
  move=> /orelseN [/check_countN n2] /orelseN [/check_boolN b2] /orelseN [/check_boolN b3].
  move=> /check_boolN b4.
  move: Hk => /(check_orthogonalizeN _ Hd) [k Hk kd].
  move: Hle; rewrite (integer_number Hlo) (integer_number Hhi) => /raise_ltN Hle.
  move: Hl; rewrite /check_levels (real_number Hc) (real_number Ho) /= raise_ifN ltNge => /negbFE Hl.
  split=> //; first by exists lo, hi.
    by split=> //; exists c, o; split=> //; case/andP: o01 => -> _.
  by split=> //; exists d, k.
case=> -[b1 b2 b3 b4] e1 [lo [hi [Hlo Hhi lo1 Hle]]] [t1 t2 t3 [c [o [Hc Ho c01 /andP [o0 oc]]]]].
case=> -[d [k [Hd Hk d1 kd]]] s1 n1 n2.
apply/orelseN; split; first exact/check_boolN.
apply/orelseN; split; first exact/check_exponentN.
apply/orelseN; split; first by apply/check_num_samplesN; exists lo.
apply/orelseN; split; first by apply/check_num_samplesN; exists hi => //; apply: le_trans lo1 Hle.
apply/orelseN; split; first by rewrite (integer_number Hlo) (integer_number Hhi); apply/raise_ltN.
apply/orelseN; split; first exact/check_toleranceN.
apply/orelseN; split; first exact/check_toleranceN.
apply/orelseN; split; first by apply/check_confidenceN => //; exists c.
apply/orelseN; split.
  apply/check_outlierN => //; exists o => //; rewrite o0 (le_trans oc) // ler_subl_addl ler_addr.
  by case/andP: c01.
apply/orelseN; split.
  by rewrite /check_levels (real_number Hc) (real_number Ho) /= raise_ifN ltNge oc.
apply/orelseN; split; first by apply/check_degreeN; exists d.
apply/orelseN; split; first exact/check_lanczos_tolN.
apply/orelseN; split; first by apply/(check_orthogonalizeN _ Hd); exists k.
apply/orelseN; split; first exact/check_seedN.
apply/orelseN; split; first exact/check_countN.
apply/orelseN; split; first exact/check_countN.
apply/orelseN; split; first exact/check_boolN.
by apply/orelseN; split; apply/check_boolN.
Qed.
End Check.

(** The defaults of the package, with some exponent and confidence level. *)
Definition default_arguments (R : rcfType) (expo : pyval R) (confidence : num R) : arguments R :=
  Arguments_ (PBool R false) expo (PInt R 10) (PInt R 50) (PNone R)
    (PFloat (Fin 1)) (PFloat confidence) (PFloat (Fin 0)) (PInt R 20) (PNone R) (PInt R 0)
    (PNone R) (PInt R 0) (PInt R 0) (PBool R false) (PBool R false) (PBool R false).

Lemma default_accepted (R : rcfType) (expo : pyval R) c :
  check_exponent expo = None -> check_confidence (PFloat c) = None ->
  check_levels (PFloat (Fin 0)) (PFloat c) = None ->
  check_arguments (default_arguments expo c) = Ok (PFloat (Fin 0), PFloat (Fin 1)).
Proof.
move=> He Hc Hl; rewrite /check_arguments.
set chk := orelse _ _; suff -> : chk = None by [].
rewrite {}/chk.
apply/orelseN; split; first by [].
apply/orelseN; split; first exact: He.
apply/orelseN; split; first by apply/check_num_samplesN; exists 10; first constructor.
apply/orelseN; split; first by apply/check_num_samplesN; exists 50; first constructor.
apply/orelseN; split; first by apply/(raise_ltN _ 50 10).
apply/orelseN; split; first by [].
apply/orelseN; split.
  by apply/check_toleranceN => //; right; exists (Fin 1); [constructor|rewrite /= ler01].
apply/orelseN; split; first exact: Hc.
apply/orelseN; split.
  by apply/check_outlierN => //; exists 0; [constructor|rewrite /= lexx ler01].
apply/orelseN; split; first exact: Hl.
apply/orelseN; split; first by apply/check_degreeN; exists 20; first constructor.
apply/orelseN; split; first by [].
apply/orelseN; split.
  by apply/(check_orthogonalizeN _ (ia_int R 20)); exists 0; first constructor.
apply/orelseN; split; first by [].
by do 2![apply/orelseN; split; first by apply/check_countN; exists 0; first constructor].
Qed.

(** The full statement fails: comparisons with not-a-number are false, so it
    passes as a confidence level. *)
Theorem C32_nan_refuted (R : rcfType) :
  exists a : arguments R, (exists r, check_arguments a = Ok r) /\ ~ well_formed a.
Proof.
exists (default_arguments (PFloat (Fin 1)) (@NaN R)); split.
  by eexists; apply: default_accepted.
by case=> _ _ _ [_ _ _ [c [o [H]]]]; inversion H.
Qed.

(** A complex exponent is accepted: line 149 creates the exception without
    raising it. *)
Theorem C32_complex_exponent_refuted (R : rcfType) :
  exists a : arguments R,
    exponent a = PComplex 0 1 /\ exists r, check_arguments a = Ok r.
Proof.
exists (default_arguments (PComplex 0 1) (Fin 0)); split=> //.
eexists; apply: default_accepted => //; last by rewrite /check_levels /= oppr0 addr0 ltr10.
by apply/check_confidenceN => //; exists 0; [constructor|rewrite lexx ler01].
Qed.

Example C32_case (R : rcfType) :
  let a := default_arguments (PFloat (Fin 1)) (Fin (2%:R^-1 : R)) in no_nan a /\ well_formed a.
Proof.
split=> //; split=> //.
- by split; eexists.
- by exists 10, 50; split=> //; constructor.
- split; [by left|right|by left|].
    by exists (Fin 1); [constructor|rewrite /= ler01].
  exists 2%:R^-1, 0; split; try by constructor.
    by rewrite invr_ge0 ler0n invf_le1 ?ltr0n // ler1n.
  by rewrite lexx subr_ge0 invf_le1 ?ltr0n // ler1n.
- split; [|by left| |].
  + by exists 20, 0; split=> //; constructor.
  + by exists 0 => //; constructor.
  + by exists 0 => //; constructor.
Qed.

Print Assumptions C31_num_inquiries.
Print Assumptions C31_reads_partial.
Print Assumptions C31_strided_refuted.
Print Assumptions C31_backwards_refuted.
Print Assumptions C32_accepted_iff_partial.
Print Assumptions C32_nan_refuted.
Print Assumptions C32_complex_exponent_refuted.
