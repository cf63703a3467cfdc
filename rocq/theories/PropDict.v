(** The dictionary returned with an estimate says what was computed and with
    which settings: C78. *)
From mathcomp Require Import all_ssreflect all_algebra.
From mathcomp Require Import zify.
From mathcomp.real_closed Require Import realalg.
From Verif Require Import Mem ConvModel SlqRunModel ReportModel ArgsModel ArgsSpec PropArgs.
From Verif Require Import SummaryModel SummarySpec PropSummary DictSpec.

Set Implicit Arguments.
Unset Strict Implicit.
Unset Printing Implicit Defensive.
Import Order.TTheory GRing.Theory Num.Theory.
Local Open Scope ring_scope.

Section Dict.
Variable R : rcfType.
Variable trunc : R -> int.
Notation num := (num R).
Notation pyval := (pyval R).

Lemma toleranceP (v : pyval) : or_default (Fin 0) v (tolerance v).
Proof. by split; rewrite /tolerance; [move=> ->|case: v]. Qed.

Lemma threads_orP m (v w : pyval) : threads_or m v = Done w -> threads_used m v w.
Proof.
rewrite /threads_or => H z Hz; move: H; rewrite (integer_number Hz) /= -(ltr_int R).
by case: ifP => _ [<-] //; constructor.
Qed.

Lemma relativeP (eps e t : num) : relative eps e t (relative_error eps e t).
Proof.
move=> h x y -> h0 -> ->; rewrite /relative_error /=.
have H : 0 < `|y| + h by rewrite ltr_spaddr // normr_ge0.
by rewrite (gt_eqF H).
Qed.

Lemma equalsP (v : pyval) z : integer_arg v z -> equals v 0 = (z == 0).
Proof. by move=> Hz; rewrite /equals (integer_number Hz) eqr_int. Qed.

Lemma check_tolerances (a : arguments R) atol rtol :
  check_arguments a = Ok (atol, rtol) -> atol = tolerance (error_atol a) /\ rtol = tolerance (error_rtol a).
Proof. by rewrite /check_arguments; case: (orelse _ _) => // -[<- <-]. Qed.

Lemma of_inquiry_nth (T : Type) (xs : seq T) j x0 : (j < size xs)%N -> of_inquiry (Many xs) j (nth x0 xs j).
Proof.
move=> H; exists (take j xs); first by rewrite (take_nth x0).
by rewrite size_takel // ltnW.
Qed.

(** Whatever a call of the stochastic Lanczos quadrature returns, the
    dictionary has the settings of the call, the defaults filled in, and the
    results of the run for as many inquiries as there are batches of
    parameters.  Missing: the number of GPU devices when gpu=False. *)
Theorem C78_slq_partial (env : environment R) (d : dtype) (k : nat) (a : arguments R)
    (p : parameters num) (xs : seq num) (run : nat -> report R) printed value c i :
  keeps_integers (e_fl env) -> valid_view p -> given p = Some xs ->
  (size xs)%:R <= 2 ^+ 53 :> rat ->
  (forall q, report_sizes (run q) q) ->
  (k = 0%N \/ forall x, p <> Scalar x) ->
  slq trunc env d k a p run = Done (printed, (value, (c, i))) ->
  [/\ tells_settings env d k a c,
      (gpu a = PBool R true \/ integer_arg (num_gpu_devices a) 0 -> tells_devices env a c),
      (k = 0%N -> c_inquiries c = 1%N) /\ ((0 < k)%N -> size xs = (c_inquiries c * k)%N),
      (forall j, (j < c_inquiries c)%N ->
         tells_result (e_eps env Float64) (run (c_inquiries c)) i j)
    & value = i_samples_mean i /\ i_all_converged i = rp_all (run (c_inquiries c))].
Proof.
move=> flP vp Eg sb sizes Hp; rewrite /slq.
case Et: (threads_or _ _) => [th|//] /=.
case Ep: (get_operator_parameters p) => [[p' s]|[]] //=.
case Eq: (find_num_inquiries _ _ _) => [q|[]] //=.
case Ec: (check_arguments _) => [[atol rtol]|[]] //=.
case Eo: (output _ _ _) => [[trace i']|//] /=.
set c' := Config _ _ _ _ _ _ _ _ _ _ _ _ _ _ _ _ _ _ _ _ _ _.
case: (if truth _ then _ else _) => [pr|//] [_ Ev Ecc Ei]; subst value c i.
have Hs : s = size xs.
  move: Ep Eg; case: (p) vp => //= [_ [_ <-] [<-]|x _ [_ <-] [<-]|ys _ [_ <-] [<-]|buf off st m vp] //.
  case=> _ <- [<-]; rewrite size_pmap -[LHS](size_iota 0); symmetry; apply/eqP; rewrite -all_count.
  apply/allP => j; rewrite mem_iota add0n => /andP [_ Hj].
  have [l E Hl] := vp _ Hj; rewrite /= E.
  by case: (buf) Hl => // x0 b Hl; rewrite (nth_map x0).
have Hq : (k = 0%N /\ q = 1%N) \/ [/\ (0 < k)%N, s = (q * k)%N & (k <= s)%N].
  by apply: find_num_inquiriesP Eq; rewrite ?Hs.
have [/= Ha Hr] := check_tolerances Ec.
have [_ _ _ _ [_ _ [g Hgpu]]] := check_forms Ec; rewrite /= in Hgpu.
have [S1 S2 S3 S4 S5] := sizes q.
have results j : (j < q)%N -> tells_result (e_eps env Float64) (run q) i' j.
  move=> Hj; pose x := @NaN R.
  exists (nth x (rp_trace (run q)) j), (nth x (rp_error (run q)) j).
  exists (relative_error (e_eps env Float64) (nth x (rp_error (run q)) j) (nth x (rp_trace (run q)) j)).
  exists (nth 0%N (rp_used (run q)) j), (nth 0%N (rp_outliers (run q)) j).
  exists (nth true (rp_converged (run q)) j).
  have H1 : of_inquiry (Many (rp_trace (run q))) j (nth x (rp_trace (run q)) j).
    by apply: of_inquiry_nth; rewrite S1.
  have H2 : of_inquiry (Many (rp_error (run q))) j (nth x (rp_error (run q)) j).
    by apply: of_inquiry_nth; rewrite S2.
  have H3 : of_inquiry (Many (rp_used (run q))) j (nth 0%N (rp_used (run q)) j).
    by apply: of_inquiry_nth; rewrite S3.
  have H4 : of_inquiry (Many (rp_outliers (run q))) j (nth 0%N (rp_outliers (run q)) j).
    by apply: of_inquiry_nth; rewrite S4.
  have H5 : of_inquiry (Many (rp_converged (run q))) j (nth true (rp_converged (run q)) j).
    by apply: of_inquiry_nth; rewrite S5.
  have H6 := @relativeP (e_eps env Float64) (nth x (rp_error (run q)) j) (nth x (rp_trace (run q)) j).
  move: Eo; rewrite /output; case: ifP => Harr.
    case=> _ <- /=; split=> //.
    set f := fun y : num * num => relative_error (e_eps env Float64) y.1 y.2.
    rewrite -[relative_error _ _ _]/(f (nth x (rp_error (run q)) j, nth x (rp_trace (run q)) j)).
    rewrite -nth_zip ?S1 ?S2 // -(nth_map _ (f (x, x))) ?size_zip ?S1 ?S2 ?minnn //.
    by apply: of_inquiry_nth; rewrite size_map size_zip S1 S2 minnn.
  have q1 : q = 1%N.
    case: Hq => [[]//|[k0 Hsq Hks]]; move: Harr Ep; case: (p') => // [_|y _].
      by case: (p) => //= -[] // E; move: k0 Hks; rewrite -E; lia.
    by case: Hp => [E|H]; [move: k0; rewrite E|case: (p) H => //= z /(_ z)].
  have j0 : j = 0%N by move: Hj; rewrite q1; lia.
  have rd0 (T : Type) (m : seq T) y y0 : rd m 0 = Some y -> nth y0 m j = y.
    by rewrite j0; case: m => // ? ? [].
  case E1: (rd (rp_error _) 0) => [e|] //=; case E2: (rd (rp_trace _) 0) => [t|] //=.
  case E3: (rd (rp_converged _) 0) => [cv|] //=; case E4: (rd (rp_used _) 0) => [u|] //=.
  case E5: (rd (rp_outliers _) 0) => [o|] //= [_ <-].
  rewrite (rd0 _ _ _ _ E1) (rd0 _ _ _ _ E2) (rd0 _ _ _ _ E3) (rd0 _ _ _ _ E4) (rd0 _ _ _ _ E5) in H1 H2 H3 H4 H5 H6 *.
  by split.
split.
- split=> //=.
  + by split=> //=; rewrite ?Ha ?Hr; try exact: toleranceP; split; [move=> ->|case: (lanczos_tol a)].
  + exact: threads_orP Et.
- rewrite /tells_devices /c' /= Hgpu; case: (g) => Hd z Hz /=.
    by split; try (by constructor); rewrite (equalsP Hz); case: ifP => _ //; constructor.
  by split; try (by constructor); case: Hd.
- by case: Hq => [[-> ->]|[k0 E _]] /=; split=> //; [move: k0; case: (k)|rewrite -Hs].
- move=> j /= Hj; exact: results.
- move: Eo; rewrite /output; case: ifP => _; first by case=> <- <-.
  case: (rd (rp_error _) 0) => //= e; case: (rd (rp_trace _) 0) => //= t.
  case: (rd (rp_converged _) 0) => //= cv; case: (rd (rp_used _) 0) => //= u.
  by case: (rd (rp_outliers _) 0) => //= o [<- <-].
Qed.

(** Without gpu=True no GPU device takes part, but the dictionary (and the
    printed summary) has the number the caller gave. *)
Theorem C78_cpu_devices_refuted (env : environment R) (d : dtype) (k : nat) (a : arguments R)
    (p : parameters num) (run : nat -> report R) printed value c i z :
  gpu a = PBool R false -> integer_arg (num_gpu_devices a) z -> z <> 0 ->
  slq trunc env d k a p run = Done (printed, (value, (c, i))) ->
  integer_arg (c_devices c) z /\ ~ tells_devices env a c.
Proof.
move=> Hg Hz z0; rewrite /slq.
case Et: (threads_or _ _) => [th|//] /=.
case Ep: (get_operator_parameters p) => [[p' s]|[]] //=.
case Eq: (find_num_inquiries _ _ _) => [q|[]] //=.
case Ec: (check_arguments _) => [[atol rtol]|[]] //=.
case Eo: (output _ _ _) => [[trace i']|//] /=.
case: (if truth _ then _ else _) => [pr|//] [_ _ <- _]; rewrite /tells_devices Hg /=; split=> //.
by case/(_ z Hz) => H _ _; apply: z0; apply: integer_uniq Hz H.
Qed.

(** ** The Hutchinson method *)

Lemma clipP n (v w : pyval) z : clip n v = Done w -> integer_arg v z ->
  integer_arg w (if n%:Z < z then n%:Z else z).
Proof.
rewrite /clip => H Hz; move: H; rewrite (integer_number Hz) /=.
rewrite -[n%:R]/((n%:Z)%:~R) ltr_int.
by case: ifP => _ [<-] //; constructor.
Qed.

(** Whatever a call of the Hutchinson method returns, it comes from a run with
    the numbers of samples of the call, cut down to the number of columns, and
    the dictionary has these numbers, the other settings and the results of
    that run. *)
Theorem C78_hutchinson (env : environment R) (a : harguments R)
    (run : pyval -> pyval -> hrun R) sparse n m zlo zhi printed value info :
  has_shape sparse (h_A a) n m ->
  integer_arg (h_min a) zlo -> integer_arg (h_max a) zhi ->
  hutchinson trunc env a run = Done (printed, (value, info)) ->
  exists lo hi : pyval,
  [/\ integer_arg lo (if m%:Z < zlo then m%:Z else zlo),
      integer_arg hi (if m%:Z < zhi then m%:Z else zhi),
      value = u_trace (run lo hi),
      (h_return_info a = PBool R true <-> info <> None)
    & forall i, info = Some i ->
      [/\ i_min i = lo, i_max i = hi, htells_settings env a i
        & htells_result (e_eps env Float64) (run lo hi) i]].
Proof.
move=> [d Ed] Hlo Hhi; rewrite /hutchinson.
case Ec: (hcheck_arguments _) => [[ar sq]|] //=.
case En: (index _ 1) => [m'|] //=.
have Em : m' = m by move: En; rewrite Ed; case: (sparse) => -[].
case Ehi: (clip _ (h_max a)) => [hi|] //=; case Elo: (clip _ (h_min a)) => [lo|] //=.
case Eth: (threads_or _ _) => [th|] //=.
case Edt: (computed _) => //=.
case: (if truth (h_verbose a) then _ else _) => [pr|//] [_ <- <-].
have Hb : boolean_arg (h_return_info a).
  move: Ec; rewrite /hcheck_arguments.
  move=> /failP [_] /bindP [n1 _] /bindP [n2 _] /bindP [_ _] /bindP [_ _].
  move=> /raisedP [_] /raisedP [_] /raisedP [H _]; move: H; rewrite /check_return_info.
  by case: (h_return_info a) => //= b _; exists b.
have [Ha Hr] : ar.1 = tolerance (h_atol a) /\ ar.2 = tolerance (h_rtol a).
  move: Ec; rewrite /hcheck_arguments.
  move=> /failP [_] /bindP [n1 _] /bindP [n2 _] /bindP [_ _] /bindP [_ _].
  by do 18! move=> /raisedP [_]; case=> <-.
exists lo, hi; split=> //.
- by rewrite -Em; apply: clipP Elo Hlo.
- by rewrite -Em; apply: clipP Ehi Hhi.
- by case: Hb => [[]] -> /=; split.
- move=> i; case: (truth _) => // -[<-]; split=> //.
    split=> //=.
    + by split=> // s d'; rewrite Ed; case: (sparse) => -[|[n' [m1]]] // [].
    + by rewrite Ha Hr; split; apply: toleranceP.
    + exact: threads_orP Eth.
  by split=> //=; apply: relativeP.
Qed.

(** A call with the documented arguments runs exactly for matrices of single
    and double precision. *)
Theorem C78_data_types (env : environment R) (a : harguments R) (run : pyval -> pyval -> hrun R) :
  hno_nan a -> two_dimensional a -> hwell_formed a -> h_verbose a = PBool R false ->
  ((exists r, hutchinson trunc env a run = Done r) <->
   exists s d, (h_A a = DenseArg s d \/ exists n m, h_A a = SparseArg n m d) /\
               (d = Float32 \/ d = Float64)).
Proof.
move=> H1 H2 Hw Hv; have [[ar sq] Er] := accepted H1 H2 Hw.
have [[sparse [n [m [[d Ed] _ _]]]] _ _ [lo [hi [Hlo Hhi _ _]]] [_ _ _ [t Ht _]]] := Hw.
rewrite /hutchinson Er.
have bindD (S T : Type) (x : S) (f : S -> result T) : bind (Done x) f = f x by [].
rewrite bindD.
have -> : index (shape (h_A a)) 1 = Done m by rewrite Ed; case: (sparse).
have cl (v : pyval) z : integer_arg v z -> exists w, clip m v = Done w.
  by move=> Hz; rewrite /clip (integer_number Hz); eexists.
have [lo' El] := cl _ _ Hlo; have [hi' Eh] := cl _ _ Hhi.
have [th Eth] : exists w, threads_or (e_threads env) (h_threads a) = Done w.
  by rewrite /threads_or (integer_number Ht); eexists.
rewrite bindD Eh bindD El bindD Eth bindD Hv [truth _]/= bindD.
have -> : matrix_dtype (h_A a) = d by rewrite Ed; case: (sparse).
split.
  move=> H; exists [:: n; m], d; split; last by case: (d) H => -[r] //; auto.
  by rewrite Ed; case: (sparse); [right; exists n, m|left].
case=> s [d' [HA Hd]].
have -> : d = d' by case: HA => [|[n' [m']]]; rewrite Ed; case: (sparse) => // -[].
by case: Hd => -> /=; eexists.
Qed.

End Dict.

(** ** The hypotheses are met *)
Section Cases.
Notation F := [rcfType of realalg].

(** The call of [C72_slq_case] satisfies the first theorem. *)
Example C78_slq_case :
  let a := set_verbose false (default_arguments (PFloat (Fin (3%:R : F))) (Fin (2%:R^-1 : F))) in
  let p := FlatList [:: Fin (5%:R : F); Fin 6%:R] in
  exists c i,
  [/\ slq case_trunc case_env Float64 1 a p case_run =
        Done (None, (Many [:: Fin 7%:R; Fin 7%:R], (c, i))),
      c_inquiries c = 2%N, c_tol c = PFloat (Fin 1), integer_arg (c_threads c) 4
    & tells_result (e_eps case_env Float64) (case_run 2) i 1].
Proof.
move=> a p.
have [[_ flP] [vp Eg] sizes _ [c [i E]]] := C72_slq_case.
have sb : (size [:: Fin (5%:R : F); Fin 6%:R])%:R <= 2 ^+ 53 :> rat.
  by apply: (@small_size (size [:: Fin (5%:R : F); Fin 6%:R])).
have Hp : 1%N = 0%N \/ (forall x, p <> Scalar x) by right.
have H := C78_slq_partial flP vp Eg sb sizes Hp E.
have [[_ _ [_ _ _ _ [/(_ erefl) Ht _]] _ /(_ 0) Hth] _ [_ /(_ isT) Hq] Hr _] := H.
have Q : c_inquiries c = 2%N by rewrite muln1 in Hq.
exists c, i; split; [exact: E|exact: Q|exact: Ht| |].
- by apply: Hth; constructor.
- by rewrite Q in Hr; exact: (Hr 1%N isT).
Qed.

(** A call on the CPU with num_gpu_devices=2. *)
Definition with_devices (v : pyval F) (a : arguments F) : arguments F :=
  Arguments_ (gram a) (exponent a) (min_num_samples a) (max_num_samples a)
    (error_atol a) (error_rtol a) (confidence_level a) (outlier_significance_level a)
    (lanczos_degree a) (lanczos_tol a) (orthogonalize a) (seed a) (num_threads a) v
    (verbose a) (plot a) (gpu a).

Example C78_cpu_devices_case :
  let a := with_devices (PInt F 2)
    (set_verbose false (default_arguments (PFloat (Fin (3%:R : F))) (Fin (2%:R^-1 : F)))) in
  [/\ gpu a = PBool F false, integer_arg (num_gpu_devices a) 2
    & exists value c i, slq case_trunc case_env Float64 0 a (NoParameters (num F)) case_run =
        Done (None, (value, (c, i)))].
Proof.
move=> a; split=> //; first by constructor.
rewrite /slq.
have -> : threads_or (e_threads case_env) (num_threads a) = Done (PInt F 4).
  by rewrite /threads_or /= ltr01.
have [r Er] : exists r, check_arguments (with_threads (PInt F 4) a) = Ok r.
  have [|[_ H] _] := @C32_accepted_iff_partial F (with_threads (PInt F 4) a); first by split.
  apply: H; split=> //.
  - by split; eexists.
  - by exists 10, 50; split=> //; constructor.
  - split; [by left|right|by left|].
      by exists (Fin 1); [constructor|rewrite /= ler01].
    exists 2%:R^-1, 0; split; try by constructor.
      exact: half01.
    by rewrite lexx subr_ge0; case/andP: (half01 F).
  - split; [|by left| |].
    + by exists 20, 0; split=> //; constructor.
    + by exists 4 => //; constructor.
    + by exists 2 => //; constructor.
have bindD (S T : Type) (x : S) (f : S -> result T) : bind (Done x) f = f x by [].
have liftO (S : Type) (x : S) : lift (Ok x) = Done x by [].
have -> : get_operator_parameters (NoParameters (num F)) = Ok (NoParameters (num F), 0%N) by [].
rewrite bindD liftO bindD.
have -> : find_num_inquiries (e_fl case_env) 0 0 = Ok 1%N by [].
rewrite liftO bindD Er liftO (surjective_pairing r) bindD.
by eexists; eexists; eexists.
Qed.

(** The call of [C72_hutchinson_case]: 3 columns, hence 3 samples. *)
Example C78_hutchinson_case :
  let A := DenseArg [:: 3; 3]%N Float64 in
  let a := hset false true (hdefault A A (PNone F)) in
  let run := fun _ _ : pyval F => HRun (Fin 5%:R) (Fin 1) 0 3 true in
  exists i, [/\ hutchinson case_trunc case_env a run = Done (None, (Fin 5%:R, Some i)),
                integer_arg (i_min i) 3, integer_arg (i_max i) 3
              & i_relative i = Fin (1 / (`|5%:R| + 1))].
Proof.
move=> A a run; have [_ _ _ _ [i E]] := C72_hutchinson_case.
have HA : has_shape false (h_A a) 3 3 by exists Float64.
have [lo [hi [Hlo Hhi _ _ /(_ i erefl) [El Eh _ [_ _ Hr _]]]]] :=
  C78_hutchinson HA (ia_int _ 10) (ia_int _ 50) E.
exists i; split; [exact: E|by rewrite El|by rewrite Eh|].
by apply: Hr => //; apply: ltr01.
Qed.
End Cases.

Definition C78_assumptions :=
  (@C78_slq_partial, @C78_cpu_devices_refuted, @C78_hutchinson, @C78_data_types).
Print Assumptions C78_assumptions.
