(** Properties of the printed summary and of the arguments of the Hutchinson
    method: C72, C73. *)
From mathcomp Require Import all_ssreflect all_algebra.
From mathcomp Require Import zify.
From mathcomp.real_closed Require Import realalg.
From Verif Require Import Mem ConvModel SlqRunModel ReportModel ArgsModel ArgsSpec PropArgs.
From Verif Require Import SummaryModel SummarySpec.

Set Implicit Arguments.
Unset Strict Implicit.
Unset Printing Implicit Defensive.
Import Order.TTheory GRing.Theory Num.Theory.
Local Open Scope ring_scope.

Section Cells.
Variable R : rcfType.
Variable trunc : R -> int.
Notation num := (num R).
Notation pyval := (pyval R).

Lemma rd_nth (T : Type) (m : seq T) i : rd m i = nth None (map Some m) i.
Proof.
case: (ltnP i (size m)) => Hi.
  by case: m Hi => // x0 m Hi; rewrite (nth_map x0) // (rdE x0).
by rewrite nth_default ?size_map // /rd drop_oversize.
Qed.

Lemma integerE (v : pyval) z : integer_arg v z -> integer trunc v = Done z.
Proof. by case. Qed.

Lemma realE np v (x : num) : real_arg np v x -> real v = Done x.
Proof. by case. Qed.

Lemma real_integer (v : pyval) z : integer_arg v z -> real v = Done (Fin (z%:~R : R)).
Proof. by case. Qed.

Lemma percentP (x : num) : in_percent x (percent x).
Proof.
have h0 : (0 < 100%:R :> R) by rewrite ltr0n.
by case: x => [r| | |] /=; rewrite ?/inf_times ?(gt_eqF h0) ?h0 // mulrC.
Qed.

Lemma finite_number_number (v : pyval) (r : R) : finite_number v r -> number v = Some (Fin r).
Proof. by case=> // w y; apply: real_number. Qed.

Lemma exponent_cellP (v : pyval) (r : R) : (forall z : int, trunc z%:~R = z) -> finite_number v r ->
  exists2 c, exponent_cell trunc v = Done c & shows_exponent v c.
Proof.
move=> tz Hv; have En := finite_number_number Hv.
have [z Ez Hz] : exists2 z, integer trunc v = Done z & forall z' : int, r = z'%:~R -> z = z'.
  case: v {Hv} En => //= [b|z|z|b|x|x].
  - by case=> <-; exists (Posz b) => // z'; rewrite (_ : b%:R = (Posz b)%:~R :> R) // => /intr_inj.
  - by case=> <-; exists z => // z' /intr_inj.
  - by case=> <-; exists z => // z' /intr_inj.
  - by case=> <-; exists (Posz b) => // z'; rewrite (_ : b%:R = (Posz b)%:~R :> R) // => /intr_inj.
  - by case=> ->; exists (trunc r) => // z' ->.
  - by case=> ->; exists (trunc r) => // z' ->.
rewrite /exponent_cell Ez /= /equals En; case: eqP => Er.
  by exists (Whole R z) => // r' /finite_number_number; rewrite En => -[<-].
rewrite /real En /=; exists (Real (Fin r)) => // r' /finite_number_number; rewrite En => -[<-].
by split=> // z' E; apply: Er; rewrite (Hz _ E).
Qed.

Lemma steps_cellP (v w : pyval) z d : integer_arg v z -> integer_arg w d ->
  exists2 s, steps_cell trunc v w = Done s & shows_steps v w s.
Proof.
move=> Hv Hw; rewrite /steps_cell (real_integer Hv) (real_integer Hw) /= (integerE Hv) /=.
rewrite ltr_int eqr_int (_ : (z%:~R < 0 :> R) = (z < 0)) ?ltrz0 // intr_eq0.
case: ifP => H1; [|case: ifP => H2].
- by exists FullSteps => //; exists z, d; split=> //; move: H1; lia.
- by exists NoSteps => //; exists z, d; split=> //; apply/eqP.
- by exists (Steps z) => //; exists z, d; split=> //; split=> //; move: H1 H2; lia.
Qed.

Lemma of_inquiryE (T : Type) (xs : seq T) j x :
  of_inquiry (Many xs) j x <-> nth None (map Some xs) j = Some x.
Proof.
split=> [[s Es Hs]|E].
  rewrite -(cat_take_drop j.+1 xs) Es map_cat nth_cat !size_map size_rcons Hs ltnSn.
  by rewrite map_rcons nth_rcons size_map Hs ltnn eqxx.
have Hj : (j < size xs)%N by rewrite ltnNge; apply/negP => H; move: E; rewrite nth_default ?size_map.
exists (take j xs); last by rewrite size_take Hj.
rewrite (take_nth x) //; congr rcons; move: E; rewrite (nth_map x) // => -[].
by [].
Qed.

Lemma elementP (T : Type) (v : shaped T) q i :
  (match v with One _ => q = 1%N | Many xs => size xs = q end) -> (i < q)%N ->
  exists2 x, element v q i = Done x & of_inquiry v i x.
Proof.
rewrite /element; case: v => [a|xs] Hq Hi.
  by subst q; case: i Hi => // _; exists a.
case: eqP => [E|_].
  case: xs Hq => [|x [|y xs]] /=; rewrite E //; move=> _; subst q; case: i Hi => // _.
  by exists x => //; exists [::].
have [x Ex] : exists x, nth None (map Some xs) i = Some x.
  case: xs Hq => [|x0 xs] Hq; first by rewrite -Hq in Hi.
  by rewrite (nth_map x0) ?Hq //; eexists.
by exists x; [rewrite rd_nth Ex|apply/of_inquiryE].
Qed.

Lemma element_map (S T : Type) (f : S -> T) (v : shaped S) q i x :
  element v q i = Done x -> element (map_shaped f v) q i = Done (f x).
Proof.
rewrite /element; case: v => [a|xs] /=; case: eqP => // _; first by case=> ->.
  by case: xs => [|y [|z xs]] //= -[->].
rewrite !rd_nth -map_comp; case: (ltnP i (size xs)) => Hi.
  by case: xs Hi => // x0 xs Hi; rewrite !(nth_map x0) //= => -[->].
by rewrite !nth_default ?size_map.
Qed.

Lemma eachP (S T : Type) (f : S -> result T) (P : S -> T -> Prop) (xs : seq S) :
  (forall j x0, (j < size xs)%N -> exists2 y, f (nth x0 xs j) = Done y & P (nth x0 xs j) y) ->
  exists2 ys, each f xs = Done ys &
    size ys = size xs /\ forall j x0 y0, (j < size xs)%N -> P (nth x0 xs j) (nth y0 ys j).
Proof.
elim: xs => [|x xs IH] H; first by exists [::].
have [y Ey Py] := H 0%N x isT.
have [ys Eys [Ss Ps]] : exists2 ys, each f xs = Done ys &
    size ys = size xs /\ forall j x0 y0, (j < size xs)%N -> P (nth x0 xs j) (nth y0 ys j).
  by apply: IH => j x0 Hj; apply: (H j.+1 x0).
exists (y :: ys); first by rewrite /= /= in Ey *; rewrite Ey /= Eys.
by split; [rewrite /= Ss|move=> [|j] x0 y0 Hj //=; apply: Ps].
Qed.

Lemma pmap_nth (S T : Type) (f : S -> option T) (s : seq S) :
  all f s -> map Some (pmap f s) = map f s.
Proof. by elim: s => //= x s IH /andP []; case: (f x) => //= y _ /IH ->. Qed.

Lemma parameterP (p p' : parameters num) s xs i :
  get_operator_parameters p = Ok (p', s) -> given p = Some xs -> valid_view p -> (i < s)%N ->
  (forall x, p <> Scalar x) ->
  exists2 x, parameter p' i = Done x & of_inquiry (Many xs) i x.
Proof.
case: p => //= [|x|ys|buf off st n].
- by case=> _ <-.
- by move=> _ _ _ _ /(_ x).
- case=> <- <- [<-] _ Hi _; rewrite /parameter Hi mul1r add0r.
  by case: ys Hi => // y ys Hi; exists (nth y (y :: ys) i);
    [rewrite rd_nth (nth_map y)|apply/of_inquiryE; rewrite (nth_map y)].
- case=> <- <- [<-] vp Hi _; rewrite /parameter Hi.
  set f := (fun i : nat => _).
  have Hf j : (j < n)%N -> f j.
    move=> /vp [k E Hk]; rewrite /f E.
    by case: (buf) Hk => // b0 b Hk; rewrite (nth_map b0).
  have [k E Hk] := vp _ Hi; rewrite E.
  have [x Ex] : exists x, nth None (map Some buf) k = Some x.
    by case: (buf) Hk => // b0 b Hk; rewrite (nth_map b0) //; eexists.
  exists x; first by rewrite rd_nth Ex.
  apply/of_inquiryE; rewrite pmap_nth; last first.
    by apply/allP => j; rewrite mem_iota add0n => /andP [_]; apply: Hf.
  by rewrite (nth_map 0%N) ?size_iota // nth_iota // add0n /f E.
Qed.

End Cells.

(** ** C72: the stochastic Lanczos quadrature *)
Section Slq.
Variable R : rcfType.
Variable trunc : R -> int.
Notation num := (num R).
Notation pyval := (pyval R).

Lemma real_formN np (v : pyval) (c : check) :
  (if is_none v then None
   else orelse (raise_if (~~ isscalar v) TypeError)
     (orelse (raise_if (~~ (is_int v || np && is_npint v || is_float v)) TypeError) c)) = None ->
  v = PNone R \/ exists x, real_arg true v x.
Proof.
case: v => [|b|z|z|b|x|x|x y||]; case: np => //= H; try by left.
all: by right; eexists; constructor.
Qed.

Lemma real_form2N np e (v : pyval) (c : check) :
  orelse (raise_if (is_none v) e) (orelse (raise_if (~~ isscalar v) TypeError)
    (orelse (raise_if (~~ (is_int v || np && is_npint v || is_float v)) TypeError) c)) = None ->
  exists x, real_arg true v x.
Proof.
case: v => [|b|z|z|b|x|x|x y||]; case: np => //= H.
all: by eexists; constructor.
Qed.

(** The forms of the arguments that pass the checks. *)
Lemma check_forms (a : arguments R) atol rtol : check_arguments a = Ok (atol, rtol) ->
  [/\ [/\ exists x, real_arg true atol x, exists x, real_arg true rtol x,
          exists x, real_arg true (confidence_level a) x,
          exists x, real_arg true (outlier_significance_level a) x
        & lanczos_tol a = PNone R \/ exists x, real_arg true (lanczos_tol a) x],
      (exists2 z, integer_arg (min_num_samples a) z & 1 <= z),
      (exists2 z, integer_arg (max_num_samples a) z & 1 <= z),
      (exists z d, integer_arg (orthogonalize a) z /\ integer_arg (lanczos_degree a) d)
    & [/\ exists z, integer_arg (num_threads a) z, exists z, integer_arg (num_gpu_devices a) z
        & boolean_arg (gpu a)]].
Proof.
rewrite /check_arguments; case E: (orelse _ _) => // -[Ea Er].
have tol (v : pyval) : check_tolerance v = None -> exists x, real_arg true (tolerance v) x.
  rewrite /check_tolerance /tolerance => H; case: ifP H => [_ _|Hn H].
    by exists (Fin 0); constructor.
  have := @real_formN false v (raise_lt (number v) (const 0) ValueError).
  rewrite Hn /= orbF => /(_ H) [Ev|] //.
  by rewrite Ev in Hn.
move: E => /orelseN [_ /orelseN [_ /orelseN [Hlo /orelseN [Hhi /orelseN [_ /orelseN [Hat /orelseN [Hrt /orelseN [Hc /orelseN [Ho /orelseN [_ /orelseN [Hd /orelseN [Ht /orelseN [Hk /orelseN [_ /orelseN [Hn /orelseN [Hg /orelseN [_ /orelseN [_ Hgpu]]]]]]]]]]]]]]]]]].
have [d Hd' _] := (check_degreeN _).1 Hd.
have [k Hk' _] := (check_orthogonalizeN _ Hd').1 Hk.
have [n Hn' _] := (check_countN _).1 Hn.
have [g Hg' _] := (check_countN _).1 Hg.
split.
- split; rewrite -?Ea -?Er; try exact: tol.
  + apply: (@real_form2N false TypeError _
      (orelse (raise_lt (number (confidence_level a)) (const 0) ValueError)
         (raise_lt (const 1) (number (confidence_level a)) ValueError))).
    by rewrite /= orbF.
  + exact: (@real_form2N true TypeError _ _ Ho).
  + exact: (@real_formN true _ _ Ht).
- by apply/check_num_samplesN.
- by apply/check_num_samplesN.
- by exists k, d.
- by split; [exists n|exists g|apply/check_boolN].
Qed.

(** The arrays of the report have one entry for each inquiry
    (trace_estimator.pyx 151-175). *)
Definition report_sizes (r : report R) (q : nat) : Prop :=
  [/\ size (rp_trace r) = q, size (rp_error r) = q, size (rp_used r) = q,
      size (rp_outliers r) = q & size (rp_converged r) = q].

Lemma find_num_inquiriesP fl k s q : keeps_integers fl -> s%:R <= 2 ^+ 53 :> rat ->
  find_num_inquiries fl k s = Ok q ->
  (k = 0%N /\ q = 1%N) \/ [/\ (0 < k)%N, s = (q * k)%N & (k <= s)%N].
Proof.
move=> flP sb; rewrite /find_num_inquiries; case: posnP => [-> [<-]|k0]; first by left.
case: ltnP => // Hk; case: eqP => //= Hd [<-]; right; split=> //.
have kd : (k %| s)%N by apply/eqP.
by rewrite (py_int_divE flP) // divnK.
Qed.

(** With verbose=True a call that works without it works too, returns the same
    value and dictionary, and prints what the dictionary says. *)
Theorem C72_slq_partial (env : environment R) (d : dtype) (k : nat) (a : arguments R)
    (p : parameters num) (xs : seq num) (run : nat -> report R) printed value dict :
  (forall z : int, trunc z%:~R = z) ->
  keeps_integers (e_fl env) -> valid_view p -> given p = Some xs ->
  (size xs)%:R <= 2 ^+ 53 :> rat ->
  (forall q, report_sizes (run q) q) ->
  d <> OtherDtype ->
  (exists r, finite_number (exponent a) r) ->
  (k = 0%N \/ forall x, p <> Scalar x) ->
  slq trunc env d k (set_verbose false a) p run = Done (printed, (value, dict)) ->
  printed = None /\
  exists2 s, slq trunc env d k (set_verbose true a) p run = Done (Some s, (value, dict)) &
    shows xs dict.1 dict.2 s.
Proof.
move=> tz flP vp Eg sb sizes dt [r Hr] Hp.
rewrite /slq.
have -> : num_threads (set_verbose true a) = num_threads (set_verbose false a) by [].
case Et: (threads_or _ _) => [th|//] /=.
case Ep: (get_operator_parameters p) => [[p' s]|[]] //=.
case Eq: (find_num_inquiries _ _ _) => [q|[]] //=.
have -> : check_arguments (with_threads th (set_verbose true a)) =
          check_arguments (with_threads th (set_verbose false a)) by [].
case Ec: (check_arguments _) => [[atol rtol]|[]] //=.
case Eo: (output _ _ _) => [[trace i]|//] /=.
set c := Config _ _ _ _ _ _ _ _ _ _ _ _ _ _ _ _ _ _ _ _ _ _.
case=> <- <- <-; split=> //=.
have [[[xa Ha] [xr Hrt] [xc Hc] [xo Ho] Ht] [lo Hlo _] [hi Hhi _] [z [dg [Hz Hdg]]]
  [[n Hn] [g Hg] [gb Hgb]]] := check_forms Ec.
rewrite /= in Hc Ho Ht Hlo Hhi Hz Hdg Hn Hg Hgb.
have Hs : s = size xs.
  move: Ep Eg; case: (p) vp => //= [_ [_ <-] [<-]|x _ [_ <-] [<-]|ys _ [_ <-] [<-]|buf off st m vp] //.
  case=> _ <- [<-]; rewrite size_pmap -[LHS](size_iota 0); symmetry; apply/eqP; rewrite -all_count.
  apply/allP => j; rewrite mem_iota add0n => /andP [_ Hj].
  have [l E Hl] := vp _ Hj; rewrite /= E.
  by case: (buf) Hl => // x0 b Hl; rewrite (nth_map x0).
have Hq : (k = 0%N /\ q = 1%N) \/ [/\ (0 < k)%N, s = (q * k)%N & (k <= s)%N].
  by apply: find_num_inquiriesP Eq; rewrite ?Hs.
have [S1 S2 S3 S4 S5] := sizes q.
(* shapes of the entries *)
pose shaped_ok (T : Type) (v : shaped T) := match v with One _ => q = 1%N | Many l => size l = q end.
have [sh1 [sh2 [sh3 [sh4 [sh5 sh6]]]]] : shaped_ok _ (i_samples_mean i) /\ shaped_ok _ (i_absolute_error i) /\
    shaped_ok _ (i_relative_error i) /\ shaped_ok _ (i_num_samples_used i) /\
    shaped_ok _ (i_num_outliers i) /\ shaped_ok _ (i_converged i).
  move: Eo; rewrite /output; case: ifP => Harr.
    by case=> _ <- /=; rewrite size_map size_zip S1 S2 minnn.
  have q1 : q = 1%N.
    case: Hq => [[]//|[k0 Hsq Hks]]; move: Harr Ep; case: (p') => // [_|x _].
      by case: (p) => //= -[] // E; move: k0 Hks; rewrite -E; lia.
    by case: Hp => [E|H]; [move: k0; rewrite E|case: (p) H => //= y /(_ y)].
  case: (rd (rp_error _) 0) => //= e; case: (rd (rp_trace _) 0) => //= t.
  case: (rd (rp_converged _) 0) => //= cv; case: (rd (rp_used _) 0) => //= u.
  by case: (rd (rp_outliers _) 0) => //= o [_ <-].
have rows : exists2 rs, each
    (result_row (c_inquiries c) (c_num_parameters c) (c_parameters c)
       (i_samples_mean i) (i_absolute_error i) (map_shaped (@percent R) (i_relative_error i))
       (i_num_samples_used i) (i_num_outliers i) (i_converged i))
    (iota 0 (c_inquiries c)) = Done rs &
    size rs = size (iota 0 (c_inquiries c)) /\
    forall j x0 r0, (j < size (iota 0 (c_inquiries c)))%N ->
      shows_row k xs i (nth x0 (iota 0 (c_inquiries c)) j) (nth r0 rs j).
  apply: (eachP (P := fun j r => shows_row k xs i j r)) => j x0.
  rewrite size_iota /= => Hj; rewrite nth_iota // add0n /result_row.
  have [t Et' Ht'] := elementP sh1 Hj.
  have [e1 E1 H1] := elementP sh2 Hj.
  have [e2 E2 H2] := elementP sh3 Hj.
  have [e3 E3 H3] := elementP sh4 Hj.
  have [e4 E4 H4] := elementP sh5 Hj.
  have [e5 E5 H5] := elementP sh6 Hj.
  have {}E2 := element_map (@percent R) E2.
  rewrite Et' E1 E2 E3 E4 E5 /=.
  case: Hq => [[k0 _]|[k0 Hsq Hks]].
    rewrite k0 /=; eexists; first by [].
    by split=> //=; split=> //; exists e2 => //; apply: percentP.
  have Hp' x : p <> Scalar x by case: Hp => [E|//]; move: k0; rewrite E.
  have [x Ex Hx] : exists2 x, parameter p' (j * k) = Done x & of_inquiry (Many xs) (j * k) x.
    by apply: (parameterP Ep) => //; rewrite Hsq ltn_mul2r k0.
  rewrite (gtn_eqF k0).
  have -> : (if k == 1%N then try x <- parameter p' j; Done (Some x)
             else try x <- parameter p' (j * k)%N; Done (Some x)) = Done (Some x).
    case: eqP => [E1k|_]; last by rewrite Ex.
    by rewrite -[j in parameter p' j]muln1 -[in (j * 1)%N]E1k Ex.
  rewrite /=; eexists; first by [].
  split=> //=.
  - by split=> [E|_]; [move: k0; rewrite E|exists x].
  - by split; [exact: Ht'|exact: H1|exists e2; [exact: H2|exact: percentP]].
have [rs Ers [Srs Prs]] := rows.
have [o Eo' Ho'] := steps_cellP trunc Hz Hdg.
have [ce Ece Hce] := exponent_cellP tz Hr.
have [b Eb Hb] : exists2 b, bits d = Done b & match d with
    | Float32 => b = 32%N | Float64 => b = 64%N | Float128 => b = 128%N | OtherDtype => False end.
  by case: (d) dt => // _; eexists.
have [xt Ext] : exists x, real_arg true (c_tol c) x.
  case: Ht => [E|[x Hx]].
    by rewrite /c /= E /=; eexists; constructor.
  by rewrite /c /=; case: ifP => [_|_]; [eexists; constructor|exists x].
have [g' Hg'] : exists z, integer_arg (c_devices c) z.
  by rewrite /c /=; case: ifP => _; [eexists; constructor|exists g].
rewrite /print_summary (realE Hrt) /= (realE Hc) /= Eo' /= Eb /= Ers /= Ece /=.
rewrite (integerE trunc Hdg) /= (realE Ext) /= (integerE trunc Hlo) /= (realE Ha) /=.
rewrite (integerE trunc Hhi) /= (realE Ho) /= (integerE trunc Hn) /= (integerE trunc Hg') /=.
eexists; first by [].
split=> //=.
- by rewrite Srs size_iota.
- by move=> j r0 Hj; have := Prs j 0%N r0; rewrite size_iota nth_iota // add0n; apply.
- split=> //=.
  + by split=> //; [exists xr|exists xc] => //; apply: percentP.
  + by split=> //; constructor.
Qed.

(** The outlier significance level is followed by a percent sign without being
    multiplied by 100. *)
Theorem C72_outlier_refuted (env : environment R) (d : dtype) (k : nat) (a : arguments R)
    (p : parameters num) (run : nat -> report R) s v x :
  slq trunc env d k a p run = Done (Some s, v) ->
  real_arg true (outlier_significance_level a) (Fin x) -> x <> 0 ->
  s_outlier (s_common s) = Fin x /\ ~ shows_outlier (outlier_significance_level a) (s_common s).
Proof.
rewrite /slq.
case: (threads_or _ _) => [th|//] /=.
case: (get_operator_parameters p) => [[p' n]|[]] //=.
case: (find_num_inquiries _ _ _) => [q|[]] //=.
case: (check_arguments _) => [[atol rtol]|[]] //=.
case: (output _ _ _) => [[trace i]|//] /=.
set c := Config _ _ _ _ _ _ _ _ _ _ _ _ _ _ _ _ _ _ _ _ _ _.
case: ifP => // _; rewrite /print_summary.
case: (real (c_rtol c)) => //= rt; case: (real (c_confidence c)) => //= cf.
case: (steps_cell _ _ _) => //= st; case: (bits _) => //= b; case: (each _ _) => //= rs.
case: (exponent_cell _ _) => //= ex; case: (integer _ (c_degree c)) => //= dg.
case: (real (c_tol c)) => //= tl; case: (integer _ (c_min c)) => //= lo.
case: (real (c_atol c)) => //= at_; case: (integer _ (c_max c)) => //= hi.
case Eo: (real (c_outlier c)) => [o|] //=; case: (integer _ (c_threads c)) => //= nt.
case: (integer _ (c_devices c)) => //= nd [<- _] Hx x0 /=.
move: Eo; rewrite /c /= (realE Hx) => -[Eo]; rewrite -Eo; split=> //.
case=> y Hy; rewrite /=.
have := real_number Hy; rewrite (real_number Hx) => -[<-] /= E.
have : 99%:R * x = 0.
  by apply: (@addrI _ x); rewrite addr0 [RHS]E -{1}[x]mul1r -mulrDl -(natrD _ 1 99).
by move/eqP; rewrite mulf_eq0 pnatr_eq0 /= => /eqP.
Qed.

(** A scalar parameter of an affine matrix function: the call works, but with
    verbose=True it raises TypeError after the whole computation. *)
Theorem C72_scalar_refuted (env : environment R) (d : dtype) (a : arguments R) (x : num)
    (run : nat -> report R) v :
  keeps_integers (e_fl env) -> d <> OtherDtype ->
  slq trunc env d 1 (set_verbose false a) (Scalar x) run = Done v ->
  slq trunc env d 1 (set_verbose true a) (Scalar x) run = Error ErrType.
Proof.
move=> flP dt; rewrite /slq.
have -> : num_threads (set_verbose true a) = num_threads (set_verbose false a) by [].
case Et: (threads_or _ _) => [th|//] /=.
rewrite (@py_int_divE (e_fl env) 1 1 flP (@small_size 1 isT)) // [(1 %/ 1)%N]/=.
have -> : check_arguments (with_threads th (set_verbose true a)) =
          check_arguments (with_threads th (set_verbose false a)) by [].
case Ec: (check_arguments _) => [[atol rtol]|[]] //=.
case: (rd (rp_error _) 0) => //= e; case: (rd (rp_trace _) 0) => //= t.
case: (rd (rp_converged _) 0) => //= cv; case: (rd (rp_used _) 0) => //= u.
case: (rd (rp_outliers _) 0) => //= out _.
have [[_ [xr Hrt] [xc Hc] _ _] _ _ [z [dg [Hz Hdg]]] _] := check_forms Ec.
rewrite /= in Hc Hz Hdg.
have [o Eo' Ho'] := steps_cellP trunc Hz Hdg.
have [b Eb] : exists b, bits d = Done b by case: (d) dt => // _; eexists.
by rewrite /print_summary (realE Hrt) /= (realE Hc) /= Eo' /= Eb.
Qed.

(** An infinite exponent, or one that is not a number: the call works, but with
    verbose=True it raises. *)
Theorem C72_exponent_refuted (env : environment R) (d : dtype) (k : nat) (a : arguments R)
    (p : parameters num) (run : nat -> report R) v y :
  exponent a = PFloat y -> (forall r, y <> Fin r) ->
  slq trunc env d k (set_verbose false a) p run = Done v ->
  exists e, slq trunc env d k (set_verbose true a) p run = Error e.
Proof.
move=> Ey Hy; rewrite /slq.
have -> : num_threads (set_verbose true a) = num_threads (set_verbose false a) by [].
case Et: (threads_or _ _) => [th|//] /=.
case Ep: (get_operator_parameters p) => [[p' s]|[]] //=.
case Eq: (find_num_inquiries _ _ _) => [q|[]] //=.
have -> : check_arguments (with_threads th (set_verbose true a)) =
          check_arguments (with_threads th (set_verbose false a)) by [].
case Ec: (check_arguments _) => [[atol rtol]|[]] //=.
case Eo: (output _ _ _) => [[trace i]|//] /= _.
set c := Config _ _ _ _ _ _ _ _ _ _ _ _ _ _ _ _ _ _ _ _ _ _.
have [e Ee] : exists e, print_summary trunc c i = Error e.
  rewrite /print_summary.
  case: (real (c_rtol c)) => //= [rt|e]; last by exists e.
  case: (real (c_confidence c)) => //= [cf|e]; last by exists e.
  case: (steps_cell _ _ _) => //= [st|e]; last by exists e.
  case: (bits _) => //= [b|e]; last by exists e.
  case: (each _ _) => //= [rs|e]; last by exists e.
  rewrite /exponent_cell Ey /=.
  by case: y Ey Hy => [r _ /(_ r)| | |] //=; eexists.
by exists e; rewrite Ee.
Qed.

(** A negative number of threads is replaced before the checks, so it is
    accepted although the checks reject it. *)
Theorem C73_negative_threads_refuted (env : environment R) (d : dtype) (k : nat)
    (a : arguments R) (p : parameters num) (run : nat -> report R) (z : int) :
  z < 0 ->
  slq trunc env d k (with_threads (PInt R z) a) p run =
    slq trunc env d k (with_threads (PInt R 0) a) p run /\
  (forall r, check_arguments (with_threads (PInt R z) a) <> Ok r).
Proof.
move=> z0; split.
  have z1 : (z%:~R < 1 :> R) by rewrite -[1 : R]/(1%:~R) ltr_int; lia.
  by rewrite /slq /= /threads_or /= z1 ltr01.
move=> r; rewrite /check_arguments; case E: (orelse _ _) => //.
move: E => /orelseN [_ /orelseN [_ /orelseN [_ /orelseN [_ /orelseN [_ /orelseN [_
  /orelseN [_ /orelseN [_ /orelseN [_ /orelseN [_ /orelseN [_ /orelseN [_ /orelseN [_ /orelseN [_
  /orelseN [/check_countN [y Hy y0] _]]]]]]]]]]]]]]].
by inversion Hy; subst; move: z0 y0; lia.
Qed.

End Slq.

(** ** The Hutchinson method *)
Section Hutchinson.
Variable R : rcfType.
Variable trunc : R -> int.
Notation num := (num R).
Notation pyval := (pyval R).

Lemma raisedP (T : Type) (c : check) (f : unit -> result T) r :
  bind (raised c) f = Done r <-> c = None /\ f tt = Done r.
Proof. by case: c => [[]|] /=; split=> // -[]. Qed.

Lemma failP (T : Type) (b : bool) e (f : unit -> result T) r :
  bind (fail_if b e) f = Done r <-> b = false /\ f tt = Done r.
Proof. by case: b => /=; split=> // -[]. Qed.

Lemma bindP (S T : Type) (c : result S) (f : S -> result T) r :
  bind c f = Done r <-> exists2 x, c = Done x & f x = Done r.
Proof.
case: c => [x|e] /=; split=> //; first by exists x.
  by case=> y [<-].
by case.
Qed.

Lemma check_htoleranceN (v : pyval) : v <> PFloat (@NaN R) ->
  check_htolerance v = None <->
  v = PNone R \/ exists2 x, real_arg true v x & nonnegative x.
Proof. exact: check_lanczos_tolN. Qed.

Lemma check_matrixN (sparse : bool) (A X : matrix) n m :
  has_shape sparse A n m -> (forall s d, X = DenseArg s d -> size s = 2%N) ->
  check_matrix A X (n == m) = Done tt <-> fits sparse n m X.
Proof.
move=> HA H2; rewrite /fits; have [d EA] := HA.
have shX : X <> NoMatrix -> X <> OtherArg -> exists n' m',
    shape X = [:: n'; m'] /\ has_shape (is_sparse X) X n' m'.
  case: X H2 => [|s d'|n' m' d'|] H2 // _ _.
    have := H2 _ _ erefl; case: s {H2} => [|n' [|m' [|]]] // _.
    by exists n', m'; split=> //; exists d'.
  by exists n', m'; split=> //; exists d'.
have kind b n' m' : has_shape b X n' m' ->
    [/\ shape X = [:: n'; m'], is_dense X = ~~ b & is_sparse X = b].
  by case=> d' ->; case: b.
have kA : [/\ shape A = [:: n; m], is_dense A = ~~ sparse & is_sparse A = sparse].
  by rewrite EA; case: (sparse).
case: kA => SA DA PA; rewrite /check_matrix SA DA PA; split.
  move=> /failP [E1]; case: ifP => // E2 H.
  have kX : is_sparse X = sparse /\ X <> NoMatrix /\ X <> OtherArg.
    by move: E1 E2; case: (sparse); case: (X).
  case: kX => kX [X1 X2]; have [n' [m' [SX HX]]] := shX X1 X2.
  rewrite kX in HX; move: H; rewrite SX /=; case: eqP => E.
    by rewrite /fail_if; case: eqP => //= -[-> ->].
  by rewrite /fail_if /=; case: eqP => //= ->; exists m'.
case: eqP => E.
  by move=> H; have [SX DX PX] := kind _ _ _ H; rewrite DX PX SX eqxx /fail_if; case: (sparse).
case=> m' H; have [SX DX PX] := kind _ _ _ H.
by rewrite DX PX SX /fail_if /= eqxx; case: (sparse).
Qed.

Lemma check_assumeN (v : text) : check_assume v = None <->
  v = Text Gen \/ v = Text Sym \/ v = Text Pos \/ v = Text SymPos.
Proof. by case: v => [||[]] /=; split=> //; try (case=> [|[|[|]]] //); auto. Qed.

Lemma levelsN (c o : pyval) : c <> PFloat (@NaN R) -> o <> PFloat (@NaN R) ->
  [/\ check_outlier c = None, check_outlier o = None & check_levels o c = None] <->
  exists x y : R, [/\ real_arg true c (Fin x), real_arg true o (Fin y),
    0 <= x <= 1 & 0 <= y <= 1 - x].
Proof.
move=> nc no; split.
  case=> /(check_outlierN nc) [x Hx x01] /(check_outlierN no) [y Hy y01]; rewrite /check_levels (real_number Hx) (real_number Hy) /=.
  by move/raise_ifN/negbT; rewrite -leNgt => H; exists x, y; split=> //; case/andP: y01 => -> _.
case=> x [y [Hx Hy x01 /andP [y0 y1]]]; split.
  by apply/(check_outlierN nc); exists x.
  apply/(check_outlierN no); exists y => //; rewrite y0 (le_trans y1) // ler_subl_addr ler_addl.
  by case/andP: x01.
by rewrite /check_levels (real_number Hx) (real_number Hy) /= ltNge y1.
Qed.

(** Exactly the documented arguments are accepted, apart from not-a-number, the
    exponent and the number of columns of B and C. *)
Theorem C73_accepted_iff_partial (a : harguments R) : hno_nan a -> two_dimensional a ->
  ((exists r, hcheck_arguments a = Done r) <-> hwell_formed a) /\
  (forall r, hcheck_arguments a = Done r ->
     [/\ h_atol a = PNone R -> r.1.1 = PFloat (Fin 0),
         h_atol a <> PNone R -> r.1.1 = h_atol a,
         h_rtol a = PNone R -> r.1.2 = PFloat (Fin 0),
         h_rtol a <> PNone R -> r.1.2 = h_rtol a
       & forall sparse n m, has_shape sparse (h_A a) n m -> r.2 = (n == m)]).
Proof.
move=> [n1 n2 n3 n4 n5] two; split; first split.
- case=> r; rewrite /hcheck_arguments.
  move=> /failP [EA] /bindP [n En] /bindP [m Em] /bindP [[] EB] /bindP [[] EC].
  move=> /raisedP [/check_boolN Hg] /raisedP [/check_exponentN [He1 He2]] /raisedP [Hri].
  move=> /raisedP [/check_assumeN Has] /raisedP [/check_num_samplesN [lo Hlo lo1]].
  move=> /raisedP [/check_num_samplesN [hi Hhi hi1]].
  rewrite (integer_number Hlo) (integer_number Hhi) => /raisedP [/raise_ltN lohi].
  move=> /raisedP [/(check_htoleranceN n1) Ha] /raisedP [/(check_htoleranceN n2) Hr].
  move=> /raisedP [Hc] /raisedP [Ho] /raisedP [Hl] /raisedP [/(check_htoleranceN n3) Ht].
  move=> /raisedP [/check_boolN Hor] /raisedP [/check_seedN Hs] /raisedP [/check_countN Hn].
  move=> /raisedP [/check_boolN Hv] /raisedP [/check_boolN Hp] _.
  split=> //.
  + have [sparse HA] : exists sparse, has_shape sparse (h_A a) n m.
      case EAa: (h_A a) EA En Em => [|s d|n' m' d|] //= _.
        have := two s d (or_introl EAa); case: s EAa => [|n' [|m' [|]]] //= EAa _ [<-] [<-].
        by exists false, d.
      by move=> [<-] [<-]; exists true, d.
    exists sparse, n, m; split=> //.
      have {EB} : h_B a = NoMatrix \/ check_matrix (h_A a) (h_B a) (n == m) = Done tt.
        by case: (h_B a) EB; auto.
      case=> [->|EB]; [by left|right].
      by apply/(check_matrixN HA) => // s d E; apply: (two s d); auto.
    have {EC} : h_C a = NoMatrix \/ h_B a <> NoMatrix /\ check_matrix (h_A a) (h_C a) (n == m) = Done tt.
      case: (h_C a) EC => [|s d|n' m' d|] EC; try (by left); right;
        by move: EC => /failP [EBn EC]; split=> //; case: (h_B a) EBn.
    case=> [->|[HB EC]]; [by left|right; split=> //].
    by apply/(check_matrixN HA) => // s d E; apply: (two s d); auto.
  + split=> //; move: Hri; rewrite /check_return_info; case: (h_return_info a) => //= b _.
    by exists b.
  + by exists lo, hi.
  + split=> //; first by move=> v [->|[->|->]].
    by apply/levelsN.
- move=> H; exists (tolerance (h_atol a), tolerance (h_rtol a),
                    nth 0%N (shape (h_A a)) 0 == nth 0%N (shape (h_A a)) 1).
  case: H => [[sparse [n [m [HA HB HC]]]] [Hg Hri Hor Hv Hp] [He1 He2 Has]
    [lo [hi [Hlo Hhi lo1 lohi]]] [Htol Hlev Hs Hn]].
  have [SA EA] : shape (h_A a) = [:: n; m] /\ (is_dense (h_A a) || is_sparse (h_A a)).
    by case: HA => d ->; case: (sparse).
  have [Hc Ho Hl] := (levelsN n4 n5).2 Hlev.
  rewrite /hcheck_arguments SA /=; apply/failP; split.
    by rewrite -negb_or EA.
  have twoB s d : h_B a = DenseArg s d -> size s = 2%N by move=> E; apply: (two s d); auto.
  have twoC s d : h_C a = DenseArg s d -> size s = 2%N by move=> E; apply: (two s d); auto.
  apply/bindP; exists tt.
    case: HB => [-> //|HB]; have := (check_matrixN HA twoB).2 HB.
    by case: (h_B a).
  apply/bindP; exists tt.
    case: HC => [-> //|[HBn HC]]; have := (check_matrixN HA twoC).2 HC.
    case: (h_C a) => //= *; apply/failP; split=> //; by case: (h_B a) HBn.
  apply/raisedP; split; first by apply/check_boolN.
  apply/raisedP; split; first by apply/check_exponentN.
  apply/raisedP; split; first by case: Hri => b ->.
  apply/raisedP; split; first by apply/check_assumeN.
  apply/raisedP; split; first by apply/check_num_samplesN; exists lo.
  apply/raisedP; split; first by apply/check_num_samplesN; exists hi => //; apply: le_trans lohi.
  apply/raisedP; split; first by rewrite (integer_number Hlo) (integer_number Hhi); apply/raise_ltN.
  apply/raisedP; split; first by apply/(check_htoleranceN n1)/Htol; auto.
  apply/raisedP; split; first by apply/(check_htoleranceN n2)/Htol; auto.
  do 3! (apply/raisedP; split=> //).
  apply/raisedP; split; first by apply/(check_htoleranceN n3)/Htol; auto.
  apply/raisedP; split; first by apply/check_boolN.
  apply/raisedP; split; first by apply/check_seedN.
  apply/raisedP; split; first by apply/check_countN.
  apply/raisedP; split; first by apply/check_boolN.
  by apply/raisedP; split; first by apply/check_boolN.
- move=> r; rewrite /hcheck_arguments.
  move=> /failP [_] /bindP [n En] /bindP [m Em] /bindP [_ _] /bindP [_ _].
  do 18! move=> /raisedP [_].
  case=> <- /=; rewrite /tolerance; split.
  + by move=> ->.
  + by case: (h_atol a).
  + by move=> ->.
  + by case: (h_rtol a).
  + move=> sparse n' m' [d E]; move: En Em; rewrite E; case: (sparse) => /= -[<-] [<-] //.
Qed.

Lemma accepted (a : harguments R) : hno_nan a -> two_dimensional a -> hwell_formed a ->
  exists r, hcheck_arguments a = Done r.
Proof. by move=> H1 H2; have [[_ H] _] := C73_accepted_iff_partial H1 H2. Qed.

(** The exponent is documented to be an integer, but any scalar passes the
    checks: the exception is built without being raised. *)
Theorem C73_exponent_refuted (a : harguments R) (v : pyval) :
  h_exponent a <> PNone R -> h_exponent a <> NonScalar R -> v <> PNone R -> v <> NonScalar R ->
  hcheck_arguments (hset_exponent v a) = hcheck_arguments a.
Proof.
move=> e1 e2 v1 v2; rewrite /hcheck_arguments /=.
have E w : w <> PNone R -> w <> NonScalar R -> check_hexponent w = None.
  by move=> w1 w2; apply/check_exponentN.
by rewrite !E.
Qed.

Definition hdefault (A B : matrix) (atol : pyval) : harguments R :=
  HArguments A B NoMatrix (PBool R true) (PInt R 1) (PBool R false) (Text Gen)
    (PInt R 10) (PInt R 50) atol (PFloat (Fin 100%:R^-1)) (PFloat (Fin 2%:R^-1)) (PFloat (Fin 0))
    (PFloat (Fin 0)) (PBool R true) (PNone R) (PInt R 0) (PBool R false) (PBool R false).

Lemma half01 : 0 <= (2%:R^-1 : R) <= 1.
Proof. by rewrite invr_ge0 ler0n invf_le1 ?ltr0n // ler1n. Qed.

Lemma hdefault_well_formed A B atol n m :
  has_shape false A n m -> fits false n m B ->
  (atol = PNone R \/ exists2 x, real_arg true atol x & nonnegative x) ->
  hwell_formed (hdefault A B atol).
Proof.
move=> HA HB Ht; split.
- by exists false, n, m; split=> //; [right|left].
- by split; eexists.
- by split=> //; left.
- by exists 10, 50; split=> //; constructor.
- split.
  + move=> v [->|[->|->]] //=; right; eexists; try by constructor.
      by rewrite /= invr_ge0 ler0n.
    by rewrite /= lexx.
  + exists 2%:R^-1, 0; split; try by constructor.
      exact: half01.
    by rewrite lexx subr_ge0; case/andP: half01.
  + by left.
  + by exists 0 => //; constructor.
Qed.

(** With a matrix that is not square, B may have any number of columns. *)
Theorem C73_columns_refuted n m k d : n <> m ->
  exists r, hcheck_arguments
    (hdefault (DenseArg [:: n; m] d) (DenseArg [:: m; k] d) (PNone R)) = Done r.
Proof.
move=> nm; apply: accepted.
- by split.
- by move=> s d' [|[|]] // [<-].
- apply: (@hdefault_well_formed _ _ _ n m); [by exists d| |by left].
  by rewrite /fits; case: eqP => // _; exists k, d.
Qed.

(** A tolerance that is not a number is accepted. *)
Theorem C73_nan_refuted :
  let a := hdefault (DenseArg [:: 2; 2]%N Float64) NoMatrix (PFloat (@NaN R)) in
  (exists r, hcheck_arguments a = Done r) /\ ~ hwell_formed a.
Proof.
pose a' := hdefault (DenseArg [:: 2; 2]%N Float64) NoMatrix (PNone R).
have [r] : exists r, hcheck_arguments a' = Done r.
  apply: accepted; [by split|by move=> s d' [|[|]] // [<-]|].
  split.
  - by exists false, 2%N, 2%N; split=> //; [exists Float64|left|left].
  - by split; eexists.
  - by split=> //; left.
  - by exists 10, 50; split=> //; constructor.
  - split.
    + move=> v [->|[->|->]] //=; [by left|right|right]; eexists; try by constructor.
        by rewrite /= invr_ge0 ler0n.
      by rewrite /= lexx.
    + exists 2%:R^-1, 0; split; try by constructor.
        exact: half01.
      by rewrite lexx subr_ge0; case/andP: half01.
    + by left.
    + by exists 0 => //; constructor.
rewrite /hcheck_arguments => /failP [? ] /bindP [n En] /bindP [m Em] /bindP [x Ex] /bindP [y Ey].
do 18! move=> /raisedP [? ].
move=> _; split.
  eexists; rewrite /hcheck_arguments; apply/failP; split=> //.
  apply/bindP; exists n => //; apply/bindP; exists m => //.
  apply/bindP; exists x => //; apply/bindP; exists y => //.
  by do 18! (apply/raisedP; split=> //).
by case=> _ _ _ _ [/(_ _ (or_introl erefl)) [] // [w H] Hw _ _ _]; inversion H; subst.
Qed.

Lemma hcheck_forms (a : harguments R) ar sq : hcheck_arguments a = Done (ar, sq) ->
  [/\ exists z, integer_arg (h_min a) z, exists z, integer_arg (h_max a) z,
      exists x, real_arg true ar.1 x, exists x, real_arg true ar.2 x
    & [/\ exists x, real_arg true (h_confidence a) x, exists x, real_arg true (h_outlier a) x,
          h_tol a = PNone R \/ exists x, real_arg true (h_tol a) x,
          exists z, integer_arg (h_threads a) z
        & h_assume a = Text Gen \/ h_assume a = Text Sym \/
          h_assume a = Text Pos \/ h_assume a = Text SymPos]].
Proof.
have tol (v : pyval) : check_htolerance v = None -> exists x, real_arg true (tolerance v) x.
  rewrite /tolerance => H; have := @real_formN _ true _ _ H; case: ifP => [_ _|Hn [E|//]].
    by exists (Fin 0); constructor.
  by rewrite E in Hn.
rewrite /hcheck_arguments.
move=> /failP [_] /bindP [n En] /bindP [m Em] /bindP [_ _] /bindP [_ _].
move=> /raisedP [_] /raisedP [_] /raisedP [_].
move=> /raisedP [/check_assumeN Has] /raisedP [/check_num_samplesN [lo Hlo _]].
move=> /raisedP [/check_num_samplesN [hi Hhi _]] /raisedP [_] /raisedP [Ha] /raisedP [Hr].
move=> /raisedP [Hc] /raisedP [Ho] /raisedP [_] /raisedP [Ht].
move=> /raisedP [_] /raisedP [_] /raisedP [/check_countN [nt Hn _]] /raisedP [_] /raisedP [_].
case=> <- _; split; [by exists lo|by exists hi|exact: tol|exact: tol|].
split=> //; [exact: (@real_form2N _ true _ _ _ Hc)|exact: (@real_form2N _ true _ _ _ Ho)| |].
  exact: (@real_formN _ true _ _ Ht).
by exists nt.
Qed.

Lemma clip_int n (v w : pyval) z : clip n v = Done w -> integer_arg v z -> exists z, integer_arg w z.
Proof.
rewrite /clip => H Hv; move: H; rewrite (integer_number Hv); case: ifP => _ [<-]; last by exists z.
by eexists; constructor.
Qed.

Lemma threads_int m (v w : pyval) z : threads_or m v = Done w -> integer_arg v z ->
  exists z, integer_arg w z.
Proof.
rewrite /threads_or => H Hv; move: H; rewrite (integer_number Hv); case: ifP => _ [<-]; last by exists z.
by eexists; constructor.
Qed.

(** What the driver does before the printing. *)
Lemma hutchinsonE (env : environment R) (a : harguments R) (run : pyval -> pyval -> hrun R)
    printed value i :
  hutchinson trunc env (hset false true a) run = Done (printed, (value, Some i)) ->
  [/\ printed = None,
      (forall info : bool, hutchinson trunc env (hset true info a) run =
         try s <- hprint_summary trunc i; Done (Some s, (value, if info then Some i else None))),
      [/\ i_exponent i = h_exponent a, i_assume i = h_assume a, i_tol i = h_tol a,
          i_outlier i = h_outlier a & i_dtype i = Float32 \/ i_dtype i = Float64],
      [/\ exists z, integer_arg (i_min i) z, exists z, integer_arg (i_max i) z,
          exists z, integer_arg (i_threads i) z & exists x, real_arg true (i_atol i) x]
    & [/\ exists x, real_arg true (i_rtol i) x, exists x, real_arg true (i_confidence i) x,
          exists x, real_arg true (i_outlier i) x,
          i_tol i = PNone R \/ exists x, real_arg true (i_tol i) x
        & i_assume i = Text Gen \/ i_assume i = Text Sym \/
          i_assume i = Text Pos \/ i_assume i = Text SymPos]].
Proof.
rewrite {1}/hutchinson.
case Ec: (hcheck_arguments _) => [[ar sq]|] //=.
case En: (index _ 1) => [n|] //=.
case Ehi: (clip _ (h_max a)) => [hi|] //=; case Elo: (clip _ (h_min a)) => [lo|] //=.
case Eth: (threads_or _ _) => [th|] //=.
case Edt: (computed _) => //= -[<- <- Ei].
have Ec' b c : hcheck_arguments (hset b c a) = Done (ar, sq) by rewrite -Ec.
have [[lo' Hlo] [hi' Hhi] [xa Ha] [xr Hrt] [[xc Hc] [xo Ho] Ht [nt Hnt] Has]] := hcheck_forms Ec.
split=> //.
- move=> info; rewrite /hutchinson Ec' /= En /= Ehi /= Elo /= Eth /= Edt /= Ei.
  by case: (hprint_summary _ _).
- by rewrite -Ei; split=> //=; case: (matrix_dtype _) Edt; auto.
- rewrite -Ei /=; split; [exact: clip_int Elo Hlo|exact: clip_int Ehi Hhi| |by exists xa].
  exact: threads_int Eth Hnt.
- by rewrite -Ei /=; split=> //; [exists xr|exists xc|exists xo].
Qed.

(** With verbose=True a call that works without it works too, returns the same
    value and dictionary, and prints what the dictionary says. *)
Theorem C72_hutchinson_partial (env : environment R) (a : harguments R)
    (run : pyval -> pyval -> hrun R) printed value i :
  (forall z : int, trunc z%:~R = z) ->
  (exists r, finite_number (h_exponent a) r) ->
  h_assume a <> Text Pos -> h_tol a <> PNone R ->
  hutchinson trunc env (hset false true a) run = Done (printed, (value, Some i)) ->
  printed = None /\
  exists2 s, forall info : bool,
    hutchinson trunc env (hset true info a) run =
      Done (Some s, (value, if info then Some i else None)) & hshows i s.
Proof.
move=> tz [r Hr] Hpos Htol /hutchinsonE [-> E [Ee Eas Et _ Ed] [[lo Hlo] [hi Hhi] [nt Hnt] [xa Ha]]
  [[xr Hrt] [xc Hc] [xo Ho] Ht Has]]; split=> //.
rewrite -Ee in Hr; have [ce Ece Hce] := exponent_cellP tz Hr.
rewrite -Eas in Hpos; rewrite -Et in Htol.
have [xt {}Ht] : exists x, real_arg true (i_tol i) x by case: Ht.
have [nm En Hnm] : exists2 nm, readable (i_assume i) = Done nm & i_assume i = Text nm.
  by case: Has Hpos => [->|[->|[->|->]]] // _; eexists.
have [b Eb Hb] : exists2 b, hbits (i_dtype i) = Done b &
    match i_dtype i with Float32 => b = 32%N | Float64 => b = 64%N
    | Float128 => b = 128%N | OtherDtype => False end.
  by case: Ed => ->; eexists.
have [s Es Hs] : exists2 s, hprint_summary trunc i = Done s & hshows i s.
  rewrite /hprint_summary (realE Hrt) /= (realE Hc) /= En /= Eb /= (realE Ht) /= Ece /=.
  rewrite (integerE trunc Hlo) /= (realE Ha) /= (integerE trunc Hhi) /= (realE Ho) /=.
  rewrite (integerE trunc Hnt) /=; eexists; first by [].
  split=> //=; first by split=> //; apply: percentP.
  split=> //=.
  - by split=> //; [exists xr|exists xc] => //; apply: percentP.
  - by split=> //; constructor.
by exists s => // info; rewrite E Es.
Qed.

(** assume_matrix='pos' is documented and accepted; with verbose=True the call
    raises ValueError after the whole computation. *)
Theorem C72_pos_refuted (env : environment R) (a : harguments R)
    (run : pyval -> pyval -> hrun R) printed value i info :
  h_assume a = Text Pos ->
  hutchinson trunc env (hset false true a) run = Done (printed, (value, Some i)) ->
  hutchinson trunc env (hset true info a) run = Error ErrValue.
Proof.
move=> Hpos /hutchinsonE [_ -> [_ Eas _ _ _] _ [[xr Hrt] [xc Hc] _ _ _]].
by rewrite /hprint_summary (realE Hrt) /= (realE Hc) /= Eas Hpos.
Qed.

(** solver_tol=None is accepted; with verbose=True the call raises. *)
Theorem C72_solver_tol_refuted (env : environment R) (a : harguments R)
    (run : pyval -> pyval -> hrun R) printed value i info :
  h_tol a = PNone R -> h_assume a <> Text Pos ->
  hutchinson trunc env (hset false true a) run = Done (printed, (value, Some i)) ->
  hutchinson trunc env (hset true info a) run = Error ErrType.
Proof.
move=> Htol Hpos /hutchinsonE [_ -> [_ Eas Et _ Ed] _ [[xr Hrt] [xc Hc] _ _ Has]].
rewrite /hprint_summary (realE Hrt) /= (realE Hc) /= Et Htol.
rewrite -Eas in Hpos.
by case: Has Hpos => [->|[->|[->|->]]] // _; case: Ed => ->.
Qed.

(** The outlier significance level is followed by a percent sign without being
    multiplied by 100. *)
Theorem C72_hutchinson_outlier_refuted (env : environment R) (a : harguments R)
    (run : pyval -> pyval -> hrun R) s value i x :
  hutchinson trunc env (hset true true a) run = Done (Some s, (value, Some i)) ->
  real_arg true (h_outlier a) (Fin x) -> x <> 0 ->
  s_outlier (hs_common s) = Fin x /\ ~ shows_outlier (h_outlier a) (hs_common s).
Proof.
rewrite /hutchinson.
case: (hcheck_arguments _) => [[ar sq]|] //=; case: (index _ 1) => [n|] //=.
case: (clip _ (h_max a)) => [hi|] //=; case: (clip _ (h_min a)) => [lo|] //=.
case: (threads_or _ _) => [th|] //=; case: (computed _) => //=.
set j := HInfo _ _ _ _ _ _ _ _ _ _ _ _ _ _ _ _ _ _ _ _ _ _; rewrite /hprint_summary.
case: (real (i_rtol j)) => //= rt; case: (real (i_confidence j)) => //= cf.
case: (readable _) => //= nm; case: (hbits _) => //= b; case: (real (i_tol j)) => //= tl.
case: (exponent_cell _ _) => //= ex; case: (integer _ (i_min j)) => //= l.
case: (real (i_atol j)) => //= at_; case: (integer _ (i_max j)) => //= h.
case Eo: (real (i_outlier j)) => [o|] //=; case: (integer _ (i_threads j)) => //= nt [<- _ _] Hx x0.
move: Eo; rewrite /j /= (realE Hx) => -[<-]; split=> //.
case=> y Hy; have := real_number Hy; rewrite (real_number Hx) => -[<-] /= E.
have : 99%:R * x = 0.
  by apply: (@addrI _ x); rewrite addr0 [RHS]E -{1}[x]mul1r -mulrDl -(natrD _ 1 99).
by move/eqP; rewrite mulf_eq0 pnatr_eq0 /= => /eqP.
Qed.

End Hutchinson.

(** ** The hypotheses are met *)
Section Cases.
Notation F := [rcfType of realalg].

(** A function that is the identity on integers. *)
Definition case_trunc (r : realalg) : int :=
  head 0 [seq z <- [seq Posz k - (Num.bound `|r|)%:Z | k <- iota 0 (Num.bound `|r| + Num.bound `|r|).+1]
         | z%:~R == r].

Lemma case_trunc_int (z : int) : case_trunc z%:~R = z.
Proof.
rewrite /case_trunc; set b := Num.bound _.
have Hb : `|z| < b%:Z.
  have := archi_boundP (normr_ge0 (z%:~R : realalg)).
  by rewrite -/b -intr_norm -[b%:R]/((b%:Z)%:~R) ltr_int.
set s := [seq Posz k - b%:Z | k <- _].
have zs : z \in s.
  by apply/mapP; exists (absz (z + b%:Z)); [rewrite mem_iota|]; move: Hb; lia.
have -> : [seq y <- s | y%:~R == z%:~R :> F] = [seq y <- s | y == z].
  by apply: eq_filter => y; rewrite eqr_int.
have : z \in [seq y <- s | y == z] by rewrite mem_filter eqxx.
have : all (pred1 z) [seq y <- s | y == z] by apply: filter_all.
by case: [seq y <- s | y == z] => [|y ys] //= /andP [/eqP -> _].
Qed.

Definition case_env : environment F :=
  Environment 4 (fun=> Fin 1) id (Fin 3%:R) (Fin 2%:R) (Fin 1) 0 0 0.

Definition case_run (q : nat) : report F :=
  Report (nseq q (Fin 7%:R)) (nseq q (Fin 1)) (nseq q 2%N) [::] [::] (nseq q 30%N)
    (nseq q true) true.

(** An affine matrix function at two parameters. *)
Example C72_slq_case :
  let a := default_arguments (PFloat (Fin (3%:R : F))) (Fin (2%:R^-1 : F)) in
  let p := FlatList [:: Fin (5%:R : F); Fin 6%:R] in
  [/\ (forall z : int, case_trunc z%:~R = z) /\ keeps_integers (e_fl case_env),
      valid_view p /\ given p = Some [:: Fin (5%:R : F); Fin 6%:R],
      forall q, report_sizes (case_run q) q,
      exists r, finite_number (exponent a) r
    & exists c i, slq case_trunc case_env Float64 1 (set_verbose false a) p case_run =
        Done (None, (Many [:: Fin 7%:R; Fin 7%:R], (c, i)))].
Proof.
move=> a p; split=> //.
- by split=> //; apply: case_trunc_int.
- by move=> q; split; rewrite size_nseq.
- by exists 3%:R; constructor; constructor.
rewrite /slq.
have -> : threads_or (e_threads case_env) (num_threads (set_verbose false a)) = Done (PInt F 4).
  by rewrite /threads_or /= ltr01.
have Ec : check_arguments (with_threads (PInt F 4) (set_verbose false a)) =
    Ok (PFloat (Fin 0), PFloat (Fin 1)).
  have [|[_ H] Hr] := @C32_accepted_iff_partial F (with_threads (PInt F 4) (set_verbose false a)).
    by split.
  have [|r Er] := H.
    split=> //.
    - by split; eexists.
    - by exists 10, 50; split=> //; constructor.
    - split; [by left|right|by left|].
        by exists (Fin 1); [constructor|rewrite /= ler01].
      exists 2%:R^-1, 0; split; try by constructor.
        exact: half01.
      by rewrite lexx subr_ge0; case/andP: (half01 F).
    - split; [|by left| |].
      + by exists 20, 0; split=> //; constructor.
      + by exists 4 => //; constructor.
      + by exists 0 => //; constructor.
  by have [H1 _ _ H2] := Hr _ Er; rewrite Er (surjective_pairing r) H1 // H2.
have Ef : find_num_inquiries (e_fl case_env) 1 2 = Ok 2%N.
  by rewrite /find_num_inquiries (@py_int_divE id 2 1 (fun _ _ => erefl) (@small_size 2 isT)).
have bindD (S T : Type) (x : S) (f : S -> result T) : bind (Done x) f = f x by [].
have liftO (S : Type) (x : S) : lift (Ok x) = Done x by [].
have -> : get_operator_parameters p = Ok (Array1 [:: Fin (5%:R : F); Fin 6%:R] 0 1 2, 2%N) by [].
rewrite bindD liftO bindD Ef liftO bindD Ec liftO bindD.
by eexists; eexists.
Qed.

(** A 3 x 3 array, with defaults. *)
Example C72_hutchinson_case :
  let A := DenseArg [:: 3; 3]%N Float64 in
  let a := hdefault A A (PNone F) in
  let run := fun _ _ : pyval F => HRun (Fin 5%:R) (Fin 1) 0 3 true in
  [/\ exists r, finite_number (h_exponent a) r, h_assume a <> Text Pos, h_tol a <> PNone F,
      hno_nan a /\ two_dimensional a /\ hwell_formed a
    & exists i, hutchinson case_trunc case_env (hset false true a) run =
        Done (None, (Fin 5%:R, Some i))].
Proof.
move=> A a run.
have Hw : hwell_formed (hset false true a).
  have [H1 H2 H3 H4 H5] : hwell_formed a.
    by apply: (@hdefault_well_formed _ _ _ _ 3 3); [exists Float64|exists Float64|left].
  by split=> //; case: H2 => h1 h2 h3 h4 h5; split=> //; eexists.
have two : two_dimensional a by move=> s d [|[|]] // [<-].
split=> //.
- by exists 1%:~R; apply: fn_arg; exact: (@ra_int F true 1).
- split=> //; split=> //.
  by apply: (@hdefault_well_formed _ _ _ _ 3 3); [exists Float64|exists Float64|left].
have [r Er] : exists r, hcheck_arguments (hset false true a) = Done r.
  by apply: accepted.
rewrite /hutchinson Er; case: r Er => ar sq Er.
have bindD (S T : Type) (x : S) (f : S -> result T) : bind (Done x) f = f x by [].
have cl z : exists w, clip 3 (PInt F z) = Done w by eexists.
have [hi Ehi] := cl 50; have [lo Elo] := cl 10.
rewrite bindD (_ : index _ 1 = Done 3%N) // bindD [h_max _]/= Ehi bindD [h_min _]/= Elo bindD.
rewrite /threads_or /= ltr01 /=.
by eexists.
Qed.
End Cases.

Definition C72_assumptions :=
  (@C72_slq_partial, @C72_outlier_refuted, @C72_scalar_refuted, @C72_exponent_refuted,
   @C72_hutchinson_partial, @C72_pos_refuted, @C72_solver_tol_refuted,
   @C72_hutchinson_outlier_refuted).
Print Assumptions C72_assumptions.
Definition C73_assumptions :=
  (@C73_accepted_iff_partial, @C73_exponent_refuted, @C73_columns_refuted, @C73_nan_refuted,
   @C73_negative_threads_refuted).
Print Assumptions C73_assumptions.
