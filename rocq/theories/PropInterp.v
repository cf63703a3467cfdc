(** C47: every interpolator that could be built takes the exact values at its
    interpolation points and at t = 0. *)
Require Import Reals Lra.
From mathcomp Require Import all_ssreflect all_algebra zify.
From Verif Require Import RealField InterpModel.
Set Implicit Arguments.
Unset Strict Implicit.
Unset Printing Implicit Defensive.
Import Order.TTheory GRing.Theory Num.Theory.
Local Open Scope ring_scope.

(** ** Specification: [I] has the value of [f] at every point of [ti] and at 0 *)
Definition passes_through (f I : R -> res R) (ti : seq R) : Prop :=
  forall t, t \in 0 :: ti -> exists v, f t = Ok v /\ I t = Ok v.

(** ** Lemmas *)
Lemma bind_ok T U (r : res T) (k : T -> res U) y :
  bind r k = Ok y -> exists2 x, r = Ok x & k x = Ok y.
Proof. by case: r => [x|e] //= H; exists x. Qed.

Local Notation bindP := (@bind_ok _ _ _ _ _).

Lemma guard_ok T b e (x y : T) : guard b e x = Ok y -> ~~ b /\ x = y.
Proof. by rewrite /guard; case: b => // [[->]]. Qed.

Local Notation guardP := (@guard_ok _ _ _ _ _).

Lemma guardF T (b : bool) e (x : T) : ~~ b -> guard b e x = Ok x.
Proof. by rewrite /guard => /negbTE ->. Qed.

Lemma mapM_ok T U (f : T -> res U) s ys x0 y0 : mapM f s = Ok ys ->
  size ys = size s /\ forall k, (k < size s)%N -> f (nth x0 s k) = Ok (nth y0 ys k).
Proof.
elim: s ys => [|x s IH] ys /=; first by move=> [<-]; split.
move=> /bindP [y Hy] /= /bindP [l /IH [Es Hs]] /= [<-] /=; split; first by rewrite /= Es.
by case=> [|k] //= Hk; apply: Hs.
Qed.

Lemma mapM_total T U (f : T -> res U) s : (forall x, List.In x s -> exists y, f x = Ok y) ->
  exists ys, mapM f s = Ok ys.
Proof.
elim: s => [|x s IH] H /=; first by exists [::].
have [y ->] := H x (or_introl erefl). have [ys ->] := IH (fun z Hz => H z (or_intror Hz)).
by exists (y :: ys).
Qed.

Lemma solve_ok q (C : 'M[R]_q) b w : solve C b = Ok w -> C *m w = b.
Proof.
by rewrite /solve; case: ifP => // U [<-]; rewrite mulmxA mulmxV // mul1mx.
Qed.

(** Row i of a solved system *)
Lemma solve_row q (C : 'M[R]_q) b w (i : 'I_q) : solve C b = Ok w ->
  \sum_(j < q) C i j * w j 0 = b i 0.
Proof. by move=> /solve_ok <-; rewrite mxE. Qed.

Lemma some_points T (ti : seq R) (r : res T) x :
  (if ti is [::] then Raise ValueError else r) = Ok x -> r = Ok x.
Proof. by case: ti. Qed.
Local Notation some_pointsP := (@some_points _ _ _ _).

Section C47.
Variables (n : nat) (sch : 'M[R]_n -> res R).
Variables (A : 'M[R]_n) (B : option 'M[R]_n).
Local Notation base := (base sch A B).
Local Notation eval := (eval sch A B).

Lemma eval0 : eval 0 = sch A.
Proof. by rewrite /InterpModel.eval scale0r addr0. Qed.

Lemma base_ok ti P : base ti = Ok P -> exists2 sA, sch A = Ok sA &
  [/\ norm_B sch B = Ok (schatten_B P), schatten_B P != 0, tau0 P = sA / schatten_B P, t_i P = ti &
   [/\ scale_t P = find_scale ti, size (tau_i P) = size ti &
   forall k, (k < size ti)%N -> eval ti`_k = Ok ((tau_i P)`_k * schatten_B P)]].
Proof.
move=> /bindP [sA HA] /bindP [sB HB] /bindP [x /guardP [NB <-]].
move=> /bindP [l /(mapM_ok 0 0) [Es Hl]] /= [<-] /=; exists sA => //.
rewrite size_map; split=> //; split=> // k Hk.
by rewrite (nth_map 0) ?Es // divfK // Hl.
Qed.

(** The common form of the conclusion: [tau t] is the normalised value *)
Lemma passesI ti P (I : R -> res R) sA : base ti = Ok P -> sch A = Ok sA ->
  I 0 = Ok (tau0 P * schatten_B P) ->
  (forall k, (k < size ti)%N -> I ti`_k = Ok ((tau_i P)`_k * schatten_B P)) ->
  passes_through eval I ti.
Proof.
move=> /base_ok [sA' HA [HB NB Et0 _ [_ _ Hk]]] HA' I0 Ik t; rewrite HA in HA'.
case: HA' => ?; subst sA'. rewrite inE => /orP [/eqP ->|].
  by exists sA; rewrite eval0 I0 Et0 divfK.
move=> /(nthP 0) [k Hks <-]. by exists ((tau_i P)`_k * schatten_B P); rewrite Hk // Ik.
Qed.

(** ** C47 for kind='ext' and kind='mbf' *)
Theorem C47_ext ti sA I : sch A = Ok sA -> (forall t, t \in ti -> exists v, eval t = Ok v) ->
  ext sch A B = Ok I -> passes_through eval I ti.
Proof.
move=> HA H [<-] t; rewrite inE => /orP [/eqP ->|/H [v Hv]]; last by exists v.
by rewrite eval0 HA; exists sA.
Qed.

Theorem C47_mbf ti I : (forall M v, sch M = Ok v -> 0 <= v) -> (forall t, t \in ti -> t != 0) ->
  mbf sch A B ti = Ok I -> passes_through eval I ti.
Proof.
move=> Hpos Hti /bindP [P HP] /bindP [t1 Ht1] /bindP [s1 Hs1] /= [<-].
have [sA HA [HB NB Et0 _ [_ Es Hk]]] := base_ok HP.
have Bge : 0 <= schatten_B P.
  move: HB; rewrite /norm_B; case: B => [B'|] => [/Hpos //|[<-]]; exact: ler01.
have t1N : t1 != 0.
  move: Ht1 Hti; case: (ti) => [|t [|? ?]] //=.
    by move=> /guardP [N <-] _; rewrite mul1r invr_eq0.
  by case=> -> /(_ t1); rewrite inE eqxx => ->.
have tau0ge : 0 <= tau0 P by rewrite Et0 divr_ge0 // (Hpos _ _ HA).
apply: (passesI HP HA).
  rewrite /mbf_interpolate guardF //= mul0r mulr0 expr0n /= add0r add0r.
  rewrite guardF /=; last by rewrite -leNgt sqr_ge0.
  by rewrite sqrtr_sqr ger0_norm.
move=> k Hks. have k0 : k = 0%N.
  by move: Ht1 Hks; case: (ti) => [|t [|? ?]] //= _; case: k.
subst k; have E1 : ti`_0 = t1.
  by move: Ht1 Hks; case: (ti) => [|t [|? ?]] //= [].
have := Hk _ Hks; rewrite E1 => H1; rewrite H1 in Hs1; case: Hs1 => <-.
rewrite mulfK // /mbf_interpolate guardF //= divff // mulr1.
have -> : t1 ^+ 2 + ((tau_i P)`_0 ^+ 2 - tau0 P ^+ 2 - t1 ^+ 2) + tau0 P ^+ 2 = (tau_i P)`_0 ^+ 2.
  by rewrite addrC addrA addrC !addrA [_ - _ - _]addrAC subrK addrC [t1 ^+ 2 + _]addrC subrK.
rewrite guardF /=; last by rewrite -leNgt sqr_ge0.
rewrite sqrtr_sqr ger0_norm //.
have := Hpos _ _ H1. by rewrite pmulr_lge0 // lt_def NB.
Qed.

(** ** C47 for kind='imbf' *)
Lemma phi0 i : phi i 0 = 0.
Proof. by rewrite /phi ltxx. Qed.

Lemma basis0 b j : basis b j 0 = 0.
Proof.
by case: b => /=; rewrite ?phi0 // big1 // => i _; rewrite phi0 mulr0.
Qed.

Theorem C47_imbf b ti I : imbf sch A B b ti = Ok I -> passes_through eval I ti.
Proof.
rewrite /imbf. set rest := bind (InterpModel.base _ _ _ _) _.
case: ti @rest => [//|t0 s] /=. set ti := t0 :: s.
move=> /bindP [P HP] /bindP [_ _] /bindP [_ /guardP [Hneg _]].
have [sA HA [_ _ _ Eti [_ _ _]]] := base_ok HP.
have nneg k : (k < size ti)%N -> ~~ (ti`_k < 0) 
  by move=> Hk; apply: contra Hneg => Hlt; change (has (fun t : R => t < 0) ti); apply/hasP; exists ti`_k => //; apply: mem_nth.
case: b => [|/bindP [_ /guardP [Hq _]]|] /bindP [w Hw] /= [<-]; apply: (passesI HP HA).
- rewrite /imbf_interpolate guardF ?ltxx // big1 ?addr0 // => j _.
  by rewrite mul0r basis0 mulr0.
- move=> k Hk. rewrite /imbf_interpolate guardF ?nneg //. congr (Ok (_ * _)).
  have := solve_row (Ordinal Hk) Hw; rewrite mxE /= => E.
  rewrite (_ : \sum_(j < _) _ = (tau_i P)`_k - tau0 P - ti`_k); last first.
    rewrite -E; apply: eq_bigr => j _. by rewrite !mxE divr1 mulrC.
  by rewrite -addrA subrK addrC subrK.
- rewrite /imbf_interpolate guardF ?ltxx // big1 ?addr0 // => j _.
  by rewrite mul0r basis0 mulr0.
- move=> k Hk. rewrite /imbf_interpolate guardF ?nneg //. congr (Ok (_ * _)).
  have Hk' : (k < (size s).+2)%N by apply: leq_trans Hk _.
  have := solve_row (Ordinal Hk') Hw; rewrite mxE /= Hk => E.
  rewrite (_ : \sum_(j < _) _ = (tau_i P)`_k - tau0 P); last first.
    rewrite -E; apply: eq_bigr => j _. by rewrite !mxE /= Hk mulrC.
  by rewrite addrC subrK.
- rewrite /imbf_interpolate guardF ?ltxx // big1 ?addr0 // => j _.
  by rewrite mul0r basis0 mulr0.
- move=> k Hk. rewrite /imbf_interpolate guardF ?nneg //. congr (Ok (_ * _)).
  have := solve_row (Ordinal Hk) Hw; rewrite mxE /= => E.
  rewrite (_ : \sum_(j < _) _ = (tau_i P)`_k - tau0 P - ti`_k); last first.
    rewrite -E; apply: eq_bigr => j _. by rewrite !mxE mulrC.
  by rewrite -addrA subrK addrC subrK.
Qed.

(** With basis_func_type='ortho' nine points are accepted by the check and fail
    in the construction of the matrix; ten points or more fail with a TypeError
    instead of the intended ValueError. *)
Theorem C47_imbf_nine_refuted ti P : base ti = Ok P -> (forall t, t \in ti -> 0 <= t) ->
  (size ti = 9%N -> imbf sch A B Ortho ti = Raise IndexError) /\
  ((9 < size ti)%N -> forall b, b <> NonOrtho -> imbf sch A B b ti = Raise TypeError).
Proof.
move=> HP Hge; split=> [Es|Hs].
  rewrite /imbf; case: ti HP Hge Es => // t s HP Hge Es.
  case: Es => Es; rewrite HP /= /imbf_check guardF Es //.
  rewrite [bind (Ok _) _]/= guardF //.
  apply/negP => Hh; have {Hh} /hasP [x Hx] : has (fun t : R => t < 0) (t :: s) := Hh.
  by apply/negP; rewrite -leNgt; apply: Hge.
case=> //= _; rewrite /imbf; case: ti HP Hge Hs => // t s HP _ Hs;
by move: Hs => /= Hs; rewrite HP /= /imbf_check /guard /num_basis Hs.
Qed.

(** ** C47 for kind='rpf' *)
Lemma polyval_rev (b : seq R) t :
  polyval (1 :: rev b) t = t ^+ size b + \sum_(0 <= j < size b) b`_j * t ^+ j.
Proof.
rewrite /polyval /= mul0r add0r foldl_rev.
elim: b => [|c b IH] /=; first by rewrite big_geq // addr0 expr0.
rewrite IH big_nat_recl // expr0 mulr1 mulrDl -exprSr -addrA. congr (_ + _).
rewrite addrC. congr (_ + _). rewrite big_distrl. apply: eq_bigr => j _ /=.
by rewrite -mulrA -exprSr.
Qed.

Section Rpf.
Variable positive_pole : seq R -> bool.
Hypothesis poles : finds_poles positive_pole.

Lemma enum_nth q (x : 'cV[R]_q) (j : 'I_q) : [seq x j' 0 | j' <- enum 'I_q]`_j = x j 0.
Proof. by rewrite (nth_map j) ?size_enum_ord // nth_ord_enum. Qed.

(** A solved row says that the fraction has the right value *)
Lemma rpf_row q (tau0 ti taui : R) (x : seq R) : (0 < q)%N -> size x = (2 * q)%N -> tau0 != 0 ->
  \sum_(0 <= j < 2 * q) rpf_entry q tau0 ti taui j * x`_j = rpf_rhs q ti taui ->
  polyval (1 :: rev (take q.+1 x)) ti =
  taui * polyval (1 :: rev (x`_0 / tau0 :: drop q.+1 x)) ti.
Proof.
move=> q0 Ex N0. rewrite !polyval_rev /= size_drop size_takel ?Ex; last by lia.
have -> : (2 * q - q.+1).+1 = q by lia.
rewrite (@big_cat_nat _ _ _ q.+1) //=; last by lia.
rewrite [X in X + _ = _]big_nat_recl // /rpf_entry /= /rpf_rhs => E.
rewrite [X in _ + X = _]big_nat_recl // !expr0 !mulr1 nth_take //=.
have -> : \sum_(0 <= j < q) (x`_0 / tau0 :: drop q.+1 x)`_j * ti ^+ j =
   x`_0 / tau0 + \sum_(q.+1 <= j < 2 * q) x`_j * ti ^+ (j - q).
  rewrite -{1}(prednK q0) big_nat_recl // expr0 mulr1. congr (_ + _).
  have := big_addn 0 (2 * q) q.+1 xpredT (fun j => x`_j * ti ^+ (j - q)).
  rewrite add0n => ->. have -> : (2 * q - q.+1 = q.-1)%N by lia.
  apply: eq_big_nat => j Hj. rewrite /= nth_drop addnC. congr (_ * ti ^+ _). by lia.
have E1 : \sum_(0 <= j < q) (take q.+1 x)`_j.+1 * ti ^+ j.+1 =
   \sum_(0 <= j < q) (if (j.+1 <= q)%N then ti ^+ j.+1 else - taui * ti ^+ (j.+1 - q)) * x`_j.+1.
  apply: eq_big_nat => j Hj. by rewrite nth_take ?ltnS //= ifT // mulrC.
have E2 : \sum_(q.+1 <= j < 2 * q) (if j == 0%N then 1 - taui / tau0 else
     if (j <= q)%N then ti ^+ j else - taui * ti ^+ (j - q)) * x`_j =
   - taui * \sum_(q.+1 <= j < 2 * q) x`_j * ti ^+ (j - q).
  rewrite big_distrr; apply: eq_big_nat => j Hj /=.
  rewrite ifF; last by lia. rewrite ifF; last by lia. by rewrite -!mulrA [x`_j * _]mulrC.
rewrite E1. rewrite E2 in E. move: E.
set S1 := \sum_(0 <= j < q) _. set S2 := \sum_(_ <= j < _) _.
have -> : (1 - taui / tau0) * x`_0 = x`_0 - taui * (x`_0 / tau0).
  by rewrite mulrBl mul1r mulrAC mulrA.
set u := x`_0 / tau0. move: (x`_0) => x0. rewrite exprS. move: (ti ^+ q) => tq.
toR. match goal with |- @eq _ ?a ?b -> @eq _ ?c ?d => change (@eq R a b -> @eq R c d) end. lra.
Qed.

Theorem C47_rpf ti I : (forall t, t \in ti -> 0 < t) -> rpf sch A B positive_pole ti = Ok I ->
  (forall t, t \in ti -> exists v, eval t = Ok v /\ I t = Ok v) /\
  (forall v, I 0 = Ok v -> sch A = Ok v).
Proof.
move=> Hpos. rewrite /rpf. set rest := bind (InterpModel.base _ _ _ _) _.
case: ti Hpos @rest => [//|t0 s] /=. set ti := t0 :: s.
move=> Hpos /bindP [P HP] /bindP [[nu de] Hfit] /= [<-].
have [sA HA [_ NB Et0 Eti [_ Es Hk]]] := base_ok HP.
move: Hfit. rewrite /fit_rational_poly Eti. set m := size ti. set q := (m %/ 2)%N.
move=> /bindP [_ /guardP [Hodd _]] /bindP [_ /guardP [N0 _]] /bindP [x Hx].
set xs := [seq x j 0 | j <- _]. move=> /guardP [Hp [En Ed]] /=.
have Em : m = (2 * q)%N by rewrite /q; lia.
have q0 : (0 < q)%N by move: Em; rewrite /m /=; lia.
have Exs : size xs = (2 * q)%N by rewrite size_map size_enum_ord.
have xs0 : (take q.+1 xs)`_0 = xs`_0 by rewrite nth_take.
rewrite xs0 in Hp Ed.
have row k : (k < m)%N -> polyval nu ti`_k = (tau_i P)`_k * polyval de ti`_k.
  move=> Hk'. rewrite -En -Ed. apply: rpf_row => //.
  have := solve_row (Ordinal Hk') Hx. rewrite !mxE /= => <-.
  rewrite -Em big_mkord. apply: eq_bigr => j _. by rewrite mxE enum_nth.
split=> [t|v].
  move=> /(nthP 0) [k Hks <-]. exists ((tau_i P)`_k * schatten_B P); split; first exact: Hk.
  have Hd : polyval de ti`_k != 0.
    apply: contra Hp => /eqP Hz. rewrite Ed. apply: poles Hz. apply: Hpos. exact: mem_nth.
  by rewrite guardF //= row // mulfK.
move=> /bindP [tau /guardP [Hd <-]] /= [<-]. rewrite HA; congr Ok.
have z0 (p : seq R) : polyval (1 :: rev p) 0 = (0 < size p)%N%:R * p`_0 + (size p == 0)%N%:R.
  rewrite polyval_rev; case: p => [|c p] /=; first by rewrite big_geq // expr0 mul0r addrC.
  rewrite big_nat_recl // expr0 mulr1 mul1r exprS mul0r add0r addr0 big1 ?addr0 // => j _.
  by rewrite exprS mul0r mulr0.
move: Hd. rewrite -En -Ed !z0 size_takel ?Exs; last by lia.
rewrite /= !mul1r !addr0 xs0 => Hd.
rewrite -[sA](divfK NB) -Et0. congr (_ * _).
move: Hd; rewrite mulf_eq0 negb_or => /andP [Hx0 _]. by rewrite invfM invrK mulrA divff // mul1r.
Qed.
End Rpf.

(** ** C47 for kind='crf' and kind='spl' *)
Lemma to_interval_ok s t x : to_interval s t = Ok x -> s != 0 /\ x = (t / s - 1) / (t / s + 1).
Proof. by move=> /bindP [y /guardP [N <-]] /guardP [_ <-]. Qed.

Lemma to_interval0 s : s != 0 -> to_interval s 0 = Ok (-1).
Proof.
move=> N. rewrite /to_interval guardF //= mul0r guardF; last by rewrite add0r oner_eq0.
by rewrite !add0r divr1.
Qed.

Lemma unratioK ft tau0 t tau y : ratio ft tau0 t tau = Ok y -> unratio ft tau0 t y = tau.
Proof.
case: ft => /= /guardP [N <-]; first by rewrite subrK divfK.
by rewrite subrK divfK // subrK.
Qed.

Lemma unratio0 ft tau0 y : (ft = Type1 -> y = 0) -> unratio ft tau0 0 y = tau0.
Proof. case: ft => /= H; first by rewrite H // add0r mul1r addr0.
by rewrite mulr0 add0r. Qed.

Lemma ratios_ok ft P yi : ratios ft P = Ok yi -> size (tau_i P) = size (t_i P) ->
  size yi = size (t_i P) /\
  forall k, (k < size (t_i P))%N -> ratio ft (tau0 P) (t_i P)`_k (tau_i P)`_k = Ok yi`_k.
Proof.
move=> /(mapM_ok (0, 0) 0). rewrite size_zip => [[Ey Hy]] Es. rewrite Es minnn in Ey Hy.
by split=> // k Hk; have := Hy _ Hk; rewrite nth_zip.
Qed.

(** For a positive scale, in particular for the one that is found by the
    search, which is an absolute value *)
Theorem C47_crf ft scale ti I : 0 < scale -> crf sch A B ft scale ti = Ok I ->
  passes_through eval I ti.
Proof.
move=> Hs. rewrite /crf. set rest := bind (InterpModel.base _ _ _ _) _.
case: ti @rest => [//|t0 s] /=. set ti := t0 :: s.
move=> /bindP [P HP] /bindP [yi Hyi] /bindP [c Hc] [<-].
have [sA HA [_ NB Et0 Eti [_ Es Hk]]] := base_ok HP.
have [Ey Hy] := ratios_ok Hyi (etrans Es (congr1 size (esym Eti))). rewrite Eti in Ey Hy.
move: Hc => /bindP [xs /(mapM_ok 0 0) [Ex Hx]].
rewrite (ger0_norm (ltW Hs)) in Hx.
set xi := if ft is Type1 then _ else _. set y' := if ft is Type1 then _ else yi.
move=> /bindP [w Hw] /= [Ec].
have val k : (k < size xi)%N -> \sum_(j < c.1) c.2 j * cheb_basis j xi`_k = y'`_k.
  move=> Hk'. have := solve_row (Ordinal Hk') Hw; rewrite mxE /= => <-.
  rewrite -Ec /=. apply: eq_bigr => j _. rewrite !mxE /= mulrC. congr (_ * _).
  by rewrite insubT //= => Hj; congr (w _ 0); apply: val_inj.
have N0 : scale != 0 by rewrite gt_eqF.
apply: (passesI HP HA).
  rewrite /crf_interpolate to_interval0 //=. rewrite unratio0 // => Eft.
  by have := val 0%N; rewrite /xi /y' Eft /= => ->.
move=> k Hks. rewrite /crf_interpolate Hx //=. congr (Ok (_ * _)).
have -> : \sum_(j < c.1) c.2 j * cheb_basis j xs`_k = yi`_k.
  by move: val; rewrite /xi /y'; case: (ft) => [/(_ k.+1)|/(_ k)] /= ->; rewrite ?ltnS ?Ex.
exact: unratioK (Hy _ Hks).
Qed.

Section Spl.
Variable cubic_spline : seq R -> seq R -> res (R -> R).
Hypothesis cubicP : interpolating cubic_spline.

Theorem C47_spl ft ti I : spl sch A B cubic_spline ft ti = Ok I -> passes_through eval I ti.
Proof.
move=> /some_pointsP /bindP [P HP] /bindP [yi Hyi] /bindP [xs /(mapM_ok 0 0) [Ex Hx]].
have [sA HA [_ NB Et0 Eti [_ Es Hk]]] := base_ok HP.
have [Ey Hy] := ratios_ok Hyi (etrans Es (congr1 size (esym Eti))). rewrite Eti in Ey Hy.
set xi := if ft is Type1 then _ else _. set y' := if ft is Type1 then _ else _.
move=> /bindP [f Hf] /= [<-].
have Exy : size xi = size y' by rewrite /xi /y'; case: (ft) => /=; rewrite !size_rcons Ex Ey.
have val := cubicP Hf Exy.
apply: (passesI HP HA).
  rewrite to_interval0 ?oner_eq0 //=. rewrite unratio0 // => Eft.
  by have := val 0%N; rewrite /xi /y' Eft /= => ->.
move=> k Hks. rewrite Hx //=. congr (Ok (_ * _)).
have -> : f xs`_k = yi`_k.
  move: val; rewrite /xi /y'; case: (ft) => [/(_ k.+1)|/(_ k)] /=;
  rewrite !nth_rcons !size_rcons Ex Ey Hks => -> //; rewrite ?ltnS ?leqW // ltnW //.
exact: unratioK (Hy _ Hks).
Qed.
End Spl.

(** ** C47 for kind='rbf' *)
Lemma foldl_min_le (s : seq R) x0 x : x \in x0 :: s -> foldl Num.min x0 s <= x.
Proof.
elim: s x0 x => [|y s IH] x0 x /=; first by rewrite inE => /eqP ->.
rewrite !inE => /or3P [/eqP ->|/eqP ->|H].
- by apply: le_trans (IH (Num.min x0 y) (Num.min x0 y) (mem_head _ _)) _; rewrite le_minl lexx.
- by apply: le_trans (IH (Num.min x0 y) (Num.min x0 y) (mem_head _ _)) _; rewrite le_minl lexx orbT.
- by apply: IH; rewrite inE H orbT.
Qed.

Lemma foldl_max_ge (s : seq R) x0 x : x \in x0 :: s -> x <= foldl Num.max x0 s.
Proof.
elim: s x0 x => [|y s IH] x0 x /=; first by rewrite inE => /eqP ->.
rewrite !inE => /or3P [/eqP ->|/eqP ->|H].
- by apply: le_trans (IH (Num.max x0 y) (Num.max x0 y) (mem_head _ _)); rewrite le_maxr lexx.
- by apply: le_trans (IH (Num.max x0 y) (Num.max x0 y) (mem_head _ _)); rewrite le_maxr lexx orbT.
- by apply: IH; rewrite inE H orbT.
Qed.

Lemma low_le (xi : seq R) x : 0 <= mean_step xi -> x \in xi -> low_threshold xi <= x.
Proof.
move=> Hd Hx. have Hl : least xi <= x by apply: foldl_min_le; rewrite inE Hx orbT.
rewrite /low_threshold; case: ifP => [_|/negbT]; last first.
  by rewrite -ltNge => /ltW /le_trans; apply.
by apply: le_trans Hl; rewrite ler_subl_addr ler_addl.
Qed.

Lemma high_ge (xi : seq R) x : 0 <= mean_step xi -> x \in xi -> x <= high_threshold xi.
Proof.
move=> Hd Hx. have Hl : x <= largest xi by apply: foldl_max_ge; rewrite inE Hx orbT.
rewrite /high_threshold; case: ifP => [_|/negbT]; last first.
  by rewrite -ltNge => /ltW; apply: le_trans.
by apply: le_trans Hl _; rewrite ler_addl.
Qed.

Lemma ln_lt (x y : R) : 0 < x -> x < y -> ln x < ln y.
Proof. by move=> /RltP Hx /RltP Hy; apply/RltP/ln_increasing. Qed.

Lemma ln10_gt0 : 0 < ln (IZR 10).
Proof.
apply/RltP. have -> : (0 : R) = ln (IZR 1) by rewrite ln_1.
apply: ln_increasing; lra.
Qed.

Lemma log10_posE t x : log10_pos t = Ok x -> 0 < t /\ x = ln t / ln (IZR 10).
Proof.
move=> /guardP [H <-]; rewrite ltNge; split=> //. by rewrite RdivE // gt_eqF // ln10_gt0.
Qed.

Lemma log10_pos_log10 t x : log10_pos t = Ok x -> log10 t = Ok (Some x).
Proof.
move=> H; have [Ht _] := log10_posE H. move: H => /guardP [_ <-].
by rewrite /log10 guardF ?(gt_eqF Ht) // -leNgt ltW.
Qed.

Lemma mean_step_ge0 ti xi : mapM log10_pos ti = Ok xi -> sorted <%R ti -> 0 <= mean_step xi.
Proof.
move=> /(mapM_ok 0 0) [Ex Hx] Hs. rewrite /mean_step; case: ifP => H1; last exact: ler01.
rewrite divr_ge0 ?ler0n // subr_ge0. rewrite -nth0 -nth_last Ex.
have Hn : ((size ti).-1 < size ti)%N by rewrite -Ex; case: (size xi) H1.
have [H0p E0] := log10_posE (Hx 0%N (leq_ltn_trans (leq0n _) Hn)).
have [_ E1] := log10_posE (Hx _ Hn).
rewrite E0 E1 ler_pmul2r ?invr_gt0 ?ln10_gt0 //. apply/ltW/ln_lt => //.
rewrite Ex in H1. apply: (sorted_ltn_nth lt_trans 0 Hs) => //=; first by rewrite inE; apply: ltnW.
by case: (size ti) H1 => [|[]].
Qed.

Section RbfC.
Variables cubic_spline rbf_gaussian : seq R -> seq R -> res (R -> R).
Hypothesis cubicP : interpolating cubic_spline.
Hypothesis gaussP : interpolating rbf_gaussian.

Theorem C47_rbf ft ti I : sorted <%R ti ->
  rbf sch A B cubic_spline rbf_gaussian ft ti = Ok I -> passes_through eval I ti.
Proof.
move=> Hsort /some_pointsP /bindP [P HP] /bindP [xi Hxi].
have [Ex Hx] := mapM_ok 0 0 Hxi.
have [sA HA [_ NB Et0 Eti [_ Es Hk]]] := base_ok HP.
have Hd := mean_step_ge0 Hxi Hsort.
move=> /bindP [yi /(mapM_ok (0, 0) 0)]. rewrite Eti size_zip Es minnn => [[Ey Hy]].
have {}Hy k : (k < size ti)%N -> match ft with
    | Type1 => Ok ((tau_i P)`_k - tau0 P - ti`_k)
    | Type2 => ratio Type1 (tau0 P) ti`_k (tau_i P)`_k end = Ok yi`_k.
  by move=> /Hy; rewrite nth_zip ?Es.
move=> /bindP [f Hf] /= [<-].
have val k : (k < size ti)%N -> f xi`_k = yi`_k.
  move=> Hks; move: Hf; case: (ft) => Hf.
    by apply: cubicP Hf _ _ _; rewrite ?Ey ?Ex.
  have := gaussP Hf _ (k := k.+3) _. rewrite !size_cat /= Ex Ey => /(_ erefl).
  by rewrite !nth_cat Ex Ey Hks; apply; rewrite !addSn !ltnS add0n ltn_addr.
apply: (passesI HP HA).
  rewrite /log10 guardF ?ltxx //= eqxx. by case: (ft); rewrite ?addr0 ?add0r // mul1r.
move=> k Hks. rewrite (log10_pos_log10 (Hx _ Hks)) /=.
have Hin : xi`_k \in xi by rewrite mem_nth // Ex.
rewrite !ltNge low_le // high_ge //= val //. congr (Ok (_ * _)).
move: (Hy _ Hks); case: (ft) => [[<-]|/unratioK //].
by rewrite -addrA addrC -[_ - _ - _]addrA addrC -opprD subrK.
Qed.
End RbfC.

(** ** Where the property does not hold *)

Lemma solve1 (C : 'M[R]_1) b : C 0 0 != 0 -> solve C b = Ok (const_mx (b 0 0 / C 0 0)).
Proof.
move=> N. have U : C \in unitmx by rewrite unitmxE det_mx11 unitfE.
rewrite /solve U; congr Ok. apply: (can_inj (mulKmx U)). rewrite mulKVmx //.
apply/matrixP => i j; rewrite !ord1 mxE big_ord_recl big_ord0 addr0 !mxE mulrC divfK //.
Qed.

(** The system of 'crf' is set up with the absolute value of the scale that the
    user gives, and the interpolant is evaluated with the scale itself. *)
Theorem C47_crf_negative_scale_refuted sA sB s t v : sch A = Ok sA -> norm_B sch B = Ok sB -> sB != 0 ->
  0 < s -> 0 < t -> t != s -> eval t = Ok v -> v != sA + t * sB ->
  exists I, crf sch A B Type2 (- s) [:: t] = Ok I /\ I t <> eval t.
Proof.
move=> HA HB NB Hs Ht Hts Hv Hne.
have N0 : s != 0 by rewrite gt_eqF. have Nt : t != 0 by rewrite gt_eqF.
have Nts : t + s != 0 by rewrite gt_eqF // addr_gt0.
have Nd : t - s != 0 by rewrite subr_eq0.
have E1 : t / s + 1 = (t + s) / s by rewrite mulrDl divff.
have E2 : t / s - 1 = (t - s) / s by rewrite mulrBl divff.
have F1 : t / - s + 1 = (s - t) / s by rewrite invrN mulrN mulrBl divff // addrC.
have F2 : t / - s - 1 = - ((t + s) / s) by rewrite invrN mulrN mulrDl divff // opprD.
have X : to_interval `|- s| t = Ok ((t - s) / (t + s)).
  rewrite normrN gtr0_norm // /to_interval guardF //= guardF; last by rewrite E1 mulf_neq0 ?invr_eq0.
  by rewrite E1 E2 -mulf_div divff ?mulr1 // invr_eq0.
have X' : to_interval (- s) t = Ok ((t + s) / (t - s)).
  rewrite /to_interval guardF ?oppr_eq0 //= guardF; last first.
    by rewrite F1 mulf_neq0 ?invr_eq0 // subr_eq0 eq_sym.
  by rewrite F1 F2 -mulNr -mulf_div divff ?mulr1 ?invr_eq0 // -[s - t]opprB invrN mulrNN.
set x := (t - s) / (t + s) in X. set tau := v / sB. set t0 := sA / sB.
set y := (tau - t0) / t - 1.
have c0 : cheb_basis 0 x = s / (t + s).
  rewrite /cheb_basis /eval_chebyt /=.
  have -> : 1 - x = (t + s - (t - s)) / (t + s) by rewrite mulrBl divff.
  have -> : t + s - (t - s) = 2%:R * s by Rring.
  by rewrite !mulrA mulVf ?pnatr_eq0 // mul1r.
have Nc : cheb_basis 0 x != 0 by rewrite c0 mulf_neq0 ?invr_eq0.
rewrite /crf /InterpModel.base HA HB /= guardF //= Hv /= /ratios /= guardF //= /linear_system /= X /=.
rewrite solve1 ?mxE //=. eexists; split; first by reflexivity.
rewrite /crf_interpolate X' /= big_ord_recl big_ord0 addr0 insubT // !mxE /= => [[E]].
have {}E : - y * ((t + s) / (t - s)) = y.
  apply: (addIr 1); apply: (mulIf Nt); apply: (addIr t0); apply: (mulIf NB).
  rewrite [in RHS]/y subrK divfK // subrK divfK // -[RHS]E. congr ((( _ + 1) * _ + _) * _).
  rewrite -/x -/y c0 /cheb_basis /eval_chebyt /=.
  have -> : 2%:R^-1 * (1 - (t + s) / (t - s)) = - (s / (t - s)).
    have -> : 1 - (t + s) / (t - s) = (t - s - (t + s)) / (t - s) by rewrite [RHS]mulrBl divff.
    have -> : t - s - (t + s) = 2%:R * (- s) by Rring.
    by rewrite !mulrA mulVf ?pnatr_eq0 // mul1r mulNr.
  by rewrite mulNr mulrN; congr (- _); rewrite invf_div -[RHS]mulrA; congr (_ * _); rewrite [RHS]mulrA divfK.
have y0 : y != 0.
  apply: contra Hne => /eqP y0. rewrite -[v](divfK NB) -/tau.
  have -> : tau = t0 + t.
    by move/eqP: y0; rewrite subr_eq0 => /eqP E'; rewrite -[tau](subrK t0) -[tau - t0](divfK Nt) E' mul1r addrC.
  by rewrite mulrDl divfK.
have : (t + s) / (t - s) = -1.
  by apply: (mulfI y0); rewrite mulrN1 -[in RHS]E mulNr opprK.
move=> /(congr1 (fun z => z * (t - s))); rewrite divfK // mulN1r opprB => /eqP.
by rewrite addrC (inj_eq (addrI _)) -addr_eq0 -mulr2n mulrn_eq0 /= (negbTE Nt).
Qed.

(** With kind='rbf' and points in decreasing order the mean step is negative,
    and the least point falls below the lower threshold: what is returned there
    does not depend on the exact value. *)
Theorem C47_rbf_decreasing_refuted cubic gauss sA sB ti t I : sch A = Ok sA -> norm_B sch B = Ok sB ->
  t \in ti -> (forall u, u \in ti -> t <= u) -> last 0 ti < head 0 ti ->
  ln t / ln (IZR 10) <= - (9%:R / 2%:R) ->
  rbf sch A B cubic gauss Type2 ti = Ok I -> I t = Ok (sA + t * sB).
Proof.
move=> HA HB Ht Hmin Hdec Hlog; rewrite /rbf => /some_pointsP /bindP [P HP].
have [sA' HA' [HB' NB Et0 Eti [_ Es Hk]]] := base_ok HP.
move: HA' HB'; rewrite HA HB => [[?]] [EB]; subst sA'. rewrite EB.
move=> /bindP [xi Hxi] /bindP [yi _] /bindP [f _] /= [<-].
have [Ex Hx] := mapM_ok 0 0 Hxi.
have xP k : (k < size ti)%N -> 0 < ti`_k /\ xi`_k = ln ti`_k / ln (IZR 10).
  by move=> /Hx /log10_posE.
have [i Hi Ei] := nthP 0 Ht.
have L10 := ln10_gt0.
have mono (u v : R) : 0 < u -> u <= v -> ln u / ln (IZR 10) <= ln v / ln (IZR 10).
  move=> Hu; rewrite le_eqVlt => /orP [/eqP -> //|/(ln_lt Hu) H].
  by rewrite ltW // ltr_pmul2r ?invr_gt0.
have [pt xt] := xP i Hi. rewrite Ei in pt xt.
have Hxi' : xi`_i \in xi by rewrite mem_nth // Ex.
have Hleast : least xi = xi`_i.
  apply/le_anti/andP; split; first by apply: foldl_min_le; rewrite inE Hxi' orbT.
  have: forall y, y \in head 0 xi :: xi -> xi`_i <= y.
    move=> y; have -> : (y \in head 0 xi :: xi) = (y \in xi).
      by rewrite inE; case: (xi) Hxi' => // z l _ /=; rewrite inE orbA orbb.
    move=> /(nthP 0) [k]; rewrite Ex => Hk' <-. have [_ ->] := xP k Hk'. rewrite xt.
    by apply: mono => //; apply/Hmin/mem_nth.
  rewrite /least; move: xi`_i (head 0 xi) => c z; elim: (xi) z => [|y l IH] z H /=; first by apply: H; rewrite inE.
  apply: IH => u; rewrite inE => /orP [/eqP ->|Hu]; last by apply: H; rewrite !inE Hu !orbT.
  by rewrite le_minr !H // !inE eqxx ?orbT.
have Hs : (1 < size ti)%N by case: (ti) Hdec => [|z [|? ?]] //=; rewrite ltxx.
have Hneg : mean_step xi < 0.
  have Hp : (0 < (size ti).-1)%N by case: (size ti) Hs => [|[]].
  rewrite /mean_step Ex Hs pmulr_llt0; last by rewrite invr_gt0 ltr0n.
  rewrite subr_lt0 -nth0 -nth_last Ex.
  have Hl : ((size ti).-1 < size ti)%N by case: (size ti) Hs.
  have [_ ->] := xP _ Hl. have [_ ->] := xP 0%N (ltnW Hs).
  rewrite ltr_pmul2r ?invr_gt0 //. apply: ln_lt; first by case: (xP _ Hl).
  by rewrite nth0 nth_last.
have Hlow : xi`_i < low_threshold xi.
  by rewrite /low_threshold Hleast xt Hlog ltr_addl oppr_gt0.
have -> : log10 t = Ok (Some xi`_i) by rewrite -Ei; apply: log10_pos_log10; apply: Hx.
by rewrite /= Hlow /= add0r mul1r mulrDl Et0 divfK.
Qed.

Section Sorted.
Variable cubic_spline : seq R -> seq R -> res (R -> R).
Hypothesis cubicP : needs_increasing cubic_spline.

Lemma to_interval1 (t : R) : 0 <= t -> to_interval 1 t = Ok ((t - 1) / (t + 1)).
Proof.
move=> H. by rewrite /to_interval guardF ?oner_eq0 //= divr1 guardF // gt_eqF // ltr_spaddr ?ltr01.
Qed.

Lemma to_interval_lt (s t : R) : 0 <= s -> 0 <= t ->
  ((s - 1) / (s + 1) < (t - 1) / (t + 1)) = (s < t).
Proof.
move=> Hs Ht.
have D (x : R) : 0 <= x -> (x - 1) / (x + 1) = 1 - 2%:R / (x + 1).
  move=> Hx; have N : x + 1 != 0 by rewrite gt_eqF // ltr_spaddr ?ltr01.
  have -> : x - 1 = (x + 1) - 2%:R by Rring.
  by rewrite mulrBl divff.
have P (x : R) : 0 <= x -> x + 1 \is Num.pos by move=> Hx; rewrite posrE ltr_spaddr ?ltr01.
by rewrite !D // ltr_add2l ltr_opp2 ltr_pmul2l ?ltr0n // (ltf_pinv (P _ Ht) (P _ Hs)) ltr_add2r.
Qed.

(** scipy's CubicSpline wants increasing abscissae, so the points have to be
    given in increasing order; nothing sorts them *)
Theorem C47_spl_unsorted_refuted ft ti : (forall t, t \in ti -> 0 <= t) -> ~~ sorted <%R ti ->
  forall I, spl sch A B cubic_spline ft ti <> Ok I.
Proof.
move=> Hge Hs I /some_pointsP /bindP [P HP] /bindP [yi Hyi] /bindP [xs /(mapM_ok 0 0) [Ex Hx]].
have [sA HA [_ NB Et0 Eti [_ Es Hk]]] := base_ok HP.
have [Ey Hy] := ratios_ok Hyi (etrans Es (congr1 size (esym Eti))). rewrite Eti in Ey Hy.
set xi := if ft is Type1 then _ else _. set y' := if ft is Type1 then _ else _.
move=> /bindP [f Hf] _.
have Exy : size xi = size y' by rewrite /xi /y'; case: (ft) => /=; rewrite !size_rcons Ex Ey.
have [_ Hxi] := proj1 (cubicP Exy) (ex_intro _ f Hf).
move/negP: Hs; apply. have {Hxi} Hxs : sorted <%R xs.
  have : sorted <%R (rcons xs 1) by move: Hxi; rewrite /xi; case: (ft) => //= /path_sorted.
  by rewrite -cats1 => /cat_sorted2 [].
apply/(sortedP 0) => k Hk'. have Hk1 := ltnW Hk'.
rewrite -to_interval_lt; try by apply: Hge; apply: mem_nth.
have := Hx _ Hk1; rewrite to_interval1; last by apply: Hge; apply: mem_nth.
case=> ->. have := Hx _ Hk'; rewrite to_interval1; last by apply: Hge; apply: mem_nth.
case=> ->. by move/(sortedP 0): Hxs; apply; rewrite Ex.
Qed.

(** ... and with increasing positive points it is built *)
Theorem C47_spl_builds ft ti P : base ti = Ok P -> ti != [::] -> 0 <= tau0 P ->
  (forall t, t \in ti -> 0 < t) -> sorted <%R ti -> exists I, spl sch A B cubic_spline ft ti = Ok I.
Proof.
move=> HP Hne Ht0 Hgt Hs. rewrite /spl.
have -> : forall (r : res (R -> res R)), (if ti is [::] then Raise ValueError else r) = r.
  by case: (ti) Hne.
have [sA HA [_ NB Et0 Eti [_ Es Hk]]] := base_ok HP. rewrite HP /=.
have [yi Hyi] : exists yi, ratios ft P = Ok yi.
  apply: mapM_total => u Hu. have {Hu} : u.1 \in ti.
    move: Hu; rewrite Eti. move: (tau_i P) => l. clear -u. elim: (ti) l => [|t s IH] [|x l] //=.
    by case=> [<-|/IH H]; rewrite inE ?eqxx // H orbT.
  by move=> /Hgt Hu; case: (ft) => /=; eexists; rewrite guardF // gt_eqF // ltr_paddl.
have [Ey _] := ratios_ok Hyi (etrans Es (congr1 size (esym Eti))). rewrite Eti in Ey.
rewrite Hyi /=. have Hge t : t \in ti -> 0 <= t by move=> /Hgt /ltW.
have [xs Hxs] : exists xs, mapM (to_interval 1) ti = Ok xs.
  apply: mapM_total => u Hu; eexists; apply: to_interval1. apply: Hge. clear -Hu.
  by elim: (ti) Hu => //= t s IH [<-|/IH H]; rewrite inE ?eqxx // H orbT.
rewrite Hxs /=. have [Ex Hx] := mapM_ok 0 0 Hxs.
set xi := if ft is Type1 then _ else _. set y' := if ft is Type1 then _ else _.
have Exy : size xi = size y' by rewrite /xi /y'; case: (ft) => /=; rewrite !size_rcons Ex Ey.
have [|f Hf] := proj2 (cubicP Exy); last by rewrite Hf /=; eexists.
have ti0 : (0 < size ti)%N by case: (ti) Hne.
have xsE k : (k < size ti)%N -> xs`_k = (ti`_k - 1) / (ti`_k + 1).
  move=> Hk'; have := Hx _ Hk'; rewrite to_interval1; first by case.
  by apply: Hge; apply: mem_nth.
have xs_sorted : sorted <%R xs.
  apply/(sortedP 0) => k; rewrite Ex => Hk'.
  have Hk1 := ltnW Hk'. rewrite (xsE _ Hk1) (xsE _ Hk') to_interval_lt; first by move/(sortedP 0): Hs; apply.
  - by apply: Hge; apply: mem_nth.
  - by apply: Hge; apply: mem_nth.
have xs_lt1 x : x \in xs -> x < 1.
  move=> /(nthP 0) [k]; rewrite Ex => Hk' <-. have Hp := Hge _ (mem_nth 0 Hk').
  have Hp1 : 0 < ti`_k + 1 by rewrite ltr_spaddr ?ltr01.
  by rewrite xsE // ltr_pdivr_mulr // mul1r ltr_add2l -subr_gt0 opprK addr_gt0 ?ltr01.
have xs_gt x : x \in xs -> -1 < x.
  move=> /(nthP 0) [k]; rewrite Ex => Hk' <-. have Hp := Hgt _ (mem_nth 0 Hk').
  have Hp1 : 0 < ti`_k + 1 by rewrite ltr_spaddr ?ltr01 // ltW.
  rewrite xsE // ltr_pdivl_mulr // mulN1r opprD.
  by rewrite ltr_add2r -subr_gt0 opprK addr_gt0.
have Hr : sorted <%R (rcons xs 1).
  rewrite -cats1 (sorted_pairwise lt_trans) pairwise_cat /= !andbT.
  rewrite -(sorted_pairwise lt_trans) xs_sorted andbT.
  by apply/allrelP => x y Hx'; rewrite inE => /eqP ->; apply: xs_lt1.
split; first by rewrite /xi; case: (ft) => /=; rewrite size_rcons Ex.
rewrite /xi; case: (ft) => //=.
rewrite (path_sortedE lt_trans) Hr andbT. apply/allP => x.
rewrite mem_rcons inE => /orP [/eqP ->|/xs_gt //].
by rewrite -subr_gt0 opprK addr_gt0 ?ltr01.
Qed.
End Sorted.

Lemma mean_step_gt0 ti xi : mapM log10_pos ti = Ok xi -> sorted <%R ti -> 0 < mean_step xi.
Proof.
move=> Hxi Hs; have [Ex Hx] := mapM_ok 0 0 Hxi. rewrite lt_def (mean_step_ge0 Hxi Hs) andbT.
rewrite /mean_step; case: ifP => H1; last exact: oner_neq0.
rewrite Ex in H1 *. have Hp : (0 < (size ti).-1)%N by case: (size ti) H1 => [|[]].
have Hn : ((size ti).-1 < size ti)%N by case: (size ti) H1.
rewrite mulf_neq0 ?invr_eq0 ?pnatr_eq0 -?lt0n // subr_eq0 gt_eqF // -nth0 -nth_last Ex.
have [H0p ->] := log10_posE (Hx 0%N (ltnW H1)). have [_ ->] := log10_posE (Hx _ Hn).
rewrite ltr_pmul2r ?invr_gt0 ?ln10_gt0 //. apply: ln_lt => //.
by apply: (sorted_ltn_nth lt_trans 0 Hs) => //=; rewrite inE; apply: ltnW.
Qed.

Lemma low_lt (xi : seq R) x : 0 < mean_step xi -> x \in xi -> low_threshold xi < x.
Proof.
move=> Hd Hx. have Hl : least xi <= x by apply: foldl_min_le; rewrite inE Hx orbT.
rewrite /low_threshold; case: ifP => [_|/negbT]; last by rewrite -ltNge => /lt_le_trans; apply.
by apply: lt_le_trans Hl; rewrite ltr_subl_addr ltr_addl.
Qed.

Lemma high_gt (xi : seq R) x : 0 < mean_step xi -> x \in xi -> x < high_threshold xi.
Proof.
move=> Hd Hx. have Hl : x <= largest xi by apply: foldl_max_ge; rewrite inE Hx orbT.
rewrite /high_threshold; case: ifP => [_|/negbT]; last by rewrite -ltNge; apply: le_lt_trans.
by apply: le_lt_trans Hl _; rewrite ltr_addl.
Qed.

Lemma linspace3_sorted (a b : R) : a < b -> sorted <%R (linspace3 a b).
Proof.
move=> H; have [H1 H2] := midf_lt H. by rewrite /= H1 H2.
Qed.

(** All the centres of the radial basis functions are distinct *)
Lemma rbf_centres ti xi : mapM log10_pos ti = Ok xi -> sorted <%R ti -> ti != [::] ->
  uniq (linspace3 (low_threshold xi - mean_step xi) (low_threshold xi) ++ xi ++
        linspace3 (high_threshold xi) (high_threshold xi + mean_step xi)).
Proof.
move=> Hxi Hs Hne. have [Ex Hx] := mapM_ok 0 0 Hxi. have Hd := mean_step_gt0 Hxi Hs.
have Sx : sorted <%R xi.
  apply/(sortedP 0) => k; rewrite Ex => Hk.
  have [H0 ->] := log10_posE (Hx _ (ltnW Hk)). have [_ ->] := log10_posE (Hx _ Hk).
  rewrite ltr_pmul2r ?invr_gt0 ?ln10_gt0 //. apply: ln_lt => //. by move/(sortedP 0): Hs; apply.
have [x0 Hx0] : exists x0, x0 \in xi.
  exists xi`_0; apply: mem_nth; rewrite Ex. by case: (ti) Hne.
have Hlh := lt_trans (low_lt Hd Hx0) (high_gt Hd Hx0).
set L := low_threshold xi in Hlh *. set H := high_threshold xi in Hlh *. set d := mean_step xi in Hd *.
have S1 : sorted <%R (linspace3 (L - d) L) by apply: linspace3_sorted; rewrite ltr_subl_addr ltr_addl.
have S2 : sorted <%R (linspace3 H (H + d)) by apply: linspace3_sorted; rewrite ltr_addl.
have B1 y : y \in linspace3 (L - d) L -> y <= L.
  have LL : L - d < L by rewrite ltr_subl_addr ltr_addl.
  have [H1 H2] := midf_lt LL.
  by rewrite !inE => /or3P [] /eqP -> //; rewrite ?(ltW H2) // ler_subl_addr ler_addl ltW.
have B2 y : y \in linspace3 H (H + d) -> H <= y.
  have LH : H < H + d by rewrite ltr_addl.
  have [H1 H2] := midf_lt LH.
  by rewrite !inE => /or3P [] /eqP -> //; rewrite ?(ltW H1) // ler_addl ltW.
apply: (sorted_uniq lt_trans (@ltxx _ _)).
rewrite (sorted_pairwise lt_trans) !pairwise_cat -!(sorted_pairwise lt_trans) S1 Sx S2 !andbT.
apply/andP; split; apply/allrelP => y z.
  move=> /B1 Hy; rewrite mem_cat => /orP [/(low_lt Hd)|/B2 Hz]; first exact: le_lt_trans.
  by apply: le_lt_trans Hy _; apply: lt_le_trans Hlh Hz.
by move=> /(high_gt Hd) Hy /B2; apply: lt_le_trans.
Qed.

(** With kind='rbf' an interpolator can be built for every increasing sequence
    of positive points (two at least, for func_type=1) *)
Theorem C58_rbf cubic gauss ft ti P : needs_increasing cubic -> accepts_distinct gauss ->
  base ti = Ok P -> ti != [::] -> 0 <= tau0 P ->
  (forall t, t \in ti -> 0 < t) -> sorted <%R ti -> (ft = Type1 -> (1 < size ti)%N) ->
  exists I, rbf sch A B cubic gauss ft ti = Ok I.
Proof.
move=> HC HG HP Hne H0 Hpos Hs H1. have [sA HA [_ _ Et0 Eti [_ Es _]]] := base_ok HP.
rewrite /rbf. have -> : forall (r : res (R -> res R)), (if ti is [::] then Raise ValueError else r) = r.
  by case: (ti) Hne.
rewrite HP [bind _ _]/=.
have [xi Hxi] : exists xi, mapM log10_pos ti = Ok xi.
  apply: mapM_total => t Ht; have {}Ht : 0 < t.
    apply: Hpos; elim: (ti) Ht => //= u s IH [->|/IH H]; by rewrite inE ?eqxx ?H ?orbT.
  by rewrite /log10_pos guardF -?ltNge //; eexists.
have [Ex Hx] := mapM_ok 0 0 Hxi. rewrite Hxi [bind (Ok _) _]/=.
set ys := mapM _ _. have [yi Hyi] : exists yi, ys = Ok yi.
  apply: mapM_total => u Hu. have {Hu} : u.1 \in ti.
    move: Hu; rewrite Eti. move: (tau_i P) => l. clear -u. elim: (ti) l => [|t s' IH] [|x l] //=.
    by case=> [<-|/IH H]; rewrite inE ?eqxx // H orbT.
  move=> /Hpos Hu; case: (ft) => /=; eexists; first by reflexivity.
  by rewrite guardF // gt_eqF // ltr_paddl.
have [Ey _] := mapM_ok ((0, 0) : R * R) (0 : R) Hyi. rewrite Eti size_zip Es minnn in Ey.
have Exy : size xi = size yi by rewrite Ex Ey.
rewrite Hyi [bind (Ok _) _]/=. clear ys Hyi. case: ft H1 => H1.
  have [|f Hf] := proj2 (HC _ _ Exy); last by rewrite Hf /=; eexists.
  rewrite Ex H1 //; split=> //. apply/(sortedP 0) => k; rewrite Ex => Hk.
  have [Hk0 ->] := log10_posE (Hx _ (ltnW Hk)). have [_ ->] := log10_posE (Hx _ Hk).
  rewrite ltr_pmul2r ?invr_gt0 ?ln10_gt0 //. apply: ln_lt => //. by move/(sortedP 0): Hs; apply.
have Ec : size (linspace3 (low_threshold xi - mean_step xi) (low_threshold xi) ++ xi ++
    linspace3 (high_threshold xi) (high_threshold xi + mean_step xi)) =
    size (nseq 3 (0 : R) ++ yi ++ nseq 3 0) by rewrite !size_cat !size_nseq Exy.
by have [f ->] := HG _ _ Ec (rbf_centres Hxi Hs Hne); rewrite /=; eexists.
Qed.

End C47.
