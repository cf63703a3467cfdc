(** C91: which arguments imate.toeplitz and imate.correlation_matrix accept, and what
    is then built. *)
Require Import String.
From mathcomp Require Import all_ssreflect all_algebra.
From Verif Require Import ConvModel SampleArgsModel SampleArgsSpec.
Set Implicit Arguments.
Unset Strict Implicit.
Unset Printing Implicit Defensive.
Import GRing.Theory Num.Theory.
Local Open Scope ring_scope.

Section Props.
Variable R : rcfType.
Notation value := (value R).

Lemma wholeP (v : value) z : whole v z <-> index v = Some z.
Proof.
split; first by case.
by case: v => //= [[]|y|y] [<-]; constructor.
Qed.

Lemma entryP (v : value) x : entry v x <-> (is_integer v || is_float v) /\ number v = Some x.
Proof.
split.
  case=> [u z [] //=|//]; by split.
case: v => [|b|z|z|y|y|?|?|?|] [] //= _ [<-].
- by case: b; [apply: (@entry_whole _ _ 1)|apply: (@entry_whole _ _ 0)]; constructor.
- by apply: entry_whole; constructor.
- by apply: entry_whole; constructor.
- by constructor.
Qed.

Lemma realP (v : value) x : real v x <-> number v = Some x.
Proof.
split; first by case=> [u y /entryP []|].
case E: (is_integer v || is_float v) => H; first by apply: real_entry; apply/entryP.
by case: v E H => //= y _ [<-]; constructor.
Qed.

Lemma one_ofP names (v : value) : one_of names v <-> exists2 s, List.In s names & v = Str R s.
Proof.
case: v => [|b|z|z|y|y|c|r|c|] /=; try by split=> // -[? _].
elim: names => [|t names IH] /=; first by split=> // -[].
case: (string_dec r t) => [e|ne] /=.
  by rewrite e; split=> // _; exists t => //; left.
rewrite IH; split=> -[s].
  by move=> Hs ->; exists s => //; right.
by case=> [e|Hs] [E]; [case: ne; rewrite E|exists s => //; rewrite E].
Qed.

Lemma formatsP (v : value) : one_of formats v <-> csr_or_csc v.
Proof.
rewrite one_ofP /formats /=; split.
  by case=> s [<-|[<-|[]]] ->; [left|right].
by case=> ->; eexists; [left| |right; left|].
Qed.

Lemma dtypesP (v : value) : one_of dtypes v <-> floating_type v.
Proof.
rewrite one_ofP /dtypes /=; split.
  by case=> s [<-|[<-|[<-|[]]]] ->; [constructor 1|constructor 2|constructor 3].
by case=> ->; eexists; [left| |right; left| |right; right; left|].
Qed.

Lemma one_of_str names (v : value) : one_of names v -> is_str v.
Proof. by case: v. Qed.

Lemma check_nameE names (v : value) : check_name names v = ~~ one_of names v.
Proof. by case: v. Qed.

Lemma check_sizeP (v : value) n :
  ~~ check_size v /\ index v = Some n <-> 1 <= n /\ whole v n.
Proof.
rewrite wholeP; case: v => [|b|z|z|y|y|c|s|c|] /=; try by split=> -[].
all: by rewrite /check_size /= -Order.TotalTheory.leNgt; split=> -[H [E]]; move: H; rewrite E.
Qed.

(** toeplitz builds a matrix exactly for the documented arguments, with exactly the
    entries and the size given *)
Theorem C91_toeplitz (a b size gram format dtype : value) x y n g :
  toeplitz a b size gram format dtype = Builds (x, y, n, g) <->
  entry a x /\ entry b y /\ (1 <= n /\ whole size n) /\ gram = Bool R g /\
  (format = None_ R \/ csr_or_csc format) /\ floating_type dtype.
Proof.
rewrite /toeplitz /check_toeplitz check_nameE !entryP -check_sizeP -dtypesP -formatsP.
have Ea v : check_entry v = ~~ (is_integer v || is_float v) by case: v.
have Eg : ~~ check_gram gram /\ truth gram = g <-> gram = Bool R g.
  by case: gram => [|c|?|?|?|?|?|?|?|] /=; (try by split=> // -[]); split=> [[_ ->]|[->]].
have Ef : ~~ check_toeplitz_format format <-> format = None_ R \/ one_of formats format.
  by case: format => [|?|?|?|?|?|?|s|?|] //=; rewrite ?negbK; split=> //; [left|case|case|case|case|case|case|right|case|case|case].
rewrite -Eg -Ef !Ea.
case: (is_integer a || is_float a) => /=; last by split=> // -[[]].
case: (is_integer b || is_float b) => /=; last by split=> // -[_ [[]]].
case: (check_size size) => /=; first by split=> // -[_ [_ [[]]]].
case: (check_gram gram) => /=; first by split=> // -[_ [_ [_ [[]]]]].
case: (check_toeplitz_format format) => /=; first by split=> // -[_ [_ [_ [_ []]]]].
case: (one_of dtypes dtype) => /=; last by split=> // -[_ [_ [_ [_ []]]]].
case: (index size) => [m|]; last by split=> // -[_ [_ [[]]]].
case: (number a) => [u|]; last by split=> // -[[]].
case: (number b) => [w|]; last by split=> // -[_ [[]]].
split; first by case=> <- <- <- <-.
by case=> -[_ [<-]] [[_ [<-]]] [[_ [<-]]] [[_ <-]].
Qed.

(** and raises an exception for all others *)
Theorem C91_toeplitz_raises (a b size gram format dtype : value) :
  toeplitz a b size gram format dtype = Raises \/
  exists r, toeplitz a b size gram format dtype = Builds r.
Proof.
rewrite /toeplitz; case: ifP => _; first by left.
case: (index size) => [m|]; last by left.
case: (number a) => [u|]; last by left.
by case: (number b) => [w|]; [right; eexists|left].
Qed.

Lemma positiveP (v : value) n : positive v n <-> ~~ check_size v /\ index v = Some (Posz n).
Proof. by rewrite check_sizeP. Qed.

Lemma real_scalar (v : value) x : number v = Some x -> [/\ ~~ is_none v, isscalar v & ~~ is_complex v].
Proof. by case: v. Qed.

Lemma check_scaleE (v : value) x : number v = Some x -> check_scale v = nle x (Fin 0).
Proof. by move=> H; rewrite /check_scale; case: (real_scalar H) => /negbTE -> -> /negbTE ->; rewrite H. Qed.

Lemma check_densityE (v : value) x : number v = Some x -> check_density v = nle x (Fin 0) || nle (Fin 1) x.
Proof. by move=> H; rewrite /check_density; case: (real_scalar H) => /negbTE -> -> /negbTE ->; rewrite H. Qed.

Lemma check_paramE (k v : value) : one_of kernels k -> check_kernel_param k v = ~~ (is_none v || isscalar v).
Proof.
case/one_ofP=> s Hs ->; rewrite /check_kernel_param.
case: (is_none v) => //; case: (isscalar v) => //=; case: (is_complex v) => //.
by case: Hs => [<-|[<-|[<-|[<-|[]]]]].
Qed.

(** The checks let documented arguments pass *)
Lemma check_documented a n d l g s rho k x :
  documented a n d l g s rho -> kernel a = Str R k -> List.In k kernels ->
  kernel_param a = None_ R \/ real (kernel_param a) x -> check_arguments a = false.
Proof.
case=> /positiveP [Hn _] /positiveP [Hd _] [/realP Hl l0] Hg Hs [/realP Hr r01] /formatsP Hf /dtypesP Ht
  [p Hp] [w Hw] Hk Ik Hx.
have Ek : one_of kernels (kernel a) by apply/one_ofP; exists k.
rewrite /check_arguments (negbTE Hn) (negbTE Hd) (check_scaleE Hl) (check_densityE Hr) !check_nameE Hf Ht.
rewrite Hg Hs Hp Hw /check_kernel Ek (one_of_str Ek) (check_paramE _ Ek) /=.
have -> : is_none (kernel_param a) || isscalar (kernel_param a).
  by case: Hx => [-> //|/realP /real_scalar [_ ->]]; rewrite orbT.
by case/andP: r01 => r0 r1; rewrite !Order.TotalTheory.leNgt l0 r0 r1.
Qed.

(** For documented arguments and the kernels "matern" and "exponential" the matrix of
    exactly the given points, scale, parameter and density is built; ValueError only
    if it is sparse and the density is below one entry in a row *)
Theorem C91_documented parses a n d l g s rho k x :
  documented a n d l g s rho -> kernel a = Str R k -> k = "matern"%string \/ k = "exponential"%string ->
  parameter_used k (kernel_param a) x ->
  correlation_matrix parses a =
    if s && (rho * (number_of_points g n d)%:R < 1) then Raises
    else Builds (Built (number_of_points g n d) d (Fin l) x g (if s then Some rho else None)).
Proof.
move=> D Hk Ik Hx.
have Nx : number_param a = Some x.
  rewrite /number_param Hk; case: Hx => [k' v y /realP E| |] //.
  by case: (real_scalar E) => /negbTE -> _ _.
have C : check_arguments a = false.
  apply: (check_documented (k := k) (x := x) D Hk).
    by case: Ik => ->; [left|right; left].
  by case: Hx => [k' v y E| |]; [right|left|left].
rewrite /correlation_matrix C Nx.
case: D => /positiveP [_ ->] /positiveP [_ ->] [/realP -> l0] -> -> [/realP -> r01] _ _ _ [w ->] /=.
have -> : one_of known (kernel a) by rewrite Hk; apply/one_ofP; exists k => //; case: Ik => ->; [left|right; left].
by rewrite /number_of_points; case: s {C} => //=; case: ifP.
Qed.

(** Whatever is passed: if a matrix is built, then all arguments but the flags, and
    but the density of dense matrices, are documented ones or a scale that is NaN or
    infinite, and the matrix is the one for these arguments *)
Theorem C91_built_partial parses a r :
  correlation_matrix parses a = Builds r ->
  exists n k,
  [/\ positive (size a) n, positive (dimension a) (dim r) &
      points r = number_of_points (on_grid r) n (dim r)] /\
  [/\ real (scale a) (length r) & forall l, length r = Fin l -> 0 < l] /\
  [/\ kernel a = Str R k, k = "matern"%string \/ k = "exponential"%string &
      parameter_used k (kernel_param a) (param r)] /\
  [/\ csr_or_csc (format a), floating_type (dtype a) & length r <> @NInf R] /\
  forall rho, tapered r = Some rho ->
  [/\ real (density a) (Fin rho), 0 < rho < 1 & 1 <= rho * (points r)%:R].
Proof.
rewrite /correlation_matrix; case: ifP => // /negbT.
rewrite /check_arguments !check_nameE.
case/norP=> Cn /norP [Cd /norP [Cl /norP [Ck /norP [Cx /norP [Cg /norP [Cs /norP [Cr]]]]]]].
case/norP; rewrite negbK => /formatsP Hf /norP [Ht _].
have {}Ht : floating_type (dtype a) by apply/dtypesP; rewrite -[one_of _ _]negbK.
case En: (index (size a)) => [n|] //; case Ed: (index (dimension a)) => [d|] //.
case Ek: (one_of known (kernel a)) => //=.
have Pn : positive (size a) `|n|%N.
  have [n1 W] := proj1 (check_sizeP _ _) (conj Cn En).
  by case: n {En} n1 W => // m m1 W.
have Pd : positive (dimension a) `|d|%N.
  have [n1 W] := proj1 (check_sizeP _ _) (conj Cd Ed).
  by case: d {Ed} n1 W => // m m1 W.
set N := if truth (grid a) then _ else _; set taper := if truth (sparse a) then _ else _.
case Et: taper => [||t] //; case El: (number (scale a)) => [l|] //; case Ex: (number_param a) => [x|] //.
case: ifP => // _ [<-] {r} /=.
have [k Ik Hk] : exists2 s, List.In s known & kernel a = Str R s by apply/one_ofP.
exists `|n|%N, k; split; first by split.
have Hl : ~~ nle l (Fin 0) by rewrite -(check_scaleE El).
split.
  split; first by apply/realP.
  by move=> l' E; move: Hl; rewrite E /= -Order.TotalTheory.ltNge.
split.
  split=> //; first by case: Ik => [<-|[<-|[]]]; [left|right].
  move: Ex; rewrite /number_param; case Ep: (kernel_param a) => [|b|z|z|y|y|c|s|c|] /=;
    try by move=> H; apply: used_given; apply/realP.
  by rewrite Hk; case: Ik => [<-|[<-|[]]] /= [<-]; constructor.
split; first by split=> // E; move: Hl; rewrite E.
move=> rho E; move: Et; rewrite /taper E; case: ifP => // _.
case Er: (number (density a)) => [[q| | |]|] //; case: ifP => // Q [e]; rewrite -e.
split; first by apply/realP.
  by move: Cr; rewrite (check_densityE Er) /= negb_or -!Order.TotalTheory.ltNge.
by rewrite Order.TotalTheory.leNgt Q.
Qed.

(** Dense or not: a density that is a number is between zero and one *)
Theorem C91_density parses (a : arguments R) r (x : num R) :
  correlation_matrix parses a = Builds r -> real (density a) x ->
  x = NaN \/ exists2 rho, x = Fin rho & 0 < rho < 1.
Proof.
rewrite /correlation_matrix; case: ifP => // /negbT; rewrite /check_arguments.
case/norP=> _ /norP [_ /norP [_ /norP [_ /norP [_ /norP [_ /norP [_ /norP [Cr _]]]]]]] _ /realP E.
move: Cr; rewrite (check_densityE E); case: x E => [q| | |] _ //=; last by left.
by rewrite negb_or -!Order.TotalTheory.ltNge; right; exists q.
Qed.

(** The documented names "square_exponential" and "rational_quadratic" end the process *)
Theorem C91_abort parses a n d l g s rho k x :
  documented a n d l g s rho -> kernel a = Str R k ->
  k = "square_exponential"%string \/ k = "rational_quadratic"%string ->
  kernel_param a = None_ R \/ real (kernel_param a) x ->
  correlation_matrix parses a = Aborts.
Proof.
move=> D Hk Ik Hx.
have C : check_arguments a = false.
  apply: (check_documented (k := k) (x := x) D Hk) => //.
  by case: Ik => ->; [right; right; left|right; right; right; left].
rewrite /correlation_matrix C.
case: D => /positiveP [_ ->] /positiveP [_ ->] _ _ _ _ _ _ _ _.
by rewrite Hk; case: Ik => ->.
Qed.

(** The documentation asks for booleans, positive scales and real densities.  Full
    statement: a matrix is built for documented arguments only.  It is false. *)
Definition plain (sc sp rho : value) : arguments R :=
  Arguments (Int R 10) (Int R 2) sc (Str R "exponential") (None_ R) (Bool R true) sp rho
    (Str R "csr") (Str R "float64") (Bool R false) (Bool R false).

(** sparse="False" builds a sparse matrix *)
Theorem C91_flag_refuted parses :
  exists2 r, correlation_matrix parses (plain (Int R 1) (Str R "False") (Float (Fin (1 / 2%:R)))) = Builds r
  & tapered r = Some (1 / 2%:R).
Proof.
have h1 : (1 / 2%:R : R) < 1 by rewrite ltr_pdivr_mulr ?ltr0n // mul1r ltr1n.
have h0 : 0 < (1 / 2%:R : R) by rewrite divr_gt0 ?ltr01 ?ltr0n.
have E : check_arguments (plain (Int R 1) (Str R "False") (Float (Fin (1 / 2%:R)))) = false.
  rewrite /check_arguments (check_densityE (x := Fin (1 / 2%:R))) // (check_scaleE (x := Fin 1)) //=.
  by rewrite !Order.TotalTheory.leNgt ltr01 h0 h1.
rewrite /correlation_matrix E /=.
have -> : (1 / 2%:R * (10 ^ 2)%N%:R < 1 :> R) = false.
  by apply/negbTE; rewrite -Order.TotalTheory.leNgt mul1r mulrC ler_pdivl_mulr ?ltr0n // mul1r ler_nat.
by eexists.
Qed.

(** scale=nan builds a matrix *)
Theorem C91_scale_refuted parses :
  exists2 r, correlation_matrix parses (plain (Float NaN) (Bool R false) (Float (Fin (1 / 2%:R)))) = Builds r
  & length r = NaN.
Proof.
have h1 : (1 / 2%:R : R) < 1 by rewrite ltr_pdivr_mulr ?ltr0n // mul1r ltr1n.
have h0 : 0 < (1 / 2%:R : R) by rewrite divr_gt0 ?ltr01 ?ltr0n.
have E : check_arguments (plain (Float NaN) (Bool R false) (Float (Fin (1 / 2%:R)))) = false.
  rewrite /check_arguments (check_densityE (x := Fin (1 / 2%:R))) //=.
  by rewrite !Order.TotalTheory.leNgt h0 h1.
by rewrite /correlation_matrix E /=; eexists.
Qed.

(** A complex density is not rejected if the matrix is dense *)
Theorem C91_density_refuted parses :
  exists r, correlation_matrix parses (plain (Int R 1) (Bool R false) (Complex R true)) = Builds r.
Proof.
have E : check_arguments (plain (Int R 1) (Bool R false) (Complex R true)) = false.
  rewrite /check_arguments (check_scaleE (x := Fin 1)) //=.
  by rewrite !Order.TotalTheory.leNgt ltr01.
by rewrite /correlation_matrix E /=; eexists.
Qed.

(** Cases *)
Example C91_documented_case g s rho : 0 < rho < 1 ->
  documented (Arguments (Int R 10) (NpInt R 2) (NpFloat (Fin (2%:R : R))) (Str R "matern") (None_ R) (Bool R g)
    (Bool R s) (Float (Fin rho)) (Str R "csc") (Str R "float32") (Bool R true) (Bool R false)) 10 2 2%:R g s rho.
Proof.
move=> H; split=> //=.
- by split=> //; constructor.
- by split=> //; constructor.
- by split; [constructor|rewrite ltr0n].
- by split=> //; do 2 constructor.
- by right.
- by constructor.
- by eexists.
- by eexists.
Qed.
Example C91_matern_case : parameter_used "matern" (None_ R) (Fin (1 / 2%:R)).
Proof. exact: used_matern. Qed.
Example C91_toeplitz_case :
  toeplitz (Int R 2) (Float (Fin (- 1))) (NpInt R 5) (Bool R true) (None_ R) (Str R "float128") =
  Builds (Fin 2%:~R, Fin (- 1), Posz 5, true).
Proof. by []. Qed.
Example C91_toeplitz_float_size_case :
  toeplitz (Int R 2) (Int R 1) (Float (Fin 5%:R)) (Bool R true) (None_ R) (Str R "float128") = Raises.
Proof. by []. Qed.
Example C91_hyphen_case parses rho :
  correlation_matrix parses (Arguments (Int R 10) (Int R 2) (Int R 1) (Str R "square-exponential") (None_ R)
    (Bool R true) (Bool R false) (Float (Fin rho)) (Str R "csr") (Str R "float64") (Bool R false) (Bool R false)) =
  Raises.
Proof. by rewrite /correlation_matrix /check_arguments /check_kernel /= !orbT. Qed.
End Props.

Definition C91_assumptions := (@C91_toeplitz, @C91_toeplitz_raises, @C91_documented, @C91_built_partial, @C91_density, @C91_abort,
  @C91_flag_refuted, @C91_scale_refuted, @C91_density_refuted).
Print Assumptions C91_assumptions.
