(** The eigenvalue methods for matrices that are not symmetric, and the
    log-determinant: C40. *)
Require Import Reals Lra.
From mathcomp Require Import all_ssreflect all_algebra.
From mathcomp.real_closed Require Import complex.
From mathcomp Require Import zify.
From Verif Require Import MatSpec CholMath RealField EigenMath EigenSpec EigenModel PropEigen.
From Verif Require CholModel PropChol.
Set Implicit Arguments.
Unset Strict Implicit.
Unset Printing Implicit Defensive.
Import GRing.Theory Num.Theory Order.TTheory.
Local Open Scope ring_scope.

Arguments mxpow : simpl never.
Local Notation toC := (real_complex R).

Ltac asR := match goal with |- @eq _ ?a ?b => change (@eq R a b) end.

(** The spectrum of a real matrix is closed under conjugation. *)
Lemma spectrum_conj n (A : 'M[R]_n) s : spectrum (map_mx toC A) s ->
  perm_eq [seq conjc z | z <- s] s.
Proof.
move=> Hs. apply: (spectrum_perm _ Hs). rewrite /spectrum.
have -> : map_mx toC A = map_mx (@conjc _) (map_mx toC A).
  by apply/matrixP => i j; rewrite !mxE conjc_real.
rewrite -map_char_poly Hs rmorph_prod /= big_map.
by apply: eq_bigr => z _; rewrite rmorphB /= map_polyX map_polyC.
Qed.

Lemma conj_fixed (z : R[i]) : conjc z = z -> z = toC (complex.Re z).
Proof.
case: z => a b /= [] /eqP. rewrite -subr_eq0 -opprD oppr_eq0 -mulr2n mulrn_eq0 /= => /eqP ->. by [].
Qed.

Lemma sum_conj (f : R[i] -> R[i]) n (A : 'M[R]_n) s : spectrum (map_mx toC A) s ->
  (forall z, z \in s -> f (conjc z) = conjc (f z)) ->
  \sum_(z <- s) f z = toC (complex.Re (\sum_(z <- s) f z)).
Proof.
move=> Hs Hf. apply: conj_fixed. rewrite rmorph_sum /= -[RHS](perm_big _ (spectrum_conj Hs)) big_map.
by apply: eq_big_seq => z Hz; rewrite Hf.
Qed.

Lemma angle_real (x : R) : angle (toC x) = if x < 0 then PI else 0.
Proof.
rewrite /angle /=. case: eqP => [[->]|Hn]; first by rewrite ltxx.
rewrite ltxx expr0n /= addr0 sqrtr_sqr.
have Hx : x <> 0 by move=> E; apply: Hn; rewrite E.
case: (ltrgt0P x) => [H|H|//].
- rewrite /Rdiv Rinv_r //. exact: acos_1.
- rewrite (_ : Rdiv _ _ = Ropp 1) ?acos_opp ?acos_1; last by rewrite RoppE; field.
  by lra.
Qed.

Lemma mod_pi_mul (k : nat) : mod_pi (k%:R * PI)%R = 0.
Proof.
rewrite /mod_pi. have Hp := PI_RGT_0.
have -> : Rdiv (k%:R * PI)%R PI = IZR (Z.of_nat k).
  rewrite RnatE RmultE INR_IZR_INZ. by field; lra.
rewrite Int_part_IZR RnatE INR_IZR_INZ. Rring.
Qed.

Lemma real_resultP sparse n (x : R) : real_result sparse n (toC x) = Some x.
Proof.
rewrite /real_result angle_real. have -> : mod_pi `|if x < 0 then PI else 0 : R| = 0.
  have Hp := PI_RGT_0. case: ifP => _.
    rewrite gtr0_norm; last by apply/RltP. by have := mod_pi_mul 1; rewrite mul1r.
  rewrite normr0. by have := mod_pi_mul 0; rewrite mul0r.
rewrite normr0 ifF //. apply/negbTE. rewrite -leNgt mulr_ge0 ?ler0n //.
by rewrite /angle_rtol; case: sparse; rewrite divr_ge0 ?ler01 ?ler0n // exprn_ge0 // ler0n.
Qed.

Lemma csumP (s : seq R[i]) (f : R[i] -> option R[i]) (g : R[i] -> R[i]) :
  (forall x, x \in s -> f x = Some (g x)) -> csum (map f s) = Some (\sum_(x <- s) g x).
Proof.
elim: s => [|x s IH] H /=; first by rewrite big_nil.
rewrite H ?mem_head // IH; first by rewrite big_cons.
by move=> y Hy; apply: H; rewrite inE Hy orbT.
Qed.

Lemma ctotalP sparse n (A : 'M[R]_n) f g ev s : spectrum (map_mx toC A) s -> perm_eq (not_nan ev) s ->
  (forall x, x \in s -> f x = Some (g x)) -> (forall z, z \in s -> g (conjc z) = conjc (g z)) ->
  exists2 r, ctotal sparse n f ev = Some r & toC r = \sum_(z <- s) g z.
Proof.
move=> Hs Hp Hf Hg. rewrite /ctotal (csumP (g := g)); last by move=> x; rewrite (perm_mem Hp) => /Hf.
rewrite (perm_big _ Hp) /= (sum_conj Hs Hg) real_resultP. by eexists.
Qed.

Definition whole_gen n (A : 'M[R]_n) (given : option (seq (option R[i]))) (fraction : option R) : Prop :=
  if given is Some ev then exists2 t, ev = map Some t & spectrum (map_mx toC A) t
  else fraction = None.

Lemma conjcXz (z : R[i]) (p : int) : conjc (z ^ p) = conjc z ^ p.
Proof. by case: p => k; rewrite ?NegzE -?exprnN -?exprnP ?fmorphV ?rmorphX. Qed.

Lemma cexp_conj z : cexp (conjc z) = conjc (cexp z).
Proof. by case: z => x y /=; rewrite cos_neg sin_neg -RoppE mulrN. Qed.

Section General.
Variable E : eig_routines.
Hypothesis EO : eig_routines_ok E.
Variable sparse : bool.

Section Sums.
Variables (n : nat) (A : 'M[R]_n) (given : option (seq (option R[i]))) (fraction : option R).
Variable s : seq R[i].
Hypothesis Hw : whole_gen A given fraction.
Hypothesis Hs : spectrum (map_mx toC A) s.
Let ev := eigenvalues_gen E A given fraction.

Lemma ev_perm w : exists2 l, ev w = Some l & perm_eq (not_nan l) s.
Proof.
rewrite /ev /eigenvalues_gen. move: Hw. case: given => [e [t -> Ht]|->].
  rewrite size_map (spectrum_size Ht) eqxx. eexists; first by [].
  by rewrite not_nan_Some (spectrum_perm Ht Hs).
eexists; first by []. rewrite not_nan_Some. exact: spectrum_perm (eig_ok EO A) Hs.
Qed.

Lemma cpowP (p : int) z : (A \in unitmx) || (0 <= p) -> z \in s -> cpow z p = Some (z ^ p).
Proof.
move=> H Hz. rewrite /cpow. case: ifP => // /andP [Hp /eqP Ez]. case/orP: H => [|H].
  have := spectrum_unit Hs. rewrite map_unitmx => ->. by rewrite -Ez Hz.
by move: Hp; rewrite ltNge H.
Qed.

(** C40 for every real square matrix and integer p: the check that the sum is
    real always succeeds, and the sum over the complex spectrum is returned. *)
Theorem C40_general (p : int) : (A \in unitmx) || (0 <= p) ->
  [/\ exists2 r, trace_eigenvalue_gen sparse n ev p = Some r & toC r = \sum_(z <- s) z ^ p,
      A \in unitmx ->
        exists2 r, traceinv_eigenvalue_gen sparse n ev p = Some r & toC r = \sum_(z <- s) (z ^ p)^-1,
      forall c : R, exists2 r, trexp_eigenvalue_gen sparse n ev c p = Some r &
        toC r = \sum_(z <- s) cexp (toC c * z ^ p) &
      forall a b c d : R, (forall z, z \in s -> toC c * z ^ p + toC d != 0) ->
        exists2 r, trlinfrac_eigenvalue_gen sparse n ev a b c d p = Some r &
        toC r = \sum_(z <- s) (toC a * z ^ p + toC b) / (toC c * z ^ p + toC d)].
Proof.
move=> Hp.
have T w (f : R[i] -> option R[i]) (g : R[i] -> R[i]) : (forall x, x \in s -> f x = Some (g x)) ->
    (forall z, z \in s -> g (conjc z) = conjc (g z)) ->
    exists2 r, obind (ctotal sparse n f) (ev w) = Some r & toC r = \sum_(z <- s) g z.
  move=> Hf Hg. have [l -> Hl] := ev_perm w. exact: (ctotalP sparse Hs Hl Hf Hg).
split.
- apply: (T _ _ (fun z => z ^ p)) => z Hz; first exact: (cpowP Hp Hz). by rewrite conjcXz.
- move=> HA. apply: (T _ _ (fun z => (z ^ p)^-1)) => z Hz; last by rewrite fmorphV /= conjcXz.
  rewrite (cpowP Hp Hz) /= /cdiv mul1r. case: eqP => // /eqP.
  rewrite expfz_eq0 => /andP [_ /eqP E0].
  have := spectrum_unit Hs. by rewrite map_unitmx HA -E0 Hz.
- move=> c. apply: (T _ _ (fun z => cexp (toC c * z ^ p))) => z Hz; first by rewrite (cpowP Hp Hz).
  by rewrite -cexp_conj rmorphM /= conjcXz oppr0.
- move=> a b c d Hn.
  apply: (T _ _ (fun z => (toC a * z ^ p + toC b) / (toC c * z ^ p + toC d))) => z Hz.
    by rewrite (cpowP Hp Hz) /= /cdiv (negbTE (Hn _ Hz)).
  by rewrite rmorphM fmorphV !rmorphD !rmorphM /= conjcXz !oppr0.
Qed.

End Sums.

(** So the trace of the matrix power is returned, and that of the inverse power. *)
Theorem C40_general_matrix n (A : 'M[R]_n) given fraction (p : int) : whole_gen A given fraction ->
  ((A \in unitmx) || (0 <= p) ->
    trace_eigenvalue_gen sparse n (eigenvalues_gen E A given fraction) p = Some (\tr (mxpowz A p))) /\
  (A \in unitmx ->
    traceinv_eigenvalue_gen sparse n (eigenvalues_gen E A given fraction) p = Some (\tr (mxpowz A (- p)))).
Proof.
move=> Hw. have [s Hs] := spectrum_exists (map_mx toC A).
have Hpow (q : int) : (A \in unitmx) || (0 <= q) -> toC (\tr (mxpowz A q)) = \sum_(z <- s) z ^ q.
  rewrite map_mxtrace. case: q => k H /=.
    by rewrite map_mxpow (trace_spectrum (spectrum_pow k Hs)) big_map.
  rewrite orbF in H. rewrite map_mxpow map_invmx.
  have H' : map_mx toC A \in unitmx by rewrite map_unitmx.
  rewrite (trace_spectrum (spectrum_pow k.+1 (spectrum_inv H' Hs))) !big_map.
  by apply: eq_bigr => z _; rewrite NegzE -exprnN exprVn.
split=> Hp.
- have [[r -> Hr] _ _ _] := C40_general Hw Hs Hp. congr Some.
  by apply: (fmorph_inj [rmorphism of toC]); rewrite /= Hr Hpow.
- have Hp' (q : int) : (A \in unitmx) || (0 <= q) by rewrite Hp.
  have [_ /(_ Hp) [r -> Hr] _ _] := C40_general Hw Hs (Hp' p). congr Some.
  apply: (fmorph_inj [rmorphism of toC]); rewrite /= Hr Hpow //.
  by apply: eq_bigr => z _; rewrite invr_expz.
Qed.

End General.

(** Polar coordinates *)
Definition cis (t : R) : R[i] := Complex (cos t) (sin t).
Definition negreal (z : R[i]) : bool := (complex.Im z == 0) && (complex.Re z < 0).

Lemma cabs_gt0 (z : R[i]) : z != 0 -> 0 < cabs z.
Proof.
case: z => x y H. rewrite /= sqrtr_gt0 lt_neqAle addr_ge0 ?sqr_ge0 // andbT eq_sym.
rewrite paddr_eq0 ?sqr_ge0 // !sqrf_eq0. by move: H; rewrite eq_complex.
Qed.

Lemma cabs_sqr (x y : R) : cabs (Complex x y) ^+ 2 = x ^+ 2 + y ^+ 2.
Proof. by rewrite /= sqr_sqrtr // addr_ge0 ?sqr_ge0. Qed.

Lemma ratio_bound (x y : R) : Complex x y != 0 ->
  Rle (Ropp 1) (Rdiv x (cabs (Complex x y))) /\ Rle (Rdiv x (cabs (Complex x y))) 1.
Proof.
move=> /cabs_gt0. set m := cabs _ => Hm.
have E2 : m ^+ 2 = x ^+ 2 + y ^+ 2 by apply: cabs_sqr.
have : `|x| <= m.
  rewrite -ler_sqr ?nnegrE ?normr_ge0 ?(ltW Hm) // real_normK ?num_real // E2.
  by rewrite ler_addl sqr_ge0.
rewrite ler_norml => /andP [/RleP H1 /RleP H2]. move: Hm => /RltP Hm. toRin H1.
split.
- apply: (Rmult_le_reg_r m) => //. rewrite /Rdiv Rmult_assoc Rinv_l; last by apply: Rgt_not_eq.
  by lra.
- apply: (Rmult_le_reg_r m) => //. rewrite /Rdiv Rmult_assoc Rinv_l; last by apply: Rgt_not_eq.
  by lra.
Qed.

Lemma polar (z : R[i]) : z != 0 -> z = toC (cabs z) * cis (angle z).
Proof.
case: z => x y Hz. have Hm := cabs_gt0 Hz. have [B1 B2] := ratio_bound Hz.
have E2 := cabs_sqr x y. set m := cabs (Complex x y) in Hm B1 B2 E2 *.
rewrite /angle (negbTE Hz) -/m. set u := Rdiv x m in B1 B2 *.
have Hmu : m * u = x.
  rewrite /u /Rdiv. have : m <> 0 by move=> E0; rewrite E0 ltxx in Hm. toR => H0. asR. by field.
have Hs : m * sin (acos u) = `|y|.
  rewrite sin_acos; last by split.
  apply/eqP. rewrite -(@eqr_expn2 _ 2) ?normr_ge0 //; last first.
    by rewrite mulr_ge0 ?(ltW Hm) //; apply/RleP/sqrt_pos.
  rewrite exprMn real_normK ?num_real //.
  have -> : R_sqrt.sqrt (1 - Rsqr u) ^+ 2 = 1 - u ^+ 2.
    rewrite expr2 RmultE sqrt_sqrt; first by rewrite /Rsqr expr2.
    have : Rle (Rmult u u) 1 by nra. rewrite /Rsqr. lra.
  by rewrite mulrBr mulr1 -exprMn Hmu E2 addrC addKr.
apply/eqP. rewrite eq_complex /= !mul0r subr0 addr0.
case: (ltrP y 0) => Hy.
- rewrite cos_neg sin_neg cos_acos; last by split.
  rewrite Hmu eqxx /= -RoppE mulrN Hs ltr0_norm // opprK. by [].
- rewrite cos_acos; last by split.
  by rewrite Hmu eqxx /= Hs ger0_norm.
Qed.

Lemma angle_conj (z : R[i]) : z != 0 ->
  angle z + angle (conjc z) = if negreal z then PI *+ 2 else 0.
Proof.
case: z => x y Hz. rewrite /negreal [complex.Im _]/= [complex.Re _]/=.
case: eqP => [E0|/eqP Hy].
  have -> : Complex x y = toC x by rewrite E0.
  rewrite conjc_real angle_real. by case: ifP => _; rewrite ?addr0 // mulr2n.
rewrite [conjc _]/= andFb.
rewrite /angle. have Hz' : Complex x (- y) != 0 by rewrite eq_complex /= oppr_eq0 negb_and Hy orbT.
rewrite (negbTE Hz) (negbTE Hz') oppr_lt0.
have -> : cabs (Complex x (- y)) = cabs (Complex x y) by rewrite /= sqrrN.
case: (ltrgt0P y) Hy => [H|H|->] _ //; rewrite ?eqxx //.
- by rewrite subrr.
- by rewrite addrC subrr.
Qed.

Lemma cisD (a b : R) : cis (a + b) = cis a * cis b.
Proof.
rewrite /cis cos_plus sin_plus. apply/eqP. rewrite eq_complex /=.
by apply/andP; split; apply/eqP; Rring.
Qed.

Lemma cis_pi (k : nat) : cis (k%:R * PI)%R = (-1) ^+ k.
Proof.
elim: k => [|k IH]; first by rewrite mul0r /cis cos_0 sin_0.
rewrite -addn1 natrD mulrDl mul1r.
have -> : cis (k%:R * PI + PI)%R = cis (k%:R * PI)%R * cis PI by apply: cisD.
rewrite IH addn1 exprSr. congr (_ * _).
by rewrite /cis cos_PI sin_PI; apply/eqP; rewrite eq_complex /= oppr0 !eqxx.
Qed.

Lemma prod_polar (s : seq R[i]) : 0 \notin s ->
  \prod_(z <- s) z = toC (\prod_(z <- s) cabs z) * cis (\sum_(z <- s) angle z)%R.
Proof.
elim: s => [|z s IH]; first by rewrite !big_nil mul1r /cis cos_0 sin_0.
rewrite inE negb_or eq_sym => /andP [Hz Hs]. rewrite !big_cons IH // {1}(polar Hz) rmorphM /=.
by rewrite [cis (_ + _)]cisD mulrACA.
Qed.

Lemma ln_prod_seq (s : seq R[i]) : 0 \notin s ->
  0 < \prod_(z <- s) cabs z /\ ln (\prod_(z <- s) cabs z)%R = \sum_(z <- s) ln (cabs z).
Proof.
elim: s => [|z s IH]; first by rewrite !big_nil ln_1 ltr01.
rewrite inE negb_or eq_sym !big_cons => /andP [Hz /IH [H1 H2]]. have Hm := cabs_gt0 Hz.
split; first exact: mulr_gt0.
rewrite -H2. apply: ln_mult; exact/RltP.
Qed.

(** The sum of the logarithms of the eigenvalues *)
Lemma log_spectrum n (A : 'M[R]_n) s : A \in unitmx -> spectrum (map_mx toC A) s ->
  let N := count negreal s in
  [/\ \sum_(z <- s) ln (cabs z) = ln `|\det A|,
      \sum_(z <- s) angle z = N%:R * PI & (\det A < 0) = odd N].
Proof.
move=> HA Hs N.
have H0 : 0 \notin s by rewrite -(spectrum_unit Hs) map_unitmx.
have Ha : \sum_(z <- s) angle z = N%:R * PI.
  have : (\sum_(z <- s) angle z) *+ 2 = (N%:R * PI) *+ 2.
    rewrite [in LHS]mulr2n -{2}(perm_big _ (spectrum_conj Hs)) big_map -big_split /=.
    rewrite (eq_big_seq (fun z => if negreal z then PI *+ 2 else 0)); last first.
      by move=> z Hz; rewrite angle_conj //; apply: contraNneq H0 => <-.
    rewrite -big_mkcond /= -big_filter big_const_seq count_predT size_filter iter_addr_0.
    by rewrite -/N mulr_natl mulrnAC.
  by move/eqP; rewrite eqr_muln2r /= => /eqP.
have [Hp Hl] := ln_prod_seq H0.
have Hd : \det A = (-1) ^+ N * \prod_(z <- s) cabs z.
  apply: (fmorph_inj [rmorphism of toC]). rewrite /= -det_map_mx (det_spectrum Hs) prod_polar // Ha cis_pi.
  by rewrite mulrC rmorphM rmorphX rmorphN rmorph1.
split=> //.
- by rewrite -Hl Hd normrM normrX normrN1 expr1n mul1r (gtr0_norm Hp).
- rewrite Hd -signr_odd. by case: odd; rewrite ?expr0 ?expr1 ?mul1r ?mulN1r ?oppr_lt0 ?Hp // ltNge (ltW Hp).
Qed.

Lemma logdet_real_resultP u n (x : R) (N : nat) :
  logdet_real_result u n (Complex x (N%:R * PI)) =
  Some (if odd N then Complex x PI else toC x).
Proof.
have Hp := PI_RGT_0. have Hp' : 0 < PI by apply/RltP.
have Ht : (0 : R) < 1 / 10 ^+ 8 by rewrite divr_gt0 ?ltr01 // exprn_gt0 // ltr0n.
rewrite /logdet_real_result [complex.Im _]/= [complex.Re _]/= mod_pi_mul normr0 Ht orbT /=.
have -> : (1 / 10 ^+ 8 * n%:R < 0 :> R) = false.
  by apply/negbTE; rewrite -leNgt mulr_ge0 ?ler0n // ltW.
rewrite andbF /= ger0_norm; last by rewrite mulr_ge0 ?ler0n // ltW.
have -> : Rdiv (N%:R * PI)%R PI = IZR (Z.of_nat N).
  rewrite RnatE RmultE INR_IZR_INZ. by field; lra.
have -> : Int_part (Rplus (IZR (Z.of_nat N)) (Rdiv 1 2%:R)) = Z.of_nat N.
  by rewrite R2E; apply: Int_part_unique; lra.
rewrite Nat2Z.id R2E.
have -> : Int_part (Rplus (Rdiv (INR N) 2) (Rdiv 1 2)) = Z.of_nat (N.+1 %/ 2).
  have EN : (N.+1 = (N.+1 %/ 2) * 2 + N.+1 %% 2)%N by rewrite -divn_eq.
  have Hr : (N.+1 %% 2 < 2)%N by rewrite ltn_mod.
  have E1 : Rplus (INR N) 1 = Rplus (Rmult (INR (N.+1 %/ 2)) 2) (INR (N.+1 %% 2)).
    by rewrite -S_INR {1}EN plus_INR mult_INR.
  have Hr' : INR (N.+1 %% 2) = 0%:R \/ INR (N.+1 %% 2) = 1%:R.
    by move: Hr; case: (N.+1 %% 2)%N => [|[|]] // _; [left|right]; rewrite RnatE.
  rewrite !RnatE /= in Hr'.
  apply: Int_part_unique; rewrite -INR_IZR_INZ; case: Hr' => Hr'; rewrite Hr' in E1; lra.
rewrite Nat2Z.id. have -> : ((N %/ 2)%N == (N.+1 %/ 2)%N) = ~~ odd N by lia.
by case: odd.
Qed.

Section Logdet.
Variable E : eig_routines.
Hypothesis EO : eig_routines_ok E.

(** The result for a sum over a whole spectrum *)
Lemma logdet_ofP u gram square n m (A : 'M[R]_n) p ev s : A \in unitmx ->
  spectrum (map_mx toC A) s -> perm_eq (not_nan ev) s ->
  logdet_of u gram square m p ev =
  Some (if gram && square then Complex (p * ln `|\det A| * 2%:R) (if \det A < 0 then p * PI * 2%:R else 0)
        else Complex (p * ln `|\det A|) (if \det A < 0 then p * PI else 0)).
Proof.
move=> HA Hs Hp. have H0 : 0 \notin s by rewrite -(spectrum_unit Hs) map_unitmx.
have [L1 L2 L3] := log_spectrum HA Hs.
have Hc : csum [seq clog z | z <- not_nan ev] = Some (Complex (ln `|\det A|) ((count negreal s)%:R * PI)).
  rewrite (csumP (g := fun z => Complex (ln (cabs z)) (angle z))); last first.
    move=> z. rewrite (perm_mem Hp) /clog => Hz. case: eqP => // E0. by rewrite -E0 Hz in H0.
  rewrite (perm_big _ Hp) /= -L1 -L2. congr Some. elim: (s) => [|z t IH]; first by rewrite !big_nil.
  by rewrite !big_cons IH.
rewrite /logdet_of Hc [obind _ _]/= logdet_real_resultP -L3 [omap _ (Some _)]/=.
case: eqP => [->|_] /=.
  by rewrite !mul0r !if_same; case: (gram && square); apply/congr1/eqP; rewrite ?mul0r eq_complex /= eqxx.
case: (_ < 0); case: (gram && square); apply/congr1/eqP;
  rewrite eq_complex /= ?mulr0 ?mul0r ?addr0 ?add0r ?subr0 ?mulr2n ?mulr1 ?oppr0 ?mulrDr ?mulr1 ?mulr0 ?addr0 ?subr0 ?mul0r ?add0r;
  apply/andP; split; apply/eqP; rewrite ?mulr1 //; Rring.
Qed.

Definition whole_logdet (sym : bool) n (A : 'M[R]_n) (given : option (seq (option R[i]))) (fraction : option R) : Prop :=
  if given is Some ev then exists2 t, ev = map Some t & spectrum (map_mx toC A) t
  else (sym -> A^T = A) /\ fraction = None.

Lemma logdet_ev sym n (A : 'M[R]_n) given fraction : whole_logdet sym A given fraction ->
  exists ev s, [/\ (if given is Some ev then if size ev == n then Some ev else None
            else logdet_eigenvalues E sym A fraction) = Some ev, spectrum (map_mx toC A) s &
    perm_eq (not_nan ev) s].
Proof.
case: given => [ev [t -> Ht]|[HA ->]] /=.
  by rewrite size_map (spectrum_size Ht) eqxx; eexists; exists t; split=> //; rewrite not_nan_Some.
case: sym HA => HA.
  eexists; exists (map toC (eigh E A)); split=> //.
    by apply/spectrum_toC; apply: (eigh_ok EO); apply: HA.
  by rewrite (map_comp Some toC) not_nan_Some.
by eexists; exists (eig E A); split=> //; [exact: (eig_ok EO)|rewrite not_nan_Some].
Qed.

(** C40 for the log-determinant of every invertible A: the real part is p log
    |det A|, the imaginary part is p pi if the determinant is negative. *)
Theorem C40_logdet sym n (A : 'M[R]_n) given fraction (p : R) :
  whole_logdet sym A given fraction -> A \in unitmx ->
  logdet_eigenvalue E sym false A given fraction p =
  Some (Complex (p * ln `|\det A|) (if \det A < 0 then p * PI else 0)).
Proof.
move=> Hw HA. rewrite /logdet_eigenvalue. have [ev [s [-> Hs Hp]]] := logdet_ev Hw.
by rewrite /= (logdet_ofP _ _ _ _ _ HA Hs Hp).
Qed.

(** With gram=True the value is p log det (A^T A) if det A > 0.  Missing: det A < 0. *)
Theorem C40_logdet_gram_partial sym n (A : 'M[R]_n) given fraction (p : R) :
  whole_logdet sym A given fraction -> 0 < \det A ->
  logdet_eigenvalue E sym true A given fraction p = Some (toC (p * ln (\det (A^T *m A)))%R).
Proof.
move=> Hw Hd. have HA : A \in unitmx by rewrite unitmxE unitfE gt_eqF.
rewrite /logdet_eigenvalue. have [ev [s [-> Hs Hp]]] := logdet_ev Hw.
rewrite /= (logdet_ofP _ _ _ _ _ HA Hs Hp) /= ltNge (ltW Hd) /=.
by rewrite det_mulmx det_tr -expr2 PropChol.ln_sqr // gtr0_norm // -mulrA [_ * 2%:R]mulrC.
Qed.

(** If det A < 0, a number with a non-zero imaginary part is returned as the
    logarithm of the positive number det (A^T A). *)
Theorem C40_logdet_gram_refuted sym n (A : 'M[R]_n) given fraction (p : R) :
  whole_logdet sym A given fraction -> \det A < 0 -> p != 0 ->
  0 < \det (A^T *m A) /\
  exists2 z, logdet_eigenvalue E sym true A given fraction p = Some z & complex.Im z != 0.
Proof.
move=> Hw Hd Hp0. have HA : A \in unitmx by rewrite unitmxE unitfE lt_eqF.
split; first by rewrite det_mulmx det_tr -expr2 exprn_even_gt0 //= lt_eqF.
rewrite /logdet_eigenvalue. have [ev [s [-> Hs Hp]]] := logdet_ev Hw.
rewrite /= (logdet_ofP _ _ _ _ _ HA Hs Hp) /= Hd. eexists; first by [].
have Hpi : PI != 0 by rewrite gt_eqF //; apply/RltP; exact: PI_RGT_0.
have := mulf_neq0 (mulf_neq0 Hp0 Hpi) (_ : 2%:R != 0). by rewrite pnatr_eq0; apply.
Qed.

(** The same value as the Cholesky method for symmetric positive-definite A. *)
Theorem C40_logdet_agrees_with_cholesky (F : CholModel.routines R_rcfType) :
  CholModel.routines_ok F -> forall b sym n (A : 'M[R]_n) (p : R), posdef A ->
  logdet_eigenvalue E sym false A None None p =
  omap toC (CholModel.logdet_square F b false A p).
Proof.
move=> FO b sym n A p HA. rewrite C40_logdet; last exact: posdef_unit.
  rewrite PropChol.C36_logdet // /= (gtr0_norm (det_posdef HA)) ltNge.
  by rewrite (ltW (det_posdef HA)).
by split=> // _; case: HA.
Qed.

(** Matrices with more rows than columns *)
Theorem C40_logdet_tall sym n m (A : 'M[R]_(n, m)) (p : R) : (m < n)%N -> A^T *m A \in unitmx ->
  logdet_eigenvalue_rect E sym A None None p = Some (toC (p * ln (\det (A^T *m A)))%R).
Proof.
move=> Hm HA. rewrite /logdet_eigenvalue_rect /=.
have [_ _ H3] := svdvals_ok EO A. move: H3. rewrite (minn_idPr (ltnW Hm)) subnn cats0 => H3.
have Hge : 0 <= \det (A^T *m A).
  by rewrite (det_spectrum H3) big_map; apply: prodr_ge0 => x _; apply: sqr_ge0.
have /spectrum_toC Hs := H3.
rewrite (logdet_ofP _ _ _ _ _ HA Hs); last by rewrite (map_comp Some) (map_comp toC) not_nan_Some.
by rewrite /= (ger0_norm Hge) ltNge Hge.
Qed.

(** For wide matrices A^T A is singular, but the log-determinant of A A^T is
    returned. *)
Theorem C40_logdet_wide_refuted sym n m (A : 'M[R]_(n, m)) (p : R) : (n < m)%N -> A *m A^T \in unitmx ->
  \det (A^T *m A) = 0 /\
  logdet_eigenvalue_rect E sym A None None p = Some (toC (p * ln (\det (A *m A^T)))%R).
Proof.
move=> Hm HA. have [_ _ H3] := svdvals_ok EO A. rewrite (minn_idPl (ltnW Hm)) in H3.
split.
  rewrite (det_spectrum H3) big_cat /=. have -> : (m - n = (m - n).-1.+1)%N by lia.
  by rewrite /= big_cons mul0r mulr0.
have H4 : spectrum (A *m A^T) [seq x ^+ 2 | x <- svdvals E A].
  apply: (@mulIf _ 'X^m); first by rewrite monic_neq0 // monicXn.
  rewrite -(char_poly_mulC A^T A) H3 big_cat /= -mulrA. congr (_ * _).
  rewrite (eq_big_seq (fun _ => 'X)); last by move=> x /nseqP [-> _]; rewrite subr0.
  by rewrite big_const_seq count_predT size_nseq iter_mulr_1 -exprD subnK // ltnW.
have Hge : 0 <= \det (A *m A^T).
  by rewrite (det_spectrum H4) big_map; apply: prodr_ge0 => x _; apply: sqr_ge0.
have /spectrum_toC Hs := H4. rewrite /logdet_eigenvalue_rect /=.
rewrite (logdet_ofP _ _ _ _ _ HA Hs); last by rewrite (map_comp Some) (map_comp toC) not_nan_Some.
by rewrite /= (ger0_norm Hge) ltNge Hge.
Qed.

End Logdet.

(** Cases: a rotation by 90 degrees has no real eigenvalue; the 1 x 1 matrix -2
    has logarithm log 2 + i pi. *)
Definition turn : 'M[R]_2 := delta_mx 1 0 - delta_mx 0 1.

Example C40_general_case E : eig_routines_ok E -> forall sparse,
  trace_eigenvalue_gen sparse 2 (eigenvalues_gen E turn None None) 2 = Some (- 2%:R).
Proof.
move=> EO sparse. have H : whole_gen turn None None by [].
have [T _] := C40_general_matrix EO sparse 2 H. rewrite T ?orbT // {T}.
congr Some. rewrite [mxpowz _ _]/= /mxpow /= mulmx1 /turn mulmxBl !mulmxBr !mul_delta_mx_cond !mulr0n !mulr1n.
rewrite sub0r subr0 -opprD linearN /= linearD /= /mxtrace !big_ord_recl !big_ord0 !mxE /=.
by rewrite !mulr0n !mulr1n !addr0 !add0r.
Qed.

Example C40_logdet_case E : eig_routines_ok E -> 
  logdet_eigenvalue E false false ((- 2%:R)%:M : 'M[R]_1) None None 1 = Some (Complex (ln 2) PI).
Proof.
move=> EO. rewrite C40_logdet //; first last.
- by rewrite unitmxE det_scalar1 unitfE oppr_eq0 pnatr_eq0.
rewrite det_scalar1 normrN normr_nat oppr_lt0 ltr0n /= !mul1r. by rewrite R2E.
Qed.

(** One call for all of them: each call walks through the whole library. *)
Definition C40_complex_assumptions :=
  (@C40_general,
   @C40_general_matrix,
   @C40_logdet,
   @C40_logdet_gram_partial,
   @C40_logdet_gram_refuted,
   @C40_logdet_agrees_with_cholesky,
   @C40_logdet_tall,
   @C40_logdet_wide_refuted).
Print Assumptions C40_complex_assumptions.
