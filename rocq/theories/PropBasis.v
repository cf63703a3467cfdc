(** C49: the basis functions of kind='imbf' with basis_func_type='ortho' and
    'ortho2' are orthonormal on (0, 1] for the inner product

      <f, g> = integral from 0 to 1 of f(t) g(t) / t dt,

    the one for which the package that generated the coefficients (cited at
    _inverse_monomial_basis_functions_method.py 631-666) orthogonalises. *)
Require Import Reals Lra ZArith.
From Coquelicot Require Import Coquelicot.
From mathcomp Require Import all_ssreflect all_algebra zify.
From Verif Require Import RealField InterpModel PropInterp PropBuild.
Set Implicit Arguments.
Unset Strict Implicit.
Unset Printing Implicit Defensive.
Import Order.TTheory GRing.Theory Num.Theory.
Local Open Scope ring_scope.

(** ** Specification: the integral of [f] over (0, 1] is [l] *)
Definition integral_to_0 (f : R -> R) (l : R) : Prop :=
  forall eps : R, 0 < eps -> exists2 delta : R, 0 < delta &
    forall e : R, 0 < e -> e < delta -> exists2 v : R, is_RInt f e 1%R v & `|v - l| < eps.

(** ** Powers *)
Definition primitive (l : seq (R * R)) := [seq (u.1 / (u.2 + 1), u.2 + 1) | u <- l].

Lemma deriv_primitive l : (forall u, u \in l -> 0 < u.2 + 1) -> PropBuild.deriv (primitive l) = l.
Proof.
move=> H. rewrite /PropBuild.deriv /primitive -map_comp -[RHS]map_id. apply/eq_in_map => u Hu /=.
by rewrite divfK ?gt_eqF ?H // addrK -surjective_pairing.
Qed.

Lemma Rpower1 (p : R) : Rpower (1 : R) p = 1.
Proof. by rewrite /Rpower -[1]/(IZR 1) ln_1 Rmult_0_r exp_0. Qed.

Lemma Rpower_small (p eps : R) : 0 < p -> 0 < eps -> exists2 delta : R, 0 < delta &
  forall e : R, 0 < e -> e < delta -> Rpower e p < eps.
Proof.
move=> Hp He. exists (Rpower eps (1 / p)%R); first by apply/RltP/exp_pos.
move=> e Hpos /RltP Hlt. have Np : p != 0 by rewrite gt_eqF.
have -> : eps = Rpower (Rpower eps (1 / p)%R) p.
  by rewrite Rpower_mult mul1r -[Rmult _ _]/(p^-1 * p) mulVf // Rpower_1 //; apply/RltP.
apply/RltP. apply: exp_increasing. apply: Rmult_lt_compat_l; first exact/RltP.
by apply: ln_increasing => //; apply/RltP.
Qed.

Lemma power_sum_small (l : seq (R * R)) (eps : R) : (forall u, u \in l -> 0 < u.2) -> 0 < eps ->
  exists2 delta : R, 0 < delta & forall e : R, 0 < e -> e < delta -> `|power_sum l e| < eps.
Proof.
elim: l eps => [|u l IH] eps Hl He.
  by exists 1; rewrite ?ltr01 // => e _ _; rewrite /power_sum big_nil normr0.
have He2 : 0 < eps / 2%:R by rewrite divr_gt0 ?ltr0n.
have [d1 Hd1 H1] := IH (eps / 2%:R) (fun v Hv => Hl v (mem_behead (s := u :: l) Hv)) He2.
have c0 : 0 < `|u.1| + 1 by rewrite ltr_paddl ?ltr01.
have [d2 Hd2 H2] := Rpower_small (Hl u (mem_head _ _)) (divr_gt0 He2 c0).
exists (Num.min d1 d2); first by rewrite lt_minr Hd1.
move=> e Hpos; rewrite lt_minr => /andP [/(H1 _ Hpos) L1 /(H2 _ Hpos) L2].
rewrite /power_sum big_cons -/(power_sum l e). apply: le_lt_trans (ler_norm_add _ _) _.
rewrite [X in _ < X](splitr eps). apply: ltr_add => //.
rewrite normrM (ger0_norm (x := Rpower _ _)); last by apply/RleP; left; apply: exp_pos.
apply: le_lt_trans (_ : (`|u.1| + 1) * Rpower e u.2 < _).
  by rewrite ler_pmul2r ?ler_addl ?ler01 //; apply/RltP/exp_pos.
by rewrite -ltr_pdivl_mull // mulrC.
Qed.

Lemma integral_power_sum (l : seq (R * R)) : (forall u, u \in l -> 0 < u.2 + 1) ->
  integral_to_0 (power_sum l) (\sum_(u <- l) u.1 / (u.2 + 1)).
Proof.
move=> Hl eps He.
have Hp u : u \in primitive l -> 0 < u.2 by move=> /mapP [v /Hl Hv ->].
have [d Hd H] := power_sum_small Hp He.
exists (Num.min d 1); first by rewrite lt_minr Hd ltr01.
move=> e Hpos; rewrite lt_minr => /andP [/(H _ Hpos) Hsmall He1].
exists (power_sum (primitive l) 1 - power_sum (primitive l) e); last first.
  have -> : power_sum (primitive l) 1 = \sum_(u <- l) u.1 / (u.2 + 1).
    by rewrite /power_sum /primitive big_map; apply: eq_bigr => u _ /=; rewrite Rpower1 mulr1.
  by rewrite addrAC subrr add0r normrN.
have pos (x : R) : Rle (Rmin e 1) x -> 0 < x.
  move=> /RleP Hx. apply: lt_le_trans Hx. apply/RltP. apply: Rmin_pos; first exact/RltP. exact: Rlt_0_1.
apply: (is_RInt_derive (power_sum (primitive l))) => x [Hx _].
  rewrite -[X in is_derive _ _ (power_sum X x)](deriv_primitive Hl).
  by apply/is_derive_Reals/power_sum_derive/pos.
have := @power_sum_derive l x (pos _ Hx).
move=> /is_derive_Reals D. apply: ex_derive_continuous. by eexists; exact: D.
Qed.

Lemma integral_ext f g l : (forall x : R, 0 < x -> x <= 1 -> f x = g x) -> integral_to_0 f l -> integral_to_0 g l.
Proof.
move=> E H eps He. have [d Hd Hf] := H eps He.
exists (Num.min d 1); first by rewrite lt_minr Hd ltr01.
move=> e Hpos; rewrite lt_minr => /andP [He1 He2]. have [v Hv Hl] := Hf e Hpos He1. exists v => //.
apply: is_RInt_ext Hv => x [Hx1 Hx2]. have L : Rlt e 1 by apply/RltP.
rewrite Rmin_left in Hx1; last by left. rewrite Rmax_right in Hx2; last by left.
by apply: E; [apply: lt_trans Hpos _; apply/RltP|apply/RleP; left].
Qed.

(** ** The Gram matrix, in integers *)
Definition offset (b : basis_type) : nat := if b is Ortho then 1 else 2.
(** the least common multiple of 1, ..., 20 *)
Section Lcm.
Local Open Scope Z_scope.
Definition lcm20 : Z := 232792560.
End Lcm.

Definition zsum (s : seq nat) (f : nat -> Z) : Z := foldr (fun a acc => Z.add (f a) acc) Z0 s.
Definition weight (k0 a b : nat) : Z := Z.div lcm20 (Z.of_nat (a + b + k0 + k0)).
Definition entryZ (b : basis_type) (j i : nat) : Z := nth Z0 (nth [::] (table b) j) i.
Definition gramZ (b : basis_type) (j k : nat) : Z :=
  zsum (iota 0 j.+1) (fun a => Z.mul (Z.mul (entryZ b j a) (Z.of_nat (a + offset b)))
    (zsum (iota 0 k.+1) (fun c => Z.mul (Z.mul (entryZ b k c) (Z.of_nat (c + offset b)))
                                        (weight (offset b) a c)))).

Definition gram_ok (b : basis_type) : bool :=
  all (fun j => all (fun k => Z.eqb (Z.mul 2 (gramZ b j k))
        (if j == k then Z.mul lcm20 (Z.of_nat (j + offset b)) else Z0)) (iota 0 9)) (iota 0 9).

Lemma gram_ortho : gram_ok Ortho. Proof. by vm_compute. Qed.
Lemma gram_ortho2 : gram_ok Ortho2. Proof. by vm_compute. Qed.

Lemma IZR_zsum s f : IZR (zsum s f) = \sum_(a <- s) IZR (f a).
Proof. by elim: s => [|a s IH] /=; rewrite ?big_nil // big_cons plus_IZR IH. Qed.

Lemma weight_ok b a c : (a < 9)%N -> (c < 9)%N ->
  IZR (weight (offset b) a c) = IZR lcm20 / (a + c + offset b + offset b)%:R.
Proof.
have H : all (fun k0 => all (fun a => all (fun c =>
   Z.eqb (Z.mul (weight k0 a c) (Z.of_nat (a + c + k0 + k0))) lcm20) (iota 0 9)) (iota 0 9)) [:: 1; 2]%N.
  by vm_compute.
move=> Ha Hc. have Hb : offset b \in [:: 1; 2]%N by case: (b).
move/allP: H => /(_ _ Hb) /allP /(_ a); rewrite mem_iota => /(_ Ha) /allP /(_ c).
rewrite mem_iota => /(_ Hc) /Z.eqb_eq E.
have N : (a + c + offset b + offset b)%:R != 0 :> R by rewrite pnatr_eq0 !addn_eq0; case: (b); rewrite ?andbF.
by apply: (mulIf N); rewrite divfK // RnatE INR_IZR_INZ -[_ * _]/(Rmult _ _) -mult_IZR E.
Qed.

Lemma phi_power i (t : R) : (0 < i)%N -> 0 < t -> phi i t = Rpower t (1 / i%:R)%R.
Proof. by move=> Hi Ht; rewrite /phi Ht. Qed.

(** the coefficients and exponents of a basis function *)
Definition parts (b : basis_type) (j : nat) : seq (R * R) :=
  [seq ((alpha b)`_j * coef_a b j i, 1 / (i + offset b)%:R) | i <- iota 0 j.+1].

Lemma basis_parts b j (t : R) : b <> NonOrtho -> (j < 9)%N -> 0 < t -> basis b j t = power_sum (parts b j) t.
Proof.
move=> Hb Hj Ht. rewrite /power_sum /parts big_map.
have -> : basis b j t = \sum_(0 <= i < num_basis) (alpha b)`_j * coef_a b j i * phi (i + offset b) t.
  rewrite big_mkord. case: b Hb => // _; rewrite /basis /offset; apply: eq_bigr => i _; by rewrite ?addn1 ?addn2.
rewrite (big_cat_nat _ (n := j.+1)) //= [X in _ + X]big1_seq ?addr0 => [|i]; last first.
  by rewrite mem_index_iota => /andP [_ /andP [H _]]; rewrite table_upper ?mulr0 ?mul0r.
rewrite /index_iota subn0; apply: eq_bigr => i _ /=. rewrite phi_power // addn_gt0. by case: b {Hb}; rewrite orbT.
Qed.

Definition product (b : basis_type) (j k : nat) : seq (R * R) :=
  [seq (u.1 * v.1, u.2 + v.2 - 1) | u <- parts b j, v <- parts b k].

Lemma product_ok b j k (t : R) : 0 < t ->
  power_sum (product b j k) t = power_sum (parts b j) t * power_sum (parts b k) t / t.
Proof.
move=> Ht. rewrite /power_sum /product big_allpairs_dep big_distrl big_distrl /=. apply: eq_bigr => u _.
rewrite big_distrr big_distrl /=. apply: eq_bigr => v _.
rewrite -[_ + _ - 1]/(Rplus (Rplus u.2 v.2) (Ropp 1)) !Rpower_plus Rpower_Ropp Rpower_1; last exact/RltP.
rewrite -RmultE -RinvE ?gt_eqF //. Rring.
Qed.

Lemma parts_pos b j u : u \in parts b j -> 0 < u.2.
Proof.
move=> /mapP [i _ ->] /=. rewrite divr_gt0 ?ltr01 // ltr0n addn_gt0. by case: b; rewrite orbT.
Qed.

Lemma gram_entry b j k : (j < 9)%N -> (k < 9)%N ->
  \sum_(u <- product b j k) u.1 / (u.2 + 1) =
  (alpha b)`_j * (alpha b)`_k * (IZR (gramZ b j k) / IZR lcm20).
Proof.
have small m : (m < 9)%N -> forall a, a \in iota 0 m.+1 -> (a < 9)%N.
  by move=> Hm a; rewrite mem_iota add0n ltnS => /andP [_ Ha]; apply: leq_ltn_trans Ha Hm.
move=> /small Sj /small Sk. rewrite /product /parts /gramZ.
move: (iota 0 j.+1) (iota 0 k.+1) Sj Sk => s s' Sj Sk.
rewrite big_allpairs_dep big_map IZR_zsum big_distrl big_distrr /=.
apply: eq_big_seq => a /Sj La. rewrite big_map mult_IZR -RmultE IZR_zsum.
rewrite big_distrr big_distrl big_distrr /=. apply: eq_big_seq => c /Sk Lc.
have Na : (a + offset b)%:R != 0 :> R by rewrite pnatr_eq0 addn_eq0; case: (b); rewrite ?andbF.
have Nc : (c + offset b)%:R != 0 :> R by rewrite pnatr_eq0 addn_eq0; case: (b); rewrite ?andbF.
have NL : IZR lcm20 != 0 by apply/eqP; apply: not_0_IZR.
have Eac : (a + c + offset b + offset b)%:R = (a + offset b)%:R + (c + offset b)%:R :> R.
  by rewrite -natrD; congr (_%:R); lia.
have Nac : (a + offset b)%:R + (c + offset b)%:R != 0 :> R.
  rewrite -natrD pnatr_eq0 !addn_eq0; by case: (b); rewrite ?andbF.
rewrite !mult_IZR -!RmultE weight_ok // Eac -!INR_IZR_INZ -!RnatE /coef_a -/(entryZ b j a) -/(entryZ b k c) subrK.
have -> : 1 / (a + offset b)%:R + 1 / (c + offset b)%:R =
   ((a + offset b)%:R + (c + offset b)%:R) / ((a + offset b)%:R * (c + offset b)%:R) :> R.
  by rewrite addf_div // !mul1r addrC.
rewrite invf_div.
move: (alpha b)`_j (alpha b)`_k (IZR (entryZ b j a)) (IZR (entryZ b k c)) Na Nc Nac NL.
move: (a + offset b)%:R (c + offset b)%:R (IZR lcm20) => x y L aj ak p q Nx Ny Nxy NL.
move: (x + y)^-1 => z.
have E : p * x * (q * y * (L * z)) = p * x * (q * y * z) * L by rewrite [L * z]mulrC !mulrA.
rewrite E mulfK //. Rring.
Qed.

Lemma alpha_square b j : b <> NonOrtho -> (j < 9)%N -> (alpha b)`_j * (alpha b)`_j = 2%:R / (j + offset b)%:R.
Proof.
have H k : root k * root k = 2%:R / k%:R.
  by rewrite -expr2 sqr_sqrtr // divr_ge0 ?ler0n.
case: b => // _; do 9 (case: j => [_|j]; first by rewrite /= ?mulrNN H); by [].
Qed.

(** ** The theorem *)
Theorem C49_orthonormal (b : basis_type) (j k : nat) :
  b <> NonOrtho -> (j < num_basis)%N -> (k < num_basis)%N ->
  integral_to_0 (fun t => basis b j t * basis b k t / t) (if j == k then 1 else 0).
Proof.
move=> Hb Hj Hk.
have -> : (if j == k then 1 else 0) = \sum_(u <- product b j k) u.1 / (u.2 + 1).
  have NL : IZR lcm20 != 0 by apply/eqP; apply: not_0_IZR.
  have G : gram_ok b.
    case: (b) Hb => Hb; [by case: Hb|exact: gram_ortho|exact: gram_ortho2].
  move: G => /allP /(_ j); rewrite mem_iota => /(_ Hj) /allP /(_ k); rewrite mem_iota => /(_ Hk) /Z.eqb_eq G.
  rewrite gram_entry //.
  have := congr1 IZR G. rewrite mult_IZR -RmultE.
  have T2 : IZR 2 = 2%:R by rewrite RnatE.
  rewrite T2. have N2 : 2%:R != 0 :> R by rewrite pnatr_eq0.
  case: (j =P k) => [<- | _] E.
    rewrite alpha_square // -[IZR (gramZ b j j)](mulKf N2) E mult_IZR -RmultE -INR_IZR_INZ -RnatE.
    have Nj : (j + offset b)%:R != 0 :> R by rewrite pnatr_eq0 addn_eq0; case: (b); rewrite ?andbF.
    move: (j + offset b)%:R Nj (IZR lcm20) NL (2%:R : R) N2 => x Nx L NL y Ny.
    have E2 : y^-1 * (L * x) / L = y^-1 * x by rewrite [L * x]mulrC mulrA mulfK.
    by rewrite E2 mulrACA mulfV // mul1r mulVf.
  have -> : IZR (gramZ b j k) = 0 by apply: (mulfI N2); rewrite E mulr0.
  by rewrite mul0r mulr0.
apply: integral_ext (integral_power_sum _) => [x Hx _|u /allpairsP [[v w] /= [Hv Hw ->]]] /=.
  by rewrite product_ok // -!basis_parts.
by rewrite subrK addr_gt0 ?(parts_pos Hv) ?(parts_pos Hw).
Qed.
