(** The Lanczos and Golub-Kahn iterations on a GPU device: C61. *)
From mathcomp Require Import all_ssreflect all_algebra zify.
From Verif Require Import CblasModel Mem KernelModel KernelSpec KernelProofs.
From Verif Require Import LanczosModel LanczosSpec LanczosMath LanczosProofs.
From Verif Require Import OperatorModel OperatorSpec OperatorProofs GpuModel GpuLanczosModel PropGpu.
Set Implicit Arguments.
Unset Strict Implicit.
Unset Printing Implicit Defensive.
Import GRing.Theory Num.Theory Order.TTheory.
Local Open Scope ring_scope.

(** Two programs with the same outcome, all results of which satisfy [P] *)
Definition same (T : Type) (r1 r2 : option T) (P : T -> Prop) : Prop :=
  r1 = r2 /\ forall x, r2 = Some x -> P x.

Lemma same_bind (S T : Type) (r1 r2 : option S) (k1 k2 : S -> option T) P Q :
  same r1 r2 P -> (forall x, r2 = Some x -> P x -> same (k1 x) (k2 x) Q) ->
  same (obind k1 r1) (obind k2 r2) Q.
Proof. move=> [-> HP] Hk. case: r2 HP Hk => [x|] HP Hk //=. exact: Hk (HP _ _). Qed.

Lemma same_refl (T : Type) (r : option T) : same r r (fun x => True).
Proof. by []. Qed.

Lemma same_ret (T : Type) (x : T) (P : T -> Prop) : P x -> same (Some x) (Some x) P.
Proof. by move=> HP; split => // y [<-]. Qed.

Lemma same_weak (T : Type) (r1 r2 : option T) (P Q : T -> Prop) :
  same r1 r2 P -> (forall x, P x -> Q x) -> same r1 r2 Q.
Proof. by move=> [-> H] HQ; split => // x /H /HQ. Qed.

Lemma same_for (S : Type) (I : nat -> S -> Prop) n f g s : I 0%N s ->
  (forall k s, (k < n)%N -> I k s -> same (f k s) (g k s) (I k.+1)) ->
  same (for_ 0 n 1 f s) (for_ 0 n 1 g s) (I n).
Proof.
move=> H0 Hs. rewrite /for_.
have : forall fuel i s, (i <= n)%N -> I i s -> same (loop fuel i n 1 f s) (loop fuel i n 1 g s) (I n).
{ elim => [|fuel IH] i s' Hi HI /=; case: (ltnP i n) => Hlt //.
  - apply: same_ret. by have <- : i = n by lia.
  - apply: same_bind (Hs _ _ Hlt HI) _ => x _ Hx. rewrite addn1. exact: IH.
  - apply: same_ret. by have <- : i = n by lia. }
by apply.
Qed.

Lemma gs_num_steps_ortho (k bs n : nat) : (k <= bs)%N -> (gs_num_steps k%:Z bs n <= k)%N.
Proof.
move=> Hk. rewrite /gs_num_steps. case: ifP => // _.
have -> : (k%:Z < 0) || (bs%:Z < k%:Z) = false by lia.
by rewrite /=; case: ltnP => // H; lia.
Qed.

Section Steps.
Variable R : rcfType.
Variable eps : R.
Hypothesis eps_gt0 : 0 < eps.
Hypothesis eps_small : 4%:R * eps <= 1.
Variable n : nat.
Hypothesis n_gt0 : (0 < n)%N.
Hypothesis eps_n : eps * n%:R <= 1.
Implicit Types (u v x y r V : seq R).

(** ** Gram-Schmidt *)

Lemma cu_gs_same u v : (n <= size u)%N -> (n <= size v)%N -> nrm (vec n u) = 1 ->
  same (cu_gs_step eps n u v) (gs_step eps n u v) (fun v' => size v' = size v).
Proof.
move=> Hu Hv Hn1. split; last first.
{ move=> v' E. have [w [E' _ S _]] := gs_step_ok eps_gt0 n_gt0 Hu Hv. by move: E'; rewrite E => [[->]]. }
rewrite /cu_gs_step /gs_step.
have [-> _ _] := C60_norms Hu Hv. have [-> _ _] := C60_norms Hv Hu.
have [_ _ _ ->] := C60_vectors 0 Hu Hv.
rewrite (euclidean_norm_nrm Hu) (euclidean_norm_nrm Hv) (inner_product_ip Hu Hv) Hn1 [obind _ _]/=.
rewrite [RHS]/=. case: ifP => // _. rewrite mulr1 /dv oner_eq0 /= divr1.
set s := ip _ _. set nv := nrm _.
have [_ _ -> _] := C60_vectors s Hu Hv.
case: (lerP 0 s) => Hs; first by rewrite (ger0_norm Hs).
have -> : `|s - 1| <= 2%:R * eps = false.
{ apply/negbTE. rewrite -ltNge ltr0_norm; last by rewrite subr_lt0 (lt_trans Hs ltr01).
  rewrite opprB. apply: lt_le_trans (_ : 1 <= _); last by rewrite ler_addl oppr_ge0 ltW.
  apply: lt_le_trans eps_small. by rewrite ltr_pmul2r // ltr_nat. }
case: ifP => //= Hc. rewrite ifF //. apply/negbTE. rewrite -leNgt.
have Hs1 : 1 - 2%:R * eps <= - s.
{ move: Hc. rewrite (ltr0_norm Hs) ler_norml => /andP [Hc _].
  by rewrite ler_subr_addr addrC in Hc. }
apply: le_trans (_ : 2%:R <= _).
{ rewrite -mulrA -[X in _ <= X]mulr1. by rewrite ler_pmul2l ?ltr0n. }
apply: le_trans (_ : 0 - 2%:R * s + 1 <= _); last first.
{ by rewrite ler_add2r ler_add2r -expr2 sqr_ge0. }
rewrite add0r -mulrN.
have H2 : 2%:R * (1 - 2%:R * eps) <= 2%:R * - s by rewrite ler_pmul2l ?ltr0n.
apply: le_trans (_ : 2%:R * (1 - 2%:R * eps) + 1 <= _); last by rewrite ler_add2r.
rewrite mulrBr mulr1 mulrA -natrM -addrA ler_addl addrC subr_ge0. exact: eps_small.
Qed.

Lemma cu_gram_schmidt_same V bs l o r : (bs * n <= size V)%N -> (n <= size r)%N ->
  (forall s, (s < gs_num_steps o bs n)%N -> nrm (slot n V (gs_index bs l s)) = 1) ->
  same (cu_gram_schmidt eps V n bs l o r) (gram_schmidt eps V n bs l o r) (fun r' => size r' = size r).
Proof.
move=> HV Hr Hn1.
apply: (same_for (I := fun _ r' => size r' = size r)) => // k r1 Hk Hr1.
have Hi : (gs_index bs l k < bs)%N.
{ apply: gs_index_lt. exact: leq_trans Hk (gs_num_steps_le _ _ _). }
rewrite -Hr1 mulnC. apply: cu_gs_same; rewrite ?Hr1 //.
- exact: size_at Hi HV.
- exact: Hn1.
Qed.

(** Reading from a slot, writing to another *)
Lemma cu_gram_schmidt_inside_same V bs l o t : (bs * n <= size V)%N -> (t < bs)%N ->
  (forall s, (s < gs_num_steps o bs n)%N -> gs_index bs l s != t) ->
  (forall s, (s < gs_num_steps o bs n)%N -> nrm (slot n V (gs_index bs l s)) = 1) ->
  same (cu_gram_schmidt_inside eps V n bs l o (t * n)) (gram_schmidt_inside eps V n bs l o (t * n))
    (fun V' => size V' = size V /\ forall i, i != t -> slot n V' i = slot n V i).
Proof.
move=> HV Ht Hd Hn1.
apply: (same_for (I := fun _ V' => size V' = size V /\ forall i, i != t -> slot n V' i = slot n V i)) => //.
move=> k V1 Hk [S1 E1].
have Hi : (gs_index bs l k < bs)%N.
{ apply: gs_index_lt. exact: leq_trans Hk (gs_num_steps_le _ _ _). }
have HV1 : (bs * n <= size V1)%N by rewrite S1.
have Hn1' : nrm (vec n (at_ V1 (n * gs_index bs l k))) = 1.
{ rewrite mulnC -/(slot n V1 (gs_index bs l k)) E1; [exact: Hn1 | exact: Hd]. }
have Hu : (n <= size (at_ V1 (n * gs_index bs l k)))%N by rewrite mulnC; exact: size_at Hi HV1.
have [E _] := cu_gs_same Hu (size_at Ht HV1) Hn1'. split; first by rewrite /upd_at E.
move=> V2 E2. have W := gs_step_ok eps_gt0 n_gt0 Hu (size_at Ht HV1).
have [V3 [E3 S3 O3]] := upd_slot Ht HV1 W. move: E2; rewrite E3 => [[<-]].
split; first by rewrite S3. move=> i Hi'. by rewrite O3 (negbTE Hi') E1.
Qed.

(** ** Lanczos *)
Variables A_dot cu_A_dot : seq R -> seq R -> option (seq R).
Hypothesis A_writes : forall x y, (n <= size x)%N -> (n <= size y)%N ->
  exists w : 'cV[R]_n, writes y w (A_dot x y).
Hypothesis A_same : forall x y, (n <= size x)%N -> (n <= size y)%N -> cu_A_dot x y = A_dot x y.
Variable m : nat.

Section Lanczos.
Variable orth : int.
Variable tol : R.
Notation bs := (lanczos_buffer_size orth m).
Variables alpha0 beta0 V0 r0 : seq R.
Hypothesis V_size : (bs * n <= size V0)%N.
Hypothesis r_size : (n <= size r0)%N.
Variable b0 : R.

(** The vectors in the buffer have norm 1, and beta holds the norm of r *)
Definition unit_inv (j : nat) (s : lz_state R) : Prop :=
  [/\ size (lz_V s) = size V0, size (lz_r s) = size r0 &
      lz_stop s \/
      [/\ (j = 0%N -> b0 = nrm (vec n (lz_r s))),
          (forall b, (0 < j)%N -> rd (lz_beta s) j.-1 = Some b -> b = nrm (vec n (lz_r s))) &
          forall i, (i < j)%N -> (j <= i + bs)%N -> nrm (slot n (lz_V s) (i %% bs)) = 1]].

Lemma cu_lanczos_body_same j s : (j < m)%N -> unit_inv j s ->
  same (cu_lanczos_body eps cu_A_dot n bs tol orth b0 j s) (lanczos_body eps A_dot n bs tol orth b0 j s)
    (unit_inv j.+1).
Proof.
move=> Hj [SV Sr Hs]. rewrite /cu_lanczos_body /lanczos_body.
case Est : (lz_stop s) Hs => Hs.
{ apply: same_ret. split => //. by left. }
case: Hs => // - [Hb0 Hb Hn1].
have Hbs : (0 < bs)%N by apply: bs_gt0; lia.
have Hjb : (j %% bs < bs)%N by rewrite ltn_mod.
have HV : (bs * n <= size (lz_V s))%N by rewrite SV.
have Hr : (n <= size (lz_r s))%N by rewrite Sr.
(* the scale *)
apply: (same_bind (P := fun c => nrm (c *: vec n (lz_r s)) = 1)).
{ split => // c.
  have dv1 b : b = nrm (vec n (lz_r s)) -> dv 1 b = Some c -> nrm (c *: vec n (lz_r s)) = 1.
  { move=> ->. rewrite /dv. case: eqP => // /eqP Hz [<-]. rewrite div1r nrmZ normfV ger0_norm ?nrm_ge0 //.
    by rewrite mulVf. }
  case: eqP => [H0|/eqP H0]; first exact: dv1 (Hb0 H0).
  rewrite -lt0n in H0. case E: rd => [b|] //=. exact: dv1 (Hb b H0 E). }
move=> c _ Hc.
have Wc := copy_scaled_vector_ok c Hr (size_at Hjb HV).
apply: (same_bind (P := fun V => size V = size V0 /\
   forall i, (i <= j)%N -> (j < i + bs)%N -> nrm (slot n V (i %% bs)) = 1)).
{ split.
  - rewrite /upd_at. by have [_ -> _ _] := C60_vectors c Hr (size_at Hjb HV).
  - move=> V. have [V' [-> S' O']] := upd_slot Hjb HV Wc. move=> [<-]. split; first by rewrite S'.
    move=> i Hi1 Hi2. rewrite O'. case: eqP => // /eqP Hne. apply: Hn1; last by lia.
    rewrite ltn_neqAle Hi1 andbT. apply/negP => /eqP E. by rewrite E eqxx in Hne. }
move=> V _ [SV1 HVn].
have HV1 : (bs * n <= size V)%N by rewrite SV1.
have Hvj : (n <= size (at_ V ((j %% bs) * n)))%N := size_at Hjb HV1.
apply: (same_bind (P := fun r => size r = size r0)).
{ rewrite A_same //. split => // r. have [w [r' [-> _ S _]]] := A_writes Hvj Hr. move=> [<-]. by rewrite S. }
move=> r1 _ Sr1. have Hr1 : (n <= size r1)%N by rewrite Sr1.
apply: (same_bind (P := fun _ => True)).
{ split => //. by have [_ _ _ ->] := C60_vectors 0 Hvj Hr1. }
move=> a _ _. apply: (same_bind (P := fun _ => True)); first by split.
move=> al _ _.
have sub_ok x y z : (n <= size x)%N -> (n <= size y)%N ->
    same (cu_subtract_scaled_vector x n z y) (subtract_scaled_vector x n z y) (fun y' => size y' = size y).
{ move=> Hx Hy. have [_ _ -> _] := C60_vectors z Hx Hy. split => // y' E.
  have [w [E' _ S _]] := subtract_scaled_vector_ok z Hx Hy. by move: E'; rewrite E => [[->]]. }
apply: same_bind (sub_ok _ _ a Hvj Hr1) _ => r2 _ Sr2. have Hr2 : (n <= size r2)%N by rewrite Sr2.
apply: (same_bind (P := fun r => size r = size r0)).
{ case: ifP => H0; last by apply: same_ret; rewrite Sr2.
  apply: (same_bind (P := fun _ => True)); first by split.
  move=> b _ _. have Hpb : (j.-1 %% bs < bs)%N by rewrite ltn_mod.
  apply: same_weak (sub_ok _ _ b (size_at Hpb HV1) Hr2) _ => r3 ->. by rewrite Sr2. }
move=> r3 _ Sr3. have Hr3 : (n <= size r3)%N by rewrite Sr3.
apply: (same_bind (P := fun r => size r = size r0)).
{ case: ifP => Ho; last exact: same_ret.
  apply: (same_weak (P := fun r => size r = size r3)); last by move=> r ->.
  apply: cu_gram_schmidt_same => // st Hst.
  have Hst1 : (st < bs)%N := leq_trans Hst (gs_num_steps_le _ _ _).
  have Hst2 : (st <= j)%N.
  { move: Hst. case: (ltnP j bs) => Hjbs Hst.
    - have := gs_num_steps_ortho n Hjbs. lia.
    - lia. }
  rewrite gs_index_circular //. apply: HVn; lia. }
move=> r4 _ Sr4. have Hr4 : (n <= size r4)%N by rewrite Sr4.
apply: (same_bind (P := fun b => b = nrm (vec n r4))).
{ have [-> _ _] := C60_norms Hr4 Hr4. split => // b. by rewrite (euclidean_norm_nrm Hr4) => [[<-]]. }
move=> b _ Hbn. apply: (same_bind (P := fun be => rd be j = Some b)).
{ split => // be E. have Hsz := size_wr E. have Hjs : (j < size (lz_beta s))%N.
  { by move: E; rewrite /wr; case: ifP. }
  by rewrite (rdE 0) ?Hsz // (nth_wr 0 j E) eqxx. }
move=> be _ Hbe. apply: same_ret. split => //. right. split => //.
by move=> b' _ /=; rewrite Hbe => [[<-]].
Qed.
End Lanczos.

Theorem cu_lanczos_same v tol orth alpha0 beta0 V0 r0 : (n <= size v)%N ->
  (lanczos_buffer_size orth m * n <= size V0)%N -> (n <= size r0)%N ->
  cu_lanczos eps cu_A_dot v n m tol orth V0 r0 alpha0 beta0 = lanczos eps A_dot v n m tol orth V0 r0 alpha0 beta0.
Proof.
move=> Hv HV Hr. rewrite /cu_lanczos /lanczos.
suff : same (cu_lanczos eps cu_A_dot v n m tol orth V0 r0 alpha0 beta0)
            (lanczos eps A_dot v n m tol orth V0 r0 alpha0 beta0) (fun _ => True) by case.
apply: (same_bind (P := fun r => size r = size r0)).
{ have [-> _ _ _] := C60_vectors 0 Hv Hr. split => // r.
  have [r' [-> _ S _]] := copy_vector_ok Hv Hr. by move=> [<-]. }
move=> r _ Sr. have Hr' : (n <= size r)%N by rewrite Sr.
apply: (same_bind (P := fun b => b = nrm (vec n r))).
{ have [-> _ _] := C60_norms Hr' Hr'. split => // b. by rewrite (euclidean_norm_nrm Hr') => [[<-]]. }
move=> b _ Hb. apply: (same_bind (P := fun _ => True)) => //.
apply: same_weak (_ : same _ _ (unit_inv orth V0 r0 b m)) _ => //.
apply: same_for; last by move=> k s Hk; exact: cu_lanczos_body_same.
split => //. by right; split.
Qed.

(** ** Golub-Kahn *)
Variables A_tdot cu_A_tdot : seq R -> seq R -> option (seq R).
Hypothesis At_writes : forall x y, (n <= size x)%N -> (n <= size y)%N ->
  exists w : 'cV[R]_n, writes y w (A_tdot x y).
Hypothesis At_same : forall x y, (n <= size x)%N -> (n <= size y)%N -> cu_A_tdot x y = A_tdot x y.

Section GolubKahn.
Variable orth : int.
Variable tol : R.
Hypothesis tol_gt0 : 0 < tol.
Notation bs := (gk_buffer_size orth m).
Variables U0 V0 : seq R.
Hypothesis U_size : (bs * n <= size U0)%N.
Hypothesis V_size : (bs * n <= size V0)%N.

Lemma gk_bs_gt0 : (0 < m)%N -> (0 < bs)%N.
Proof. by rewrite /gk_buffer_size => Hm; case: ifP => // _; case: ifP. Qed.

Lemma gk_bs_gt1 : (1 < m)%N -> (1 < bs)%N.
Proof.
rewrite /gk_buffer_size => Hm; case: ifP => // H0; case: ifP => // _. by rewrite ltnS absz_gt0 H0.
Qed.

Definition gk_unit_inv (j : nat) (s : gk_state R) : Prop :=
  [/\ size (gk_U s) = size U0, size (gk_V s) = size V0 &
      gk_stop s \/
      (forall i, (i < j)%N -> (j <= i + bs)%N -> nrm (slot n (gk_U s) (i %% bs)) = 1) /\
      (forall i, (i <= j)%N -> (j < i + bs)%N -> nrm (slot n (gk_V s) (i %% bs)) = 1)].

(** Changing one slot *)
Lemma same_upd V t f g : (bs * n <= size V)%N -> (t < bs)%N ->
  f (drop (t * n) V) = g (drop (t * n) V) ->
  (exists w : 'cV[R]_n, writes (drop (t * n) V) w (g (drop (t * n) V))) ->
  same (upd_at V (t * n) f) (upd_at V (t * n) g)
    (fun V' => size V' = size V /\ forall i, i != t -> slot n V' i = slot n V i).
Proof.
move=> HV Ht E [w W]. split; first by rewrite /upd_at E.
move=> V' E'. have [V2 [E2 S2 O2]] := upd_slot Ht HV W. move: E'; rewrite E2 => [[<-]].
split => // i Hi. by rewrite O2 (negbTE Hi).
Qed.

Lemma same_sub V t (u : seq R) z : (bs * n <= size V)%N -> (t < bs)%N -> (n <= size u)%N ->
  same (upd_at V (t * n) (cu_subtract_scaled_vector u n z)) (upd_at V (t * n) (subtract_scaled_vector u n z))
    (fun V' => size V' = size V /\ forall i, i != t -> slot n V' i = slot n V i).
Proof.
move=> HV Ht Hu. apply: same_upd => //.
- by have [_ _ -> _] := C60_vectors z Hu (size_at Ht HV).
- eexists. exact: subtract_scaled_vector_ok Hu (size_at Ht HV).
Qed.

Lemma same_normalize V t : (bs * n <= size V)%N -> (t < bs)%N ->
  same (cu_normalize_at V (t * n) n) (normalize_at V (t * n) n)
    (fun p => size p.2 = size V /\ (p.1 != 0 -> nrm (slot n p.2 t) = 1) /\
              forall i, i != t -> slot n p.2 i = slot n V i).
Proof.
move=> HV Ht. split.
- rewrite /cu_normalize_at /normalize_at. by have [_ -> _] := C60_norms (size_at Ht HV) (size_at Ht HV).
- move=> p. have [V' [-> S O]] := normalize_at_ok Ht HV. move=> [<-] /=. split => //. split.
  + move=> Hz. rewrite O eqxx nrmZ normfV ger0_norm ?nrm_ge0 // mulVf //.
  + move=> i Hi. by rewrite O (negbTE Hi).
Qed.

Lemma cu_gk_body_same j s : (j < m)%N -> gk_unit_inv j s ->
  same (cu_gk_body eps cu_A_dot cu_A_tdot n bs tol orth j s) (gk_body eps A_dot A_tdot n bs tol orth j s)
    (gk_unit_inv j.+1).
Proof.
move=> Hj [SU SV Hs]. rewrite /cu_gk_body /gk_body.
case Est : (gk_stop s) Hs => Hs.
{ apply: same_ret. split => //. by left. }
case: Hs => // - [HUn HVn].
have Hbs : (0 < bs)%N by apply: gk_bs_gt0; slia.
have Hbs1 : (0 < j)%N -> (1 < bs)%N by move=> H; apply: gk_bs_gt1; slia.
have Hc : (j %% bs < bs)%N by rewrite ltn_mod.
have Hx : (j.+1 %% bs < bs)%N by rewrite ltn_mod.
have HU : (bs * n <= size (gk_U s))%N by rewrite SU.
have HV : (bs * n <= size (gk_V s))%N by rewrite SV.
set no := (if (j < bs)%N then j else (bs - 1)%N).
have Hno : (no <= j)%N /\ (no < bs)%N by rewrite /no; case: ltnP => H; slia.
pose keepU (U : seq R) := size U = size U0 /\
  forall i, (i < j)%N -> (j < i + bs)%N -> nrm (slot n U (i %% bs)) = 1.
have keepU_step U U' : keepU U -> size U' = size U ->
   (forall i, i != j %% bs -> slot n U' i = slot n U i)%N -> keepU U'.
{ move=> [S1 H1] S2 H2. split; first by rewrite S2. move=> i Hi1 Hi2. rewrite H2; first exact: H1.
  exact: circular_neq. }
apply: (same_bind (P := keepU)).
{ apply: same_weak (same_upd HU Hc _ _) _.
  - by rewrite A_same // (size_at Hc).
  - by apply: A_writes; apply: (size_at Hc).
  - move=> U [S1 O1]. apply: (keepU_step (gk_U s)) => //. split => // i H1 H2. apply: HUn => //. slia. }
move=> U1 _ K1. have HU1 : (bs * n <= size U1)%N by case: K1 => ->.
apply: (same_bind (P := keepU)).
{ case: ifP => H0; last exact: same_ret.
  apply: (same_bind (P := fun _ => True)); first by split.
  move=> b _ _. have Hp : (j.-1 %% bs < bs)%N by rewrite ltn_mod.
  apply: same_weak (same_sub b HU1 Hc (size_at Hp HU1)) _ => U [S2 O2]. exact: keepU_step K1 S2 O2. }
move=> U2 _ K2. have HU2 : (bs * n <= size U2)%N by case: K2 => ->.
apply: (same_bind (P := keepU)).
{ case: ifP => H0; last exact: same_ret. case/andP: H0 => _ H0.
  have Hidx st : (st < gs_num_steps no%:Z bs n)%N ->
      gs_index bs (j.-1 %% bs) st = ((j.-1 - st) %% bs)%N /\ (st < no)%N.
  { move=> Hst. have Hst' : (st < no)%N by apply: leq_trans Hst (gs_num_steps_ortho _ _); slia.
    split => //. apply: gs_index_circular; slia. }
  apply: same_weak (cu_gram_schmidt_inside_same (l := (j.-1 %% bs)%N) (o := no%:Z) HU2 Hc _ _) _.
  - move=> st /Hidx [-> Hst]. apply: circular_neq; slia.
  - move=> st /Hidx [-> Hst]. case: K2 => _ K2. apply: K2; slia.
  - move=> U [S3 O3]. exact: keepU_step K2 S3 O3. }
move=> U3 _ K3. have HU3 : (bs * n <= size U3)%N by case: K3 => ->.
apply: same_bind (same_normalize HU3 Hc) _ => -[a U4] _ /= [S4 [N4 O4]].
case: eqP => Ha //. have {}N4 := N4 (introN eqP Ha).
have HU4 : (bs * n <= size U4)%N by rewrite S4.
apply: (same_bind (P := fun _ => True)); first by split.
move=> al _ _.
pose keepV (V : seq R) := size V = size V0 /\
  forall i, (i <= j)%N -> (j.+1 < i + bs)%N -> nrm (slot n V (i %% bs)) = 1.
have keepV_step V V' : keepV V -> size V' = size V ->
   (forall i, i != j.+1 %% bs -> slot n V' i = slot n V i)%N -> keepV V'.
{ move=> [S1 H1] S2 H2. split; first by rewrite S2. move=> i Hi1 Hi2. rewrite H2; first exact: H1.
  exact: circular_neq. }
apply: (same_bind (P := keepV)).
{ apply: same_weak (same_upd HV Hx _ _) _.
  - apply: At_same; [exact: size_at Hc HU4 | exact: size_at Hx HV].
  - apply: At_writes; [exact: size_at Hc HU4 | exact: size_at Hx HV].
  - move=> V [S1 O1]. apply: (keepV_step (gk_V s)) => //. split => // i H1 H2. apply: HVn => //. slia. }
move=> V1 _ L1. have HV1 : (bs * n <= size V1)%N by case: L1 => ->.
apply: (same_bind (P := keepV)).
{ apply: same_weak (same_sub a HV1 Hx (size_at Hc HV1)) _ => V [S2 O2]. exact: keepV_step L1 S2 O2. }
move=> V2 _ L2. have HV2 : (bs * n <= size V2)%N by case: L2 => ->.
apply: (same_bind (P := keepV)).
{ case: ifP => H0; last exact: same_ret.
  have Hidx st : (st < gs_num_steps no%:Z bs n)%N ->
      gs_index bs (j %% bs) st = ((j - st) %% bs)%N /\ (st < no)%N.
  { move=> Hst. have Hst' : (st < no)%N by apply: leq_trans Hst (gs_num_steps_ortho _ _); slia.
    split => //. apply: gs_index_circular; slia. }
  apply: same_weak (cu_gram_schmidt_inside_same (l := (j %% bs)%N) (o := no%:Z) HV2 Hx _ _) _.
  - move=> st /Hidx [-> Hst]. apply: circular_neq; slia.
  - move=> st /Hidx [-> Hst]. case: L2 => _ L2. apply: L2; slia.
  - move=> V [S3 O3]. exact: keepV_step L2 S3 O3. }
move=> V3 _ L3. have HV3 : (bs * n <= size V3)%N by case: L3 => ->.
apply: same_bind (same_normalize HV3 Hx) _ => -[b V4] _ /= [T4 [M4 Q4]].
apply: (same_bind (P := fun _ => True)); first by split.
move=> be _ _. apply: same_ret. split => /=.
- by rewrite S4; case: K3.
- by rewrite T4; case: L3.
- case: ltP => Hlt; [by left | right].
  have Hb0 : b != 0.
  { apply: lt0r_neq0. apply: lt_le_trans Hlt. by rewrite mulr_gt0 // sqrt_n_gt0. }
  split => i Hi1 Hi2.
  + case: (ltnP i j) => Hij; last by have -> : i = j by slia.
    rewrite O4; last by apply: circular_neq; slia. case: K3 => _ K3. apply: K3; slia.
  + case: (leqP i j) => Hij; last by (have -> : i = j.+1 by slia); exact: M4.
    rewrite Q4; last by apply: circular_neq; slia. case: L3 => _ L3. apply: L3; slia.
Qed.

Theorem cu_golub_kahn_same v alpha0 beta0 : (n <= size v)%N -> (0 < m)%N ->
  cu_golub_kahn eps cu_A_dot cu_A_tdot v n m tol orth U0 V0 alpha0 beta0 =
  golub_kahn eps A_dot A_tdot v n m tol orth U0 V0 alpha0 beta0.
Proof.
move=> Hv Hm. rewrite /cu_golub_kahn /golub_kahn.
have Hbs := gk_bs_gt0 Hm.
have HnV : (n <= size V0)%N by apply: leq_trans V_size; rewrite leq_pmull.
have [-> _ _ _] := C60_vectors 0 Hv HnV.
have [V [-> EV SV OV]] := copy_vector_ok Hv HnV. rewrite [obind _ _]/=.
have HV : (n <= size V)%N by rewrite SV.
have [_ -> _] := C60_norms HV HV.
have E : normalize_vector_in_place V n = normalize_vector_and_copy v n V0.
{ rewrite /normalize_vector_in_place /normalize_vector_and_copy.
  rewrite (euclidean_norm_nrm HV) (euclidean_norm_nrm Hv) EV [obind _ _]/= [RHS]/=.
  set z := nrm _.
  have W1 := divide_loop z HV. have W2 := divide_copy_loop z Hv HnV.
  suff -> : for_ 0 n 1 (fun i x => do a <- rd x i; wr x i (a / z)) V
          = for_ 0 n 1 (fun i y => do a <- rd v i; wr y i (a / z)) V0 by [].
  apply: (PropCblas.writes_uniq (v := z^-1 *: vec n v)) W2.
  case: W1 => V' [E1 E2 E3 E4]. exists V'. split => //; first by rewrite -EV.
  + by rewrite E3.
  + by move=> k Hk; rewrite E4 // OV. }
rewrite -E {E}.
have S0 : (bs * n <= size V)%N by rewrite SV.
have := normalize_at_ok Hbs S0. rewrite mul0n /normalize_at drop0 take0.
have [V' [E [EV' SV' OV']]] := normalize_in_place_ok HV. rewrite E /=.
move=> [V'' [[E1 E2] S2 O2]]. rewrite -E2 {E2 V''} in S2 O2.
rewrite E1. case: eqP => Hz //.
suff : same (for_ 0 m 1 (cu_gk_body eps cu_A_dot cu_A_tdot n bs tol orth) (GkState U0 V' alpha0 beta0 0 false))
            (for_ 0 m 1 (gk_body eps A_dot A_tdot n bs tol orth) (GkState U0 V' alpha0 beta0 0 false))
            (gk_unit_inv m) by move=> [-> _].
apply: same_for; last by move=> k s Hk; exact: cu_gk_body_same.
split => //=; first by rewrite S2 SV. right. split => // i Hi _.
have -> : i = 0%N by lia. rewrite mod0n O2 eqxx nrmZ normfV ger0_norm ?nrm_ge0 // mulVf //. exact/eqP.
Qed.
End GolubKahn.
End Steps.

Section Refuted.
Variables (R : rcfType) (eps : R) (n : nat).
Implicit Types (u v : seq R).

(** The counterpart without the bound on the size of the vector: the CPU
    leaves the opposite of a unit vector as it is, the device removes it *)
Theorem C61_gram_schmidt_refuted u v : (n <= size u)%N -> (n <= size v)%N ->
  nrm (vec n u) = 1 -> vec n v = - vec n u -> 0 < eps -> 2%:R * eps < 1 ->
  eps * Num.sqrt n%:R <= 1 -> 2%:R < eps * n%:R ->
  writes v (vec n v) (gs_step eps n u v) /\ writes v (0 : 'cV[R]_n) (cu_gs_step eps n u v).
Proof.
move=> Hu Hv Hn1 Ev Heps Heps1 He Hen.
have Hip : ip (vec n u) (vec n v) = -1 by rewrite Ev ipNr -nrm_sqr Hn1 expr1n.
have Hnv : nrm (vec n v) = 1.
{ rewrite Ev /nrm. have -> : ip (- vec n u) (- vec n u) = ip (vec n u) (vec n u).
  { by rewrite ipNr ipC ipNr opprK. } exact: Hn1. }
split.
- rewrite /gs_step (euclidean_norm_nrm Hu) (euclidean_norm_nrm Hv) (inner_product_ip Hu Hv) Hn1 Hnv Hip /=.
  rewrite ltNge He /= mulr1 /dv oner_eq0 /= divr1 normrN1 subrr normr0 ifT; last by rewrite mulr_ge0 // ?ler0n // ltW.
  rewrite /= ifT; first exact: writes_refl.
  rewrite mulrN1 opprK -mulrA.
  have -> : 1 + 2%:R + 1 = 2%:R * 2%:R :> R by rewrite -natrM -(natrD _ 1 2) -(natrD _ 3 1).
  by rewrite ltr_pmul2l // ltr0n.
- rewrite /cu_gs_step. have [-> _ _] := C60_norms Hu Hv. have [-> _ _] := C60_norms Hv Hu.
  have [_ _ _ ->] := C60_vectors 0 Hu Hv.
  rewrite (euclidean_norm_nrm Hu) (inner_product_ip Hu Hv) Hn1 Hip [obind _ _]/=.
  rewrite ltNge He /= mulr1 /dv oner_eq0 /= divr1 ifF.
  { have [_ _ -> _] := C60_vectors (-1) Hu Hv. rewrite /=.
    apply: writes_eq (subtract_scaled_vector_ok (-1) Hu Hv). by rewrite Ev scaleN1r subrr. }
  apply/negbTE. rewrite -ltNge -opprD normrN -(natrD _ 1 1) normr_nat.
  apply: lt_trans Heps1 _. by rewrite ltr1n.
Qed.
End Refuted.

(** ** C61 *)
Section C61.
Variables (R : rcfType) (eps : R) (n : nat).
Implicit Types (s A : storage R) (B : option (storage R)) (v : seq R).

(** With a matrix: on every device the iterations return what they return on the
    CPU, for all starting vectors, degrees, tolerances, kinds of
    reorthogonalisation and contents of the buffers, as long as the size of the
    matrix is at most the inverse of the machine epsilon *)
Theorem C61_lanczos_partial s (devices d : nat) v m tol orth V0 r0 alpha0 beta0 :
  from_scipy s n n -> (0 < n)%N -> (d < devices)%N ->
  0 < eps -> 4%:R * eps <= 1 -> eps * n%:R <= 1 ->
  (n <= size v)%N -> (lanczos_buffer_size orth m * n <= size V0)%N -> (n <= size r0)%N ->
  exists2 M, copy_host_to_device s n n devices = Some M &
  cu_lanczos eps (cu_dot M d n n) v n m tol orth V0 r0 alpha0 beta0 =
  lanczos eps (dot s n n) v n m tol orth V0 r0 alpha0 beta0.
Proof.
move=> Hs Hn Hk He He4 Hen Hv HV Hr. have Hw := from_scipy_wf Hs.
have [M EM _] := C60_same_partial 0 Hs Hn Hk Hr Hr. exists M => //.
apply: cu_lanczos_same => //.
- move=> x y Hx Hy. eexists. exact: dot_ok Hw Hx Hy.
- move=> x y Hx Hy. have [M' EM' [E _ _ _]] := C60_same_partial 0 Hs Hn Hk Hx Hy.
  by move: EM'; rewrite EM => [[->]].
Qed.

Theorem C61_golub_kahn_partial s (devices d : nat) v m tol orth U0 V0 alpha0 beta0 :
  from_scipy s n n -> (0 < n)%N -> (d < devices)%N ->
  0 < eps -> 4%:R * eps <= 1 -> eps * n%:R <= 1 -> 0 < tol -> (0 < m)%N ->
  (n <= size v)%N -> (gk_buffer_size orth m * n <= size U0)%N -> (gk_buffer_size orth m * n <= size V0)%N ->
  exists2 M, copy_host_to_device s n n devices = Some M &
  cu_golub_kahn eps (cu_dot M d n n) (cu_transpose_dot M d n n) v n m tol orth U0 V0 alpha0 beta0 =
  golub_kahn eps (dot s n n) (transpose_dot s n n) v n m tol orth U0 V0 alpha0 beta0.
Proof.
move=> Hs Hn Hk He He4 Hen Ht Hm Hv HU HV. have Hw := from_scipy_wf Hs.
have [M EM _] := C60_same_partial 0 Hs Hn Hk Hv Hv. exists M => //.
apply: cu_golub_kahn_same => //.
- move=> x y Hx Hy. eexists. exact: dot_ok Hw Hx Hy.
- move=> x y Hx Hy. have [M' EM' [E _ _ _]] := C60_same_partial 0 Hs Hn Hk Hx Hy.
  by move: EM'; rewrite EM => [[->]].
- move=> x y Hx Hy. eexists. exact: transpose_dot_ok Hw Hx Hy.
- move=> x y Hx Hy. have [M' EM' [_ _ E _]] := C60_same_partial 0 Hs Hn Hk Hx Hy.
  by move: EM'; rewrite EM => [[->]].
Qed.

(** With an affine function A + t B *)
Theorem C61_affine_lanczos_partial A B (devices d : nat) t p v m tol orth V0 r0 alpha0 beta0 :
  from_scipy A n n -> (forall s, B = Some s -> from_scipy s n n /\ denotes s n n <> 0) ->
  (0 < n)%N -> (d < devices)%N -> 0 < eps -> 4%:R * eps <= 1 -> eps * n%:R <= 1 ->
  (n <= size v)%N -> (lanczos_buffer_size orth m * n <= size V0)%N -> (n <= size r0)%N ->
  exists op, exists2 cu_op, new_affine A B n n = Some op & new_cu_affine A B n n devices = Some cu_op /\
  cu_lanczos eps (cu_affine_dot (cu_set_parameters cu_op (t :: p)) d n n) v n m tol orth V0 r0 alpha0 beta0 =
  lanczos eps (affine_dot (set_parameters op (t :: p)) n n) v n m tol orth V0 r0 alpha0 beta0.
Proof.
move=> HA HB Hn Hk He He4 Hen Hv HV Hr. have HwA := from_scipy_wf HA.
have HwB s : B = Some s -> well_formed s n n by move=> /HB [Hs _]; exact: from_scipy_wf.
have HwB' s : B = Some s -> well_formed s n n /\ denotes s n n <> 0.
{ by move=> Es; have [Hs Hz] := HB _ Es; split => //; exact: from_scipy_wf. }
have [op Eop] := new_affine_total HwA HwB. have Hg := good_new HwA HwB' Eop.
have [cu Ecu _] := C60_affine_partial t p HA HB Hn Hk Hr Hr.
exists op, cu => //. split => //.
apply: cu_lanczos_same => //.
- move=> x y Hx Hy. eexists. exact: (affine_dot_ok (t := t) (p := p) (good_set (t :: p) Hg) erefl Hx Hy).
- move=> x y Hx Hy. have [cu' Ecu' [W _]] := C60_affine_partial t p HA HB Hn Hk Hx Hy.
  move: Ecu'; rewrite Ecu => [[E]]. rewrite -E in W.
  exact: PropCblas.writes_uniq W (affine_dot_ok (t := t) (p := p) (good_set (t :: p) Hg) erefl Hx Hy).
Qed.
End C61.

(** The hypotheses on epsilon hold for double precision and all sizes up to 2^52 *)
Example C61_eps_ex (R : rcfType) (n : nat) : (n <= 2 ^ 52)%N ->
  let eps : R := (2%:R ^+ 52)^-1 in [/\ 0 < eps, 4%:R * eps <= 1 & eps * n%:R <= 1].
Proof.
move=> Hn. have H2 : 0 < 2%:R ^+ 52 :> R by rewrite exprn_gt0 // ltr0n.
split.
- by rewrite invr_gt0.
- rewrite ler_pdivr_mulr // mul1r (_ : 52 = 2 + 50)%N // exprD (_ : 2%:R ^+ 2 = 4%:R); last by rewrite -natrX.
  rewrite -[X in X <= _]mulr1 ler_pmul2l ?ltr0n //. apply: exprn_ege1. by rewrite ler1n.
- by rewrite mulrC ler_pdivr_mulr // mul1r -natrX ler_nat.
Qed.

(** A vector and its opposite, single precision, more than 2^24 entries: the
    hypotheses of the refutation *)
Example C61_refuted_ex (R : rcfType) (eps : R) (n : nat) (u := 1 :: nseq n (0 : R)) (v := -1 :: nseq n (0 : R)) :
  [/\ (n.+1 <= size u)%N, (n.+1 <= size v)%N, nrm (vec n.+1 u) = 1 & vec n.+1 v = - vec n.+1 u].
Proof.
split; rewrite /= ?size_nseq //.
- rewrite /nrm /ip big_ord_recl !mxE /= mulr1 big1 ?addr0 ?sqrtr1 // => i _.
  by rewrite !mxE /= nth_nseq if_same mulr0.
- apply/matrixP => i j. rewrite !mxE. case: i => [[|i] Hi] //=. by rewrite !nth_nseq if_same oppr0.
Qed.

Definition C61_assumptions := (@C61_gram_schmidt_refuted, @C61_lanczos_partial, @C61_golub_kahn_partial,
  @C61_affine_lanczos_partial).
Print Assumptions C61_assumptions.
