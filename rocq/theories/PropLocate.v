(** Finding CUDA, its version and the name of the processor: C79. *)
From mathcomp Require Import all_ssreflect.
From mathcomp Require Import zify.
From Coq Require Import Ascii String.
From Verif Require Import LocateModel LocateSpec.

Set Implicit Arguments.
Unset Strict Implicit.
Unset Printing Implicit Defensive.

Lemma sameP (a b : ascii) : reflect (a = b) (same a b).
Proof. exact: Ascii.eqb_spec. Qed.
Lemma same_refl a : same a a. Proof. exact/sameP. Qed.

Lemma without_cons c a s : without c (a :: s) -> a <> c /\ without c s.
Proof.
move=> H; split=> [E|x y E]; first by apply: (H [::] s); rewrite E.
by apply: (H (a :: x) y); rewrite E.
Qed.

Lemma withoutP c s : all (fun x => ~~ same x c) s -> without c s.
Proof. by move=> H a b E; move: H; rewrite E all_cat /= same_refl andbF. Qed.

Lemma split_without c s : without c s -> split c s = [:: s].
Proof.
elim: s => //= a s IH /without_cons [/sameP]; rewrite -/(same a c) => /negbTE -> /IH ->.
by [].
Qed.

Lemma split_cat c s t : without c s ->
  split c (s ++ c :: t) = s :: split c t.
Proof.
elim: s => [_|a s IH] /=; first by rewrite same_refl.
by move=> /without_cons [/sameP /negbTE -> /IH ->].
Qed.

Lemma split_nil c s : split c s <> [::].
Proof. by case: s => //= a s; case: ifP => // _; case: (split c s). Qed.

Lemma split_rcons c s t : without c t -> exists w ws, split c (s ++ c :: t) = w :: rcons ws t.
Proof.
move=> Ht; elim: s => [|a s [w [ws IH]]] /=.
  by rewrite same_refl (split_without Ht); exists [::], [::].
rewrite IH; case: ifP => _; first by exists [::], (w :: ws).
by exists (a :: w), ws.
Qed.

Lemma split_last c s t : without c t -> last [::] (split c (s ++ c :: t)) = t.
Proof. by move=> /(split_rcons s) [w [ws ->]]; rewrite /= last_rcons. Qed.

Lemma split_glue c ws : ws <> [::] -> (forall b a w, ws = b ++ w :: a -> without c w) ->
  split c (glue c ws) = ws.
Proof.
elim: ws => // w ws IH _ H.
have Hw : without c w by apply: (H [::] ws).
case: ws IH H => [|w' ws] IH H; first exact: split_without.
rewrite [glue _ _]/= -/(glue c (w' :: ws)) split_cat // IH // => b a x E.
by apply: (H (w :: b) a x); rewrite E.
Qed.

Lemma glue_split c s : s = glue c (split c s) /\
  (forall b a w, split c s = b ++ w :: a -> without c w).
Proof.
elim: s => [|x s [IH1 IH2]] /=.
  by split=> // -[|? [|? ?]] a w // [<- _] [|? ?] ?.
case: sameP => [->|xc].
  split; first by case: (split c s) (@split_nil c s) IH1 => //= w ws _ <-.
  case=> [a w [<- _] [|? ?] ? //|w' b a w /= [_ E]]; exact: (IH2 b a w E).
case E: (split c s) IH1 IH2 => [|w ws] IH1 IH2; first by case: (split_nil E).
split; first by rewrite {1}IH1; case: (ws).
case=> [a y [<- _]|w' b a y /= [_ E']].
  move=> [|z u] v [Ez Ew] //; apply: (IH2 [::] ws w erefl u v); exact: Ew.
by apply: (IH2 (w :: b) a y); rewrite /= E'.
Qed.

(** ** Numbers *)

Lemma digit_val d : (d < 10)%N -> is_digit (digit d) /\ digit_value (digit d) = d.
Proof. by case: d => [|[|[|[|[|[|[|[|[|[|d]]]]]]]]]] //. Qed.

Lemma digit_not_space c : is_digit c -> is_space c = false.
Proof. rewrite /is_digit /is_space; lia. Qed.

Lemma digit_not_plus c : is_digit c -> same c "+" = false.
Proof. by move=> Hc; apply/sameP => E; rewrite E in Hc. Qed.

Local Opaque digit is_digit digit_value is_space.

Lemma writes_digits s n : writes s n -> all is_digit s /\ s <> [::].
Proof.
elim=> [d /digit_val [H _]|t m d _ [IH _] /digit_val [H _]]; split=> //; first by rewrite /= H.
  by rewrite all_rcons H.
by case: t {IH}.
Qed.

Definition value (s : text) : nat := foldl (fun acc c => acc * 10 + digit_value c)%N 0 s.

Lemma writes_value s n : writes s n -> value s = n.
Proof.
rewrite /value; elim=> [d /digit_val [_ H]|t m d _ IH /digit_val [_ H]]; first by rewrite /= H.
by rewrite foldl_rcons IH H; lia.
Qed.

Lemma digits_foldl acc s : all is_digit s ->
  digits acc s = Some (foldl (fun acc c => acc * 10 + digit_value c)%N acc s).
Proof. by elim: s acc => //= c s IH acc /andP [-> H]; apply: IH. Qed.

Lemma lstrip_spaces w s : all is_space w -> lstrip (w ++ s) = lstrip s.
Proof. by elim: w => //= a w IH /andP [-> /IH]. Qed.

Lemma lstrip_digits s : all is_digit s -> lstrip s = s.
Proof. by case: s => //= c s /andP [/digit_not_space ->]. Qed.

Lemma strip_digits s w : all is_digit s -> s <> [::] -> all is_space w -> strip (s ++ w) = s.
Proof.
move=> Hs s0 Hw; rewrite /strip.
have -> : lstrip (s ++ w) = s ++ w.
  by case: s Hs s0 => //= c s /andP [/digit_not_space -> _].
rewrite rev_cat lstrip_spaces ?all_rev // lstrip_digits ?all_rev //.
by rewrite revK.
Qed.

Lemma int_of_writes s n w : writes s n -> all is_space w -> int_of (s ++ w) = Some n.
Proof.
move=> H Hw; have [Hs s0] := writes_digits H; rewrite /int_of strip_digits //.
have Hv := writes_value H.
case: s s0 Hs Hv {H} => //= c s _ /andP [Hc Hs]; rewrite /value /= => <-.
by rewrite (digit_not_plus Hc) Hc digits_foldl.
Qed.

(** ** The version *)

Lemma writes_without c s n : is_digit c = false -> writes s n -> without c s.
Proof.
move=> Hc /writes_digits [H _] a b E; move: H; rewrite E all_cat /= Hc andbF //.
Qed.

Lemma without_cat c s t : without c s -> without c t -> without c (s ++ t).
Proof.
elim: s => // x s IH Hs Ht; have [xc /IH {}IH] := without_cons Hs.
by case=> [|y a] b /= [Ex E]; [case: xc|apply: (IH Ht a b)].
Qed.

Lemma digit_dot : is_digit dot = false. Proof. by []. Qed.
Lemma digit_space : is_digit space = false. Proof. by []. Qed.

Lemma glue_without c d (ws : seq text) : c <> d ->
  (forall b a w, ws = b ++ w :: a -> without c w) -> without c (glue d ws).
Proof.
move=> cd; elim: ws => [_ [|? ?] ? //|w ws IH H].
have Hw : without c w by apply: (H [::] ws).
case: ws IH H => [|w' ws] IH H //=; apply: without_cat => //.
have {}IH : without c (glue d (w' :: ws)).
  by apply: IH => b a x E; apply: (H (w :: b) a x); rewrite E.
by move=> [|y a] b [Ey E]; [case: cd|apply: (IH a b)].
Qed.


Lemma numbers_ints ws ns w n tail : numbers ws ns -> writes w n -> all is_space tail ->
  ints (rcons ws (w ++ tail)) = Some (rcons ns n).
Proof.
move=> H Hw Ht; elim: H => [|w' n' ws' ns' H' _ IH] /=; first by rewrite (int_of_writes Hw Ht).
by rewrite IH -[w']cats0 (int_of_writes H').
Qed.

Lemma numbers_without c ws ns : is_digit c = false -> numbers ws ns ->
  forall b a w, ws = b ++ w :: a -> without c w.
Proof.
move=> Hc; elim=> [[]//|w n ws' ns' Hw _ IH [a x [<- _]|y b a x [_ E]]].
  exact: writes_without Hw.
exact: IH E.
Qed.

Lemma numbers_rcons ws ns : numbers ws ns -> ws <> [::] ->
  exists ws' w ns' n, [/\ ws = rcons ws' w, ns = rcons ns' n, numbers ws' ns' & writes w n].
Proof.
elim=> // w n ws' ns' Hw Hs IH _; case: ws' ns' / Hs IH => [|w' n' ws' ns' Hw' Hs] IH.
  by exists [::], w, [::], n; split=> //; constructor.
have [//|vs [v [ms [m [E1 E2 H1 H2]]]]] := IH.
by exists (w :: vs), v, (n :: ms), m; split=> //=; rewrite ?E1 ?E2 //; constructor.
Qed.

Lemma glue_rcons c ws w t : glue c (rcons ws w) ++ t = glue c (rcons ws (w ++ t)).
Proof.
elim: ws => // x ws IH; rewrite !rcons_cons.
have cons2 (y : text) (ys : seq text) z : glue c (y :: rcons ys z) = y ++ c :: glue c (rcons ys z).
  by case: ys.
by rewrite !cons2 -catA /= IH.
Qed.

Lemma line_end_space t : line_end t -> all is_space t /\ without space t /\ without dot t.
Proof.
have H (c : ascii) a b : (c = Ascii.ascii_of_nat 10 \/ c = Ascii.ascii_of_nat 13) ->
    c <> space /\ c <> dot.
  by move=> [->|->].
case=> [->|[->|->]]; (split; [by []|split]).
- by case.
- by case.
- by case=> [|x [|? ?]] b // [].
- by case=> [|x [|? ?]] b // [].
- by case=> [|x [|y [|? ?]]] b //= [].
- by case=> [|x [|y [|? ?]]] b //= [].
Qed.

Lemma parse_versionP pre ws ns tail : numbers ws ns -> ws <> [::] -> line_end tail ->
  (pre = [::] \/ exists p, pre = rcons p space) ->
  exists2 v, parse_version (pre ++ glue dot ws ++ tail) = Done v & is_version ns v.
Proof.
move=> Hn w0 /line_end_space [Ts [Tb Td]] Hpre.
have Hb : without space (glue dot ws ++ tail).
  by apply: without_cat => //; apply: glue_without => //; apply: numbers_without Hn.
have -> : parse_version (pre ++ glue dot ws ++ tail) =
    if ints (split dot (glue dot ws ++ tail)) is Some ns then
      if ns is n :: ns' then Done (Version n (ohead ns') (ohead (behead ns'))) else Error EValue
    else Error EValue.
  rewrite /parse_version; case: Hpre => [->|[p ->]]; first by rewrite (split_without Hb).
  by rewrite cat_rcons split_last.
have [ws' [w [ns' [n [E1 E2 H1 H2]]]]] := numbers_rcons Hn w0.
rewrite E1 glue_rcons split_glue; first last.
- move=> b a x; case/lastP: a => [|a y].
    rewrite cats1 => /rcons_inj [_ <-]; apply: without_cat => //.
    exact: writes_without H2.
  rewrite -rcons_cons -rcons_cat => /rcons_inj [E _].
  exact: (numbers_without digit_dot H1 E).
- by case: (ws').
rewrite (numbers_ints H1 H2 Ts) E2; case: (ns') => [|a [|b [|c l]]] /=; by eexists.
Qed.


(** A relative name. *)
Definition relative (b : text) : bool := if b is c :: _ then ~~ same c slash else false.

Lemma joinP a b : relative b -> child a b (join a b).
Proof.
case: b => //= c b /negbTE Hc; rewrite /join Hc; split; first by move=> ->.
split=> [a' ->|a' x -> /sameP Hx].
  have -> : last slash (rcons a' "/"%char) = slash by rewrite last_rcons.
  by rewrite same_refl; case: (a').
have -> : last slash (rcons a' x) = x by rewrite last_rcons.
by rewrite (negbTE Hx); case: (a').
Qed.

Lemma child_uniq a b p q : child a b p -> child a b q -> p = q.
Proof.
move=> [P1 [P2 P3]] [Q1 [Q2 Q3]]; case/lastP: a P1 P2 P3 Q1 Q2 Q3 => [|a c] P1 P2 P3 Q1 Q2 Q3.
  by rewrite P1 // Q1.
have [E|Hc] := sameP c slash; first by rewrite (P2 a) ?E // (Q2 a) ?E.
by rewrite (P3 a c erefl Hc) (Q3 a c erefl Hc).
Qed.

Lemma child_join a b p : child a b p -> relative b -> p = join a b.
Proof. by move=> H Hb; apply: child_uniq H (joinP a Hb). Qed.

(** A file version.txt like "CUDA Version 10.1.243" is read as its numbers. *)
Theorem C79_version_txt (s : system) home file pre ws ns tail :
  child home (lit "version.txt") file -> is_file s file = true ->
  contents s file = pre ++ glue "." ws ++ tail ->
  (pre = [::] \/ exists p, pre = rcons p " "%char) -> numbers ws ns -> ws <> [::] -> line_end tail ->
  exists2 v, get_version s home = Done v & is_version ns v.
Proof.
move=> /child_join /(_ isT) Ef Hf Ec Hp Hn w0 Ht; rewrite /get_version -Ef Hf Ec.
exact: parse_versionP.
Qed.

(** Without that file the version of version.json is. *)
Theorem C79_version_json (s : system) home txt file ws ns :
  child home (lit "version.txt") txt -> is_file s txt = false ->
  child home (lit "version.json") file -> is_file s file = true ->
  json_version s (contents s file) = Some (glue "." ws) -> numbers ws ns -> ws <> [::] ->
  exists2 v, get_version s home = Done v & is_version ns v.
Proof.
move=> /child_join /(_ isT) Et Ht /child_join /(_ isT) Ef Hf Ec Hn w0.
rewrite /get_version -Et Ht -Ef Hf Ec.
have := @parse_versionP [::] ws ns [::] Hn w0 (or_introl erefl) (or_introl erefl).
by rewrite cats0.
Qed.

(** *** The header *)

Lemma writes_split s n : writes s n -> (10 <= n)%N ->
  exists s' n' d, [/\ s = rcons s' (digit d), n = 10 * n' + d, writes s' n' & d < 10]%N.
Proof.
by case=> [d H1 H2|s' n' d H1 H2 _]; [lia|exists s', n', d].
Qed.

Lemma but_last_cat (s t : text) : but_last (size t) (s ++ t) = s.
Proof. by rewrite /but_last size_cat addnK take_size_cat. Qed.
Lemma last_part_cat (s t : text) : last_part (size t) (s ++ t) = t.
Proof. by rewrite /last_part size_cat addnK drop_size_cat. Qed.

Lemma words_digits w num tail : all is_digit num -> rev w ++ num <> [::] -> all is_space tail ->
  words_from w (num ++ tail) = [:: rev w ++ num].
Proof.
elim: num w => [|c num IH] w /=.
  move=> _; rewrite cats0 => w0 Ht.
  have nil t : all is_space t -> words_from [::] t = [::].
    by elim: t => //= c t IH /andP [-> /IH].
  have w1 : (if w is [::] then [::] else [:: rev w]) = [:: rev w] by case: (w) w0.
  by case: tail Ht => //= c t /andP [-> /nil ->]; rewrite w1.
move=> /andP [Hc Hn] _ Ht; rewrite (digit_not_space Hc) IH //.
  by rewrite rev_cons -cats1 -catA.
by rewrite rev_cons -cats1 -catA; case: (rev w).
Qed.

Lemma words_last p c num tail : is_space c -> all is_digit num -> num <> [::] -> all is_space tail ->
  last [::] (words (p ++ c :: num ++ tail)) = num.
Proof.
move=> Hc Hn n0 Ht; rewrite /words.
suff H w : last [::] (words_from w (p ++ c :: num ++ tail)) = num by [].
elim: p w => [|x p IH] w /=.
  by rewrite Hc words_digits // last_cat.
case: ifP => _; last exact: IH.
rewrite last_cat; have := IH [::].
case E: (words_from [::] _) => [|y l] //= El.
by rewrite -El in n0.
Qed.

Lemma dottedP p c num n tail : is_space c -> writes num n -> (1000 <= n)%N -> all is_space tail ->
  exists ws, dotted (p ++ c :: num ++ tail) = glue dot ws /\
    numbers ws [:: n %/ 1000; n %% 1000 %/ 10; n %% 10].
Proof.
move=> Hc Hw Hn Ht; have [Hd n0] := writes_digits Hw.
rewrite /dotted words_last //.
have [s1 [n1 [z [E1 F1 W1 z10]]]] := writes_split Hw ltac:(lia).
have [s2 [n2 [y [E2 F2 W2 y10]]]] := writes_split W1 ltac:(lia).
have [s3 [n3 [x [E3 F3 W3 x10]]]] := writes_split W2 ltac:(lia).
exists [:: s3; [:: digit x; digit y]; [:: digit z]]; split.
  rewrite E1 E2 E3 -!cats1 -!catA /=.
  rewrite -[3]/(size [:: digit x; digit y; digit z]) but_last_cat last_part_cat.
  have -> : s3 ++ dot :: [:: digit x; digit y; digit z] =
    (s3 ++ dot :: [:: digit x; digit y]) ++ [:: digit z] by rewrite -catA.
  by rewrite -[1]/(size [:: digit z]) but_last_cat last_part_cat -catA.
have -> : n %/ 1000 = n3 by lia.
have -> : n %% 1000 %/ 10 = 10 * x + y by lia.
have -> : n %% 10 = z by lia.
constructor=> //; constructor.
  by apply: (@writes_more [:: digit x]) => //; constructor.
by constructor; constructor.
Qed.

Lemma starts_cat p t : starts p (p ++ t) = Some t.
Proof. by elim: p => //= a p ->; rewrite same_refl. Qed.
Lemma startsP p s r : starts p s = Some r -> s = p ++ r.
Proof. by elim: p s => [|a p IH] [|b s] //=; [case|case=> ->|case: sameP => // -> /IH ->]. Qed.

Lemma lines_cat l t : without newline l -> lines (l ++ newline :: t) = rcons l newline :: lines t.
Proof.
by elim: l => [|c l IH] //= /without_cons [/sameP /negbTE -> /IH ->].
Qed.

Lemma lines_one l : without newline l -> l <> [::] -> lines l = [:: l].
Proof.
elim: l => // c l IH /without_cons [/sameP /negbTE Hc Hl] _; rewrite /= Hc.
by case: l IH Hl => // d l IH Hl; rewrite IH.
Qed.

Definition define := lit "#define CUDA_VERSION".

Lemma no_match l : (forall r, l <> define ++ r) -> matches (rcons l newline) = false.
Proof.
move=> H; rewrite /matches -/define; case E: (starts _ _) => [r|] //.
have {}E := startsP E; case/lastP: r E => [|r c] // E.
by exfalso; apply: (H r); move: E; rewrite -rcons_cat => /rcons_inj [].
Qed.

Lemma digit_newline : is_digit newline = false. Proof. by []. Qed.

Lemma matches_header c num tail : is_space c -> c <> newline -> all is_digit num -> num <> [::] ->
  tail = [::] \/ tail = [:: newline] -> matches (define ++ c :: num ++ tail).
Proof.
move=> Hc /sameP /negbTE cn Hd n0 Ht; rewrite /matches -/define starts_cat cn.
have -> : (if same (last space (num ++ tail)) newline then but_last 1 (num ++ tail) else num ++ tail) = num.
  case: Ht => ->; last first.
    by rewrite last_cat [last _ _]/= (same_refl newline) -[1]/(size [:: newline]) but_last_cat.
  rewrite cats0; case/lastP: num Hd n0 => // num d; rewrite all_rcons last_rcons => /andP [Hd _] _.
  by case: sameP => // E; move: Hd; rewrite E digit_newline.
by rewrite Hd andbT; case: (num) n0.
Qed.

(** Without those files the version is in the header cuda.h: of
    "#define CUDA_VERSION 11030" the last digit is the patch, the two before it
    the minor and the rest the major number. *)
Theorem C79_version_header (s : system) home txt json include file ls c num n tail rest :
  child home (lit "version.txt") txt -> is_file s txt = false ->
  child home (lit "version.json") json -> is_file s json = false ->
  child home (lit "include") include -> child include (lit "cuda.h") file -> is_file s file = true ->
  contents s file =
    flatten [seq rcons l (Ascii.ascii_of_nat 10) | l <- ls] ++
    lit "#define CUDA_VERSION" ++ c :: num ++ tail ->
  (forall b a l, ls = b ++ l :: a -> without (Ascii.ascii_of_nat 10) l /\
     forall r, l <> lit "#define CUDA_VERSION" ++ r) ->
  (c = " "%char \/ c = Ascii.ascii_of_nat 9) -> writes num n -> (1000 <= n)%N ->
  (tail = [::] \/ tail = Ascii.ascii_of_nat 10 :: rest) ->
  exists2 v, get_version s home = Done v &
    is_version [:: n %/ 1000; n %% 1000 %/ 10; n %% 10] v.
Proof.
move=> /child_join /(_ isT) Et Ht /child_join /(_ isT) Ej Hj.
move=> /child_join /(_ isT) Ei /child_join /(_ isT) Ef Hf Ec Hls Hc Hw Hn Htl.
rewrite /get_version -Et Ht -Ej Hj -Ei -Ef Hf Ec -/define -[Ascii.ascii_of_nat 10]/newline.
have [Hd n0] := writes_digits Hw.
have [c1 c2] : is_space c /\ c <> newline by case: Hc => ->.
have wn : without newline (define ++ c :: num).
  apply: without_cat.
    exact: withoutP.
  move=> [|y a] b [] //= _ E; exact: (writes_without digit_newline Hw E).
have [l [t [El Ht' Hl]]] : exists l t, [/\ lines (define ++ c :: num ++ tail) = l :: lines t,
    l = define ++ c :: num ++ (if tail is [::] then [::] else [:: newline]) & True].
  case: Htl => ->.
    exists (define ++ c :: num), [::]; split=> //; rewrite cats0 //.
    by apply: lines_one.
  exists (rcons (define ++ c :: num) newline), rest; split=> //.
    by rewrite -[RHS]lines_cat // -catA.
  by rewrite -cats1 -catA.
have Hm : matches l.
  by rewrite Ht'; apply: matches_header => //; case: (tail); [left|right].
have -> : find_line (lines (flatten [seq rcons l0 newline | l0 <- ls] ++ define ++ c :: num ++ tail)) = Some l.
  elim: ls Hls {Ec} => [_|x ls IH Hls]; first by rewrite [flatten _]/= cat0s El /= Hm.
  have [Hx1 Hx2] := Hls [::] ls x erefl.
  rewrite [flatten _]/= -catA cat_rcons lines_cat // [find_line _]/= no_match //; apply: IH => b a y E.
  by apply: (Hls (x :: b) a); rewrite E.
have Hsp : all is_space (if tail is [::] then [::] else [:: newline]) by case: (tail).
have [ws [Ed Hws]] := dottedP define c1 Hw Hn Hsp.
rewrite Ht' Ed; have w0 : ws <> [::] by inversion Hws.
have := @parse_versionP [::] ws _ [::] Hws w0 (or_introl erefl) (or_introl erefl).
by rewrite cats0.
Qed.

(** *** Refutations *)

(** A blank at the end of the line of version.txt makes the call raise
    ValueError. *)
Theorem C79_blank_refuted (s : system) home file pre :
  child home (lit "version.txt") file -> is_file s file = true ->
  contents s file = pre ++ [:: " "%char; Ascii.ascii_of_nat 10] ->
  get_version s home = Error EValue.
Proof.
move=> /child_join /(_ isT) Ef Hf Ec; rewrite /get_version -Ef Hf Ec /parse_version.
by rewrite (@split_last space pre [:: newline]) //; apply: withoutP.
Qed.

(** ** The search *)

Local Arguments lit : simpl never.
Local Arguments join : simpl never.

Section Search.
Variable s : system.

Lemma usable_join v h n : usable s v h n <->
  [/\ environ s v = Some h, exists_ s h, exists_ s n & n = join (join h (lit "bin")) (lit "nvcc")].
Proof.
split=> [[E H1 H2 [b Hb Hn]]|[E H1 H2 En]].
  by have Eb := child_join Hb isT; have En := child_join Hn isT; split=> //; rewrite -Eb.
by split=> //; exists (join h (lit "bin")); rewrite ?En; apply: joinP.
Qed.

Lemma from_environP names : match from_environ s names with
  | Some (h, n) => exists before v after, [/\ names = before ++ v :: after, usable s v h n
      & forall b a v' h' n', before = b ++ v' :: a -> ~ usable s v' h' n']
  | None => forall b a v h n, names = b ++ v :: a -> ~ usable s v h n
  end.
Proof.
elim: names => [|v names IH] /=; first by case.
have bad : (forall h n, ~ usable s v h n) -> match from_environ s names with
    | Some (h, n) => exists before v0 after, [/\ v :: names = before ++ v0 :: after, usable s v0 h n
        & forall b a v' h' n', before = b ++ v' :: a -> ~ usable s v' h' n']
    | None => forall b a v0 h n, v :: names = b ++ v0 :: a -> ~ usable s v0 h n
    end.
  move=> Hv; case: (from_environ s names) IH => [[h n] [b [w [a [E H1 H2]]]]|IH].
    exists (v :: b), w, a; split=> //; first by rewrite E.
    by case=> [|x b'] a' v' h' n' [Ex E']; [rewrite -Ex; apply: Hv|apply: (H2 b' a')].
  by case=> [|x b] a w h n [Ex E]; [rewrite -Ex; apply: Hv|apply: (IH b a)].
case E: (environ s v) => [home|]; last first.
  by apply: bad => h n /usable_join []; rewrite E.
case H1: (exists_ s home) => /=; last first.
  by apply: bad => h n /usable_join [] //; rewrite E => -[<-]; rewrite H1.
case H2: (exists_ s (join _ _)) => /=; last first.
  apply: bad => h n /usable_join []; rewrite E => -[<-] _ H En; move: H; rewrite En.
  by move: H2 => /= ->.
by exists [::], v, names; split=> //; [apply/usable_join; split|case].
Qed.

Lemma from_environ_first before v after h n : usable s v h n ->
  (forall b a v' h' n', before = b ++ v' :: a -> ~ usable s v' h' n') ->
  from_environ s (before ++ v :: after) = Some (h, n).
Proof.
move=> /usable_join [E H1 H2 En]; elim: before => [|w b IH] F /=.
  by rewrite E H1 /= -En H2.
have {}IH : from_environ s (b ++ v :: after) = Some (h, n).
  by apply: IH => b' a v' h' n' Eb; apply: (F (w :: b') a); rewrite Eb.
case Ew: (environ s w) => [hw|//]; case Hw: (exists_ s hw) => //=.
case Hn: (exists_ s (join _ _)) => //=; case: (F [::] b w hw (join (join hw (lit "bin")) (lit "nvcc")) erefl).
by apply/usable_join.
Qed.

Lemma by_variableP h n : by_variable s h n <->
  from_environ s [:: lit "CUDA_HOME"; lit "CUDA_ROOT"; lit "CUDA_PATH"] = Some (h, n).
Proof.
split=> [[b [v [a [-> U F]]]]|E]; first exact: from_environ_first.
by have := from_environP [:: lit "CUDA_HOME"; lit "CUDA_ROOT"; lit "CUDA_PATH"]; rewrite E.
Qed.

Lemma no_variableP : no_variable s <->
  from_environ s [:: lit "CUDA_HOME"; lit "CUDA_ROOT"; lit "CUDA_PATH"] = None.
Proof.
have := from_environP [:: lit "CUDA_HOME"; lit "CUDA_ROOT"; lit "CUDA_PATH"].
case: (from_environ _ _) => [[h n] [b [v [a [E U _]]]]|H]; split=> // F.
  have Hv : v = lit "CUDA_HOME" \/ v = lit "CUDA_ROOT" \/ v = lit "CUDA_PATH".
    by case: b E => [|? [|? [|? [|? ?]]]] //= E; inversion E; auto.
  by case: (F v h n Hv U).
move=> v h n [->|[->|->]].
- exact: (H [::] _ _ h n erefl).
- exact: (H [:: _] _ _ h n erefl).
- exact: (H [:: _; _] _ _ h n erefl).
Qed.

Lemma first_inP name dirs : relative name -> match first_in s name dirs with
  | Some p => exists before d after q,
      [/\ dirs = before ++ d :: after, child d name q, exists_ s q = true, p = abspath s q
        & forall b a d' q', before = b ++ d' :: a -> child d' name q' -> exists_ s q' = false]
  | None => forall b a d q, dirs = b ++ d :: a -> child d name q -> exists_ s q = false
  end.
Proof.
move=> Hn; elim: dirs => [|d dirs IH] /=; first by case.
case H: (exists_ s (join d name)).
  by exists [::], d, dirs, (join d name); split=> //; [apply: joinP|case].
case: (first_in s name dirs) IH => [p [b [d1 [a [q [E Hc Hq Ep F]]]]]|IH].
  exists (d :: b), d1, a, q; split=> //; first by rewrite E.
  case=> [|x b'] a' d' q' [Ed E'] Hq'; last exact: (F b' a' d' q' E' Hq').
  by rewrite (child_join Hq' Hn) -Ed.
case=> [|x b] a d' q [Ed E] Hq; last exact: (IH b a d' q E Hq).
by rewrite (child_join Hq Hn) -Ed.
Qed.

Lemma first_in_first name before d after q : relative name -> child d name q -> exists_ s q ->
  (forall b a d' q', before = b ++ d' :: a -> child d' name q' -> exists_ s q' = false) ->
  first_in s name (before ++ d :: after) = Some (abspath s q).
Proof.
move=> Hn Hq Eq; elim: before => [|w b IH] F /=.
  by rewrite -(child_join Hq Hn) Eq.
rewrite (F [::] b w _ erefl (joinP w Hn)); apply: IH => b' a d' q' Eb.
by apply: (F (w :: b') a); rewrite Eb.
Qed.

Lemma first_in_none name dirs : relative name ->
  (forall b a d' q', dirs = b ++ d' :: a -> child d' name q' -> exists_ s q' = false) ->
  first_in s name dirs = None.
Proof.
move=> Hn F; have := first_inP dirs Hn; case: (first_in s name dirs) => // p [b [d [a [q [E Hc Hq _ _]]]]].
by rewrite (F b a d q E Hc) in Hq.
Qed.

Lemma find_in_pathP nvcc : by_path s nvcc <->
  exists2 path, environ s (lit "PATH") = Some path & find_in_path s (lit "nvcc") path = Some nvcc.
Proof.
split=> [[path [b [d [a [p [E [Ep Hd] Hc [Hp ->] F]]]]]]|[path E]].
  exists path => //; rewrite /find_in_path Ep -[":"%char]/colon split_glue //; last by case: (b).
  exact: first_in_first.
rewrite /find_in_path; have := @first_inP (lit "nvcc") (split colon path) isT.
case: (first_in _ _ _) => // p [b [d [a [q [Es Hc Hq Ep F]]]]] [<-].
have [Eg Hw] := glue_split colon path.
exists path, b, d, a, q; split=> //; split; rewrite -Es //.
Qed.

Lemma not_in_pathP : not_in_path s <->
  exists2 path, environ s (lit "PATH") = Some path & find_in_path s (lit "nvcc") path = None.
Proof.
split=> [[path [ds [E Ep ds0 Hd F]]]|[path E]].
  exists path => //; rewrite /find_in_path Ep -[":"%char]/colon split_glue //.
  exact: first_in_none.
rewrite /find_in_path; have := @first_inP (lit "nvcc") (split colon path) isT.
case: (first_in _ _ _) => // H _.
have [Eg Hw] := glue_split colon path.
by exists path, (split colon path); split=> //; apply: split_nil.
Qed.

Lemma dirname_parent q e : without "/" e -> q <> [::] -> (forall a, q <> rcons a "/"%char) ->
  dirname (q ++ "/"%char :: e) = q.
Proof.
move=> He q0 qs; rewrite /dirname rev_cat rev_cons cat_rcons.
have ts e' t : without "/" e' -> to_slash (e' ++ "/"%char :: t) = "/"%char :: t.
  by elim: e' => //= x e' IH /without_cons [/sameP /negbTE -> /IH].
have wr : without "/" (rev e).
  move=> a b Er; apply: (He (rev b) (rev a)).
  by rewrite -[e]revK Er rev_cat rev_cons cat_rcons.
rewrite ts // rev_cons revK all_rcons.
case/lastP: q q0 qs => // q x _ qs.
have xs : same x slash = false by apply/sameP => Ex; apply: (qs q); rewrite Ex.
by rewrite all_rcons xs andbF rev_rcons /= rev_rcons /= xs -rev_rcons revK.
Qed.

Lemma grandparent home d : without "/" d -> d <> [::] -> home <> [::] ->
  (forall a, home <> rcons a "/"%char) ->
  dirname (dirname (home ++ "/"%char :: d ++ "/"%char :: lit "nvcc")) = home.
Proof.
move=> Hd d0 h0 hs.
have -> : home ++ "/"%char :: d ++ "/"%char :: lit "nvcc" =
    (home ++ "/"%char :: d) ++ "/"%char :: lit "nvcc" by rewrite -catA.
rewrite dirname_parent.
- by rewrite dirname_parent.
- exact: withoutP.
- by case: (home) h0.
- move=> a; case/lastP: d Hd d0 => // d x Hd _; rewrite -rcons_cons -rcons_cat => /rcons_inj [_ Ex].
  by apply: (Hd d [::]); rewrite cats1 Ex.
Qed.

(** Whatever is returned exists: the compiler found by the first of the three
    variables that leads to one, or else in the first directory of the search
    path that has one; the directories of headers and of libraries below the
    home; and the version of that home. *)
Theorem C79_found c : locate s = Done (Some c) ->
  [/\ by_variable s (c_home c) (c_nvcc c) \/
        [/\ no_variable s, by_path s (c_nvcc c)
          & forall home d, c_nvcc c = home ++ "/"%char :: d ++ "/"%char :: lit "nvcc" ->
              without "/" d -> d <> [::] -> home <> [::] ->
              (forall a, home <> rcons a "/"%char) -> c_home c = home],
      has_parts s (c_home c) (c_include c) (c_lib c)
    & get_version s (c_home c) = Done (c_version c)].
Proof.
have parts home nvcc : from_home s home nvcc = Done (Some c) ->
    [/\ c_home c = home, c_nvcc c = nvcc, has_parts s (c_home c) (c_include c) (c_lib c)
      & get_version s (c_home c) = Done (c_version c)].
  rewrite /from_home; case Ei: (exists_ s _) => //=; case El: (exists_ s (join _ (lit "lib"))).
    case Ev: (get_version s home) => [v|//] [<-] /=; split=> //; split=> //; first exact: joinP.
    by left; apply: joinP.
  case E6: (exists_ s (join _ (lit "lib64"))) => //.
  case Ev: (get_version s home) => [v|//] [<-] /=; split=> //; split=> //; first exact: joinP.
  right; split; first exact: joinP.
  by move=> q Hq; rewrite (child_join Hq isT).
rewrite /locate; case E: (from_environ _ _) => [[h n]|].
  by move=> /parts [-> -> H1 H2]; split=> //; left; apply/by_variableP.
case Ep: (environ s _) => [path|//]; case Ef: (find_in_path _ _ _) => [nvcc|//].
move=> /parts [Eh En H1 H2]; split=> //; right; split.
- exact/no_variableP.
- by rewrite En; apply/find_in_pathP; exists path.
rewrite Eh En => home d -> Hd d0 h0 hs.
by apply: grandparent.
Qed.

(** A variable that leads to a complete installation is enough. *)
Theorem C79_complete home nvcc include lib v : by_variable s home nvcc ->
  has_parts s home include lib -> get_version s home = Done v ->
  locate s = Done (Some (Cuda home nvcc include lib v)).
Proof.
move=> /by_variableP E [Hi Ei El Hl] Ev; rewrite /locate E /from_home.
rewrite -(child_join Hi isT) Ei /=; case: Hl => [Hl|[Hl No]].
  by rewrite -(child_join Hl isT) El Ev.
by rewrite (No _ (joinP home (isT : relative (lit "lib")))) -(child_join Hl isT) El Ev.
Qed.

(** So is a compiler in the search path. *)
Theorem C79_complete_path home d nvcc include lib v : no_variable s -> by_path s nvcc ->
  nvcc = home ++ "/"%char :: d ++ "/"%char :: lit "nvcc" -> without "/" d -> d <> [::] ->
  home <> [::] -> (forall a, home <> rcons a "/"%char) ->
  has_parts s home include lib -> get_version s home = Done v ->
  locate s = Done (Some (Cuda home nvcc include lib v)).
Proof.
move=> /no_variableP E /find_in_pathP [path Ep Ef] En Hd d0 h0 hs [Hi Ei El Hl] Ev.
rewrite /locate E Ep Ef En grandparent // /from_home.
rewrite -(child_join Hi isT) Ei /=; case: Hl => [Hl|[Hl No]].
  by rewrite -(child_join Hl isT) El Ev.
by rewrite (No _ (joinP home (isT : relative (lit "lib")))) -(child_join Hl isT) El Ev.
Qed.

(** If no variable and no directory of the search path leads to a compiler, the
    dictionary is empty. *)
Theorem C79_none : no_variable s -> not_in_path s -> locate s = Done None.
Proof. by move=> /no_variableP E /not_in_pathP [path Ep Ef]; rewrite /locate E Ep Ef. Qed.

(** Without libraries the documented error is raised. *)
Theorem C79_no_libraries home nvcc include : by_variable s home nvcc ->
  child home (lit "include") include -> exists_ s include = true ->
  (forall q, child home (lit "lib") q \/ child home (lit "lib64") q -> exists_ s q = false) ->
  locate s = Error EEnvironment.
Proof.
move=> /by_variableP E Hi Ei No; rewrite /locate E /from_home -(child_join Hi isT) Ei /=.
by rewrite !No //; [right|left]; apply: joinP.
Qed.

(** Without headers it is not: the dictionary is empty. *)
Theorem C79_no_headers_refuted home nvcc include : by_variable s home nvcc ->
  child home (lit "include") include -> exists_ s include = false -> locate s = Done None.
Proof.
by move=> /by_variableP E Hi Ei; rewrite /locate E /from_home -(child_join Hi isT) Ei.
Qed.

(** Without a search path the call raises KeyError instead of returning an
    empty dictionary. *)
Theorem C79_no_path_refuted : no_variable s -> environ s (lit "PATH") = None ->
  locate s = Error EKey.
Proof. by move=> /no_variableP E Ep; rewrite /locate E Ep. Qed.

Lemma decimalP n : writes (decimal n) n.
Proof.
rewrite /decimal; suff H f m : (m < f)%N -> writes (decimal_aux f m) m by apply: H.
elim: f m => // f IH m Hm; rewrite [decimal_aux _ _]/=.
have Hd : (m %% 10 < 10)%N by rewrite ltn_mod.
rewrite -/(digit (m %% 10)); case: ltnP => H10.
  by rewrite cat0s modn_small //; apply: writes_one.
rewrite cats1 [X in writes _ X](divn_eq m 10) mulnC; apply: writes_more => //.
by apply: IH; lia.
Qed.

(** imate.info shows "major.minor.patch" of the version, or "not found". *)
Theorem C79_info c a b p : locate s = Done (Some c) -> is_version [:: a; b; p] (c_version c) ->
  exists ws, info_version s = Done (glue "." ws) /\ numbers ws [:: a; b; p].
Proof.
move=> E [Ea Eb Ep]; rewrite /info_version E Ea Eb Ep.
exists [:: decimal a; decimal b; decimal p]; split=> //.
by do 3! (constructor; first exact: decimalP); constructor.
Qed.

Theorem C79_info_none : locate s = Done None -> info_version s = Done (lit "not found").
Proof. by move=> E; rewrite /info_version E. Qed.

(** If the version has fewer than three numbers, imate.info raises TypeError. *)
Theorem C79_info_refuted c ns : locate s = Done (Some c) -> is_version ns (c_version c) ->
  (size ns < 3)%N -> info_version s = Error EType.
Proof.
move=> E; rewrite /info_version E.
by case: ns => [|a [|b [|? ?]]] //= [_ E1 E2] _; rewrite E1 ?E2.
Qed.

End Search.

(** ** The processor *)

Lemma containsP p t : contains p t <-> exists a b, t = a ++ p ++ b.
Proof.
elim: t => [|c t IH] /=.
  rewrite orbF; case E: (starts p [::]) => [r|]; split=> //.
    by move=> _; exists [::], r; rewrite -(startsP E).
  by case=> [[|? ?]] [b] // Eb; move: E; rewrite Eb starts_cat.
case E: (starts p _) => [r|] /=.
  by split=> // _; exists [::], r; rewrite -(startsP E).
rewrite IH; split=> [[a [b ->]]|[[|x a] [b /= Eb]]]; first by exists (c :: a), b.
  by move: E; rewrite Eb starts_cat.
by case: Eb => _ ->; exists a, b.
Qed.

Lemma strip_same t : (forall c r, t = c :: r -> is_space c = false) ->
  (forall c r, t = rcons r c -> is_space c = false) -> strip t = t.
Proof.
move=> H1 H2; rewrite /strip.
have L u : (forall c r, u = c :: r -> is_space c = false) -> lstrip u = u.
  by case: u => //= c u /(_ c u erefl) ->.
rewrite (L t) // L ?revK // => c r E; apply: (H2 c (rev r)).
by rewrite -[t]revK E rev_cons.
Qed.

Lemma processor_line ls1 line ls2 : (forall b a l, ls1 = b ++ l :: a -> ~ has_words l) ->
  has_words line -> processor_in (ls1 ++ line :: ls2) = behead (strip_name line).
Proof.
move=> H Hl; elim: ls1 H => [|l ls1 IH] H /=; first by have /containsP -> := Hl.
have -> : contains (lit "model name") l = false.
  by apply/negP => /containsP; apply: (H [::] ls1).
by apply: IH => b a x E; apply: (H (l :: b) a); rewrite E.
Qed.

Lemma has_colon a b : has (same colon) (a ++ colon :: b).
Proof. by rewrite has_cat orbT. Qed.

Lemma strip_nameP key rest : has_words key -> without ":" rest ->
  strip_name (key ++ ":"%char :: rest) = rest.
Proof.
move=> Hk Hr; rewrite /strip_name /after_colon /to_colon -[":"%char]/colon has_colon.
rewrite split_last // -cat_rcons but_last_cat.
have -> // : contains (lit "model name") (rcons key colon).
have [a [b E]] := Hk; apply/containsP; exists a, (rcons b colon).
by rewrite E -!cats1 -!catA.
Qed.

(** The name of the processor is what follows "model name : " in the first line
    with these words. *)
Theorem C79_processor cpuinfo ls1 key blank name ls2 :
  cpuinfo = glue (Ascii.ascii_of_nat 10) (ls1 ++ (key ++ ":"%char :: blank :: name) :: ls2) ->
  (forall b a l, ls1 ++ (key ++ ":"%char :: blank :: name) :: ls2 = b ++ l :: a ->
     without (Ascii.ascii_of_nat 10) l) ->
  (forall c r, cpuinfo = c :: r -> is_space c = false) ->
  (forall c r, cpuinfo = rcons r c -> is_space c = false) ->
  (forall b a l, ls1 = b ++ l :: a -> ~ has_words l) -> has_words key ->
  blank <> ":"%char -> without ":" name ->
  processor_name cpuinfo = name.
Proof.
move=> E Hl H1 H2 Hn Hk Hb Hc; rewrite /processor_name strip_same // E -[Ascii.ascii_of_nat 10]/newline.
rewrite split_glue //; last by case: (ls1).
rewrite processor_line //; last first.
  by have [a [b ->]] := Hk; exists a, (b ++ ":"%char :: blank :: name); rewrite -!catA.
rewrite strip_nameP // => -[|x a] b [Ex E']; first by case: Hb.
exact: (Hc a b).
Qed.

(** A name with a colon loses all before its last colon, and the character
    after it. *)
Theorem C79_colon_refuted cpuinfo ls1 key first c name ls2 :
  cpuinfo = glue (Ascii.ascii_of_nat 10) (ls1 ++ (key ++ ":"%char :: first ++ ":"%char :: c :: name) :: ls2) ->
  (forall b a l, ls1 ++ (key ++ ":"%char :: first ++ ":"%char :: c :: name) :: ls2 = b ++ l :: a ->
     without (Ascii.ascii_of_nat 10) l) ->
  (forall c r, cpuinfo = c :: r -> is_space c = false) ->
  (forall c r, cpuinfo = rcons r c -> is_space c = false) ->
  (forall b a l, ls1 = b ++ l :: a -> ~ has_words l) -> has_words key ->
  c <> ":"%char -> without ":" name ->
  processor_name cpuinfo = name.
Proof.
move=> E Hl H1 H2 Hn Hk Hb Hc.
apply: (@C79_processor _ ls1 (key ++ ":"%char :: first) c name ls2) => //; rewrite -?catA //.
by have [a [b ->]] := Hk; exists a, (b ++ ":"%char :: first); rewrite -!catA.
Qed.

(** ** The hypotheses are met *)
Section Cases.

Definition in_list (xs : seq string) (t : text) : bool := has (fun x => same_text (lit x) t) xs.

(** CUDA_HOME is set to a directory that does not exist, CUDA_ROOT to an
    installation. *)
Definition case_system (files : seq string) (f : string -> string) : system :=
  System (in_list ([:: "/opt/cuda"; "/opt/cuda/bin/nvcc"; "/opt/cuda/include"; "/opt/cuda/lib64"]%string
                   ++ files)%SEQ)
    (in_list files) (fun t => lit (f (string_of_list_ascii t)))
    (fun v => if same_text v (lit "CUDA_HOME") then Some (lit "/opt/none")
              else if same_text v (lit "CUDA_ROOT") then Some (lit "/opt/cuda")
              else if same_text v (lit "PATH") then Some (lit "/usr/bin:/opt/cuda/bin") else None)
    id (fun t => Some t).

Lemma child_lit a b p : join (lit a) (lit b) = lit p -> relative (lit b) -> child (lit a) (lit b) (lit p).
Proof. by move=> <-; apply: joinP. Qed.

Lemma case_variable files f : ~~ in_list files (lit "/opt/none") ->
  by_variable (case_system files f) (lit "/opt/cuda") (lit "/opt/cuda/bin/nvcc").
Proof.
move=> Hf; apply/by_variableP; rewrite /= /in_list /= (_ : has _ files = false) //.
by apply/negbTE.
Qed.

Lemma case_parts files f : ~~ in_list files (lit "/opt/cuda/lib") ->
  has_parts (case_system files f) (lit "/opt/cuda") (lit "/opt/cuda/include") (lit "/opt/cuda/lib64").
Proof.
move=> Hf; split=> //; first exact: child_lit.
right; split; first exact: child_lit.
move=> q Hq; rewrite (child_join Hq isT) /= /in_list /= (_ : has _ files = false) //.
exact/negbTE.
Qed.

Definition nl : string := String newline EmptyString.

(** The version in version.txt. *)
Example C79_txt_case :
  let s := case_system [:: "/opt/cuda/version.txt"%string] (fun=> ("CUDA Version 10.1.243" ++ nl)%string) in
  locate s = Done (Some (Cuda (lit "/opt/cuda") (lit "/opt/cuda/bin/nvcc") (lit "/opt/cuda/include")
    (lit "/opt/cuda/lib64") (Version 10 (Some 1) (Some 243)))) /\
  info_version s = Done (lit "10.1.243").
Proof.
move=> s.
have N : numbers [:: lit "10"; lit "1"; lit "243"] [:: 10; 1; 243].
  constructor; first by apply: (@writes_more (lit "1") 1 0) => //; exact: (@writes_one 1).
  constructor; first exact: (@writes_one 1).
  constructor; last by constructor.
  apply: (@writes_more (lit "24") 24 3) => //; apply: (@writes_more (lit "2") 2 4) => //.
  exact: (@writes_one 2).
have [v Ev [E1 E2 E3]] : exists2 v, get_version s (lit "/opt/cuda") = Done v & is_version [:: 10; 1; 243] v.
  apply: (@C79_version_txt s (lit "/opt/cuda") (lit "/opt/cuda/version.txt") (lit "CUDA Version ")
    [:: lit "10"; lit "1"; lit "243"] _ [:: newline]) => //.
  - exact: child_lit.
  - by right; exists (lit "CUDA Version").
  - by right; left.
have L := C79_complete (@case_variable [:: "/opt/cuda/version.txt"%string] _ isT)
  (@case_parts [:: "/opt/cuda/version.txt"%string] _ isT) Ev.
have {}Ev : v = Version 10 (Some 1) (Some 243) by case: (v) E1 E2 E3 => a b c /= -> -> ->.
rewrite Ev in L; split=> //.
Qed.

(** The version in the header, after another line. *)
Example C79_header_case :
  let s := case_system [:: "/opt/cuda/include/cuda.h"%string]
    (fun=> ("/* cuda.h */" ++ nl ++ "#define CUDA_VERSION 11030" ++ nl ++ "#define X" ++ nl)%string) in
  exists2 v, get_version s (lit "/opt/cuda") = Done v & is_version [:: 11; 3; 0] v.
Proof.
move=> s.
have [n W En] : exists2 n, writes (lit "11030") n & n = (11 * 1000 + 30)%N.
  exists (10 * (10 * (10 * (10 * 1 + 1) + 0) + 3) + 0)%N; last by lia.
  apply: (@writes_more (lit "1103") _ 0) => //; apply: (@writes_more (lit "110") _ 3) => //.
  apply: (@writes_more (lit "11") _ 0) => //; apply: (@writes_more (lit "1") _ 1) => //.
  exact: (@writes_one 1).
have [|||||||||||||v Ev Hv] := @C79_version_header s (lit "/opt/cuda") (lit "/opt/cuda/version.txt")
  (lit "/opt/cuda/version.json") (lit "/opt/cuda/include") (lit "/opt/cuda/include/cuda.h")
  [:: lit "/* cuda.h */"] space (lit "11030") n (newline :: lit ("#define X" ++ nl)%string)
  (lit ("#define X" ++ nl)%string).
- exact: child_lit.
- by [].
- exact: child_lit.
- by [].
- exact: child_lit.
- exact: child_lit.
- by [].
- by [].
- move=> [|? [|? ?]] a l // [<- _]; split; first exact: withoutP.
  by move=> r; discriminate.
- by left.
- exact: W.
- by lia.
- by right.
have e1 : n %/ 1000 = 11 by lia.
have e2 : n %% 1000 %/ 10 = 3 by lia.
have e3 : n %% 10 = 0 by lia.
by exists v => //; move: Hv; rewrite e1 e2 e3.
Qed.

(** A version.txt with two numbers: imate.info fails. *)
Example C79_info_case :
  let s := case_system [:: "/opt/cuda/version.txt"%string] (fun=> "CUDA Version 9.0"%string) in
  exists c, [/\ locate s = Done (Some c), is_version [:: 9; 0] (c_version c)
              & info_version s = Error EType].
Proof. by eexists. Qed.

(** The compiler in the second directory of the search path. *)
Example C79_path_case :
  let s := case_system [:: "/opt/cuda/version.txt"%string] (fun=> "CUDA Version 9.0.176"%string) in
  let s' := System (exists_ s) (is_file s) (contents s)
    (fun v => if same_text v (lit "PATH") then Some (lit "/usr/bin:/opt/cuda/bin") else None)
    (abspath s) (json_version s) in
  [/\ no_variable s', by_path s' (lit "/opt/cuda/bin/nvcc")
    & exists2 c, locate s' = Done (Some c) & c_home c = lit "/opt/cuda"].
Proof.
move=> s s'; split.
- exact/no_variableP.
- by apply/find_in_pathP; exists (lit "/usr/bin:/opt/cuda/bin").
- by eexists.
Qed.

(** Nothing installed. *)
Example C79_none_case :
  let s := System (fun=> false) (fun=> false) id
    (fun v => if same_text v (lit "PATH") then Some (lit "/bin") else None) id (fun=> None) in
  [/\ no_variable s, not_in_path s & locate s = Done None].
Proof.
move=> s; split=> //; first exact/no_variableP.
by apply/not_in_pathP; exists (lit "/bin").
Qed.

Example C79_processor_case :
  let tab := String (Ascii.ascii_of_nat 9) EmptyString in
  processor_name (lit ("processor" ++ tab ++ ": 0" ++ nl ++ "model name" ++ tab ++ ": Intel Xeon" ++ nl
    ++ "stepping: 1")%string) = lit "Intel Xeon".
Proof.
move=> tab.
apply: (@C79_processor _ [:: lit ("processor" ++ tab ++ ": 0")%string] (lit ("model name" ++ tab)%string)
  space (lit "Intel Xeon") [:: lit "stepping: 1"]) => //.
- by case=> [|? [|? [|? [|? ?]]]] a l //= [] *; subst; apply: withoutP.
- by move=> c r [<- _].
- move=> c r E; have := congr1 (last space) E; rewrite last_rcons /= => <-; by [].
- by case=> [|? [|? ?]] a l // [<- _]; apply/containsP.
- by exists [::], (lit tab).
- exact: withoutP.
Qed.

Example C79_colon_case :
  processor_name (lit ("model name: A: B" ++ nl ++ "x")%string) = lit "B".
Proof.
apply: (@C79_colon_refuted _ [::] (lit "model name") (lit " A") space (lit "B") [:: lit "x"]) => //.
- by case=> [|? [|? [|? ?]]] a l //= [] *; subst; apply: withoutP.
- by move=> c r [<- _].
- by move=> c r E; have := congr1 (last space) E; rewrite last_rcons /= => <-.
- by case.
- by exists [::], [::].
- exact: withoutP.
Qed.

(** A version.txt that ends with a blank; no libraries; no headers; no search
    path. *)
Example C79_errors_case :
  let s := case_system [:: "/opt/cuda/version.txt"%string] (fun=> ("CUDA Version 9.0.176 " ++ nl)%string) in
  let only xs env := System (in_list xs) (fun=> false) id env id (fun=> None) in
  let env v := if same_text v (lit "CUDA_PATH") then Some (lit "/c") else None in
  [/\ locate s = Error EValue,
      locate (only [:: "/c"; "/c/bin/nvcc"; "/c/include"]%string env) = Error EEnvironment,
      by_variable (only [:: "/c"; "/c/bin/nvcc"]%string env) (lit "/c") (lit "/c/bin/nvcc") /\
      locate (only [:: "/c"; "/c/bin/nvcc"]%string env) = Done None
    & no_variable (only [::] (fun=> None)) /\ locate (only [::] (fun=> None)) = Error EKey].
Proof.
move=> s only env; split=> //; split=> //; first exact/by_variableP.
exact/no_variableP.
Qed.
End Cases.

Definition C79_assumptions :=
  (@C79_version_txt, @C79_version_json, @C79_version_header, @C79_blank_refuted, @C79_found,
   @C79_complete, @C79_complete_path, @C79_none, @C79_no_libraries, @C79_no_headers_refuted,
   @C79_no_path_refuted, @C79_info, @C79_info_none, @C79_info_refuted, @C79_processor,
   @C79_colon_refuted).
Print Assumptions C79_assumptions.
