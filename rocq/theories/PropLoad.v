(** * C80: calls of CUDA reach the right functions *)
From mathcomp Require Import all_ssreflect zify.
From Coq Require Import Ascii String.
From Verif Require Import LoadModel LoadSpec.

Set Implicit Arguments.
Unset Strict Implicit.
Unset Printing Implicit Defensive.

Lemma app_nil (s : string) : (s ++ "")%string = s.
Proof. by elim: s => //= c s ->. Qed.
Lemma appA (a b c : string) : ((a ++ b) ++ c)%string = (a ++ (b ++ c))%string.
Proof. by elim: a => //= x a ->. Qed.

Lemma file_name major l : get_lib_name Linux major l = file major l.
Proof. by case: l. Qed.

(** Each function of the package loads the symbol of its own name, and tests,
    writes and calls its own pointer. *)
Definition fit (w : wrapper) : bool :=
  [&& String.eqb (w_symbol w) (exported w), String.eqb (w_test w) (w_name w),
      String.eqb (w_store w) (w_name w) & String.eqb (w_call w) (w_name w)].
Definition same_lib (a b : library) : bool :=
  match a, b with Cudart, Cudart | Cublas, Cublas | Cusparse, Cusparse => true | _, _ => false end.

Lemma in_all (p : wrapper -> bool) ws w : all p ws -> List.In w ws -> p w.
Proof. by elim: ws => //= x ws IH /andP [Hx /IH H] [<-|/H]. Qed.

Lemma fits w : List.In w table ->
  [/\ w_symbol w = exported w, w_test w = w_name w, w_store w = w_name w & w_call w = w_name w].
Proof.
have H : all fit table by vm_compute.
by move=> /(in_all H) /and4P [] /String.eqb_eq ? /String.eqb_eq ? /String.eqb_eq ? /String.eqb_eq ?.
Qed.

Lemma one_lib v w : List.In v table -> List.In w table -> w_name v = w_name w ->
  w_lib v = w_lib w.
Proof.
have H : all (fun v => all (fun w =>
    String.eqb (w_name v) (w_name w) ==> same_lib (w_lib v) (w_lib w)) table) table by vm_compute.
move=> Hv Hw /String.eqb_eq E; have := in_all (in_all H Hv) Hw; rewrite E /=.
by case: (w_lib v); case: (w_lib w).
Qed.

Local Opaque table.
Section Load.
Variable (major : string) (libs : world).

Definition right (w : wrapper) (a : nat) : Prop :=
  exists2 syms, libs (file major (w_lib w)) = Some syms & syms (exported w) = Some a.

(** What is known of the pointers. *)
Definition cache_ok (c : cache) : Prop :=
  forall w, List.In w table -> c (w_name w) = 0 \/ right w (c (w_name w)).

Lemma cache_write c w a : cache_ok c -> List.In w table -> right w a ->
  cache_ok (write c (w_name w) a).
Proof.
move=> Hc Hw Ha v Hv; rewrite /write; case E: String.eqb; last exact: Hc.
right; have {}E := proj1 (String.eqb_eq _ _) E.
by move: Ha; rewrite /right /exported -(one_lib Hv Hw E) E.
Qed.

Variable clears : bool.
Notation step := (step Linux major libs clears).
Notation step_of := (step_of Linux major libs clears).
Notation run := (run Linux major libs clears).

Lemma size_step st i : size (step_of st i).2 = size st.2.
Proof.
rewrite /LoadModel.step_of; case: ifP => //= H; rewrite size_set_nth.
by apply/maxn_idPr.
Qed.
Lemma size_run sched st : size (run st sched).2 = size st.2.
Proof. by elim: sched st => //= i sched IH st; rewrite IH size_step. Qed.

(** An invariant of the pointers and one of each thread that the steps of all
    threads keep. *)
Section Invariant.
Variables (I : cache -> Prop) (J : nat -> cache -> thread -> Prop).
Hypothesis HI : forall i c t, I c -> J i c t -> I (step c t).1.
Hypothesis HJ : forall i c t, I c -> J i c t -> J i (step c t).1 (step c t).2.
Hypothesis HK : forall i j c t u, I c -> J i c t -> J j c u -> J j (step c t).1 u.

Lemma run_inv sched st : I st.1 -> (forall i, (i < size st.2)%N -> J i st.1 (nth idle st.2 i)) ->
  I (run st sched).1 /\
  (forall i, (i < size st.2)%N -> J i (run st sched).1 (nth idle (run st sched).2 i)).
Proof.
elim: sched st => [|k sched IH] st Hi Hj //=.
have := IH (step_of st k); rewrite size_step; apply.
  by rewrite /LoadModel.step_of; case: ifP => //= Hk; apply: (@HI k) => //; apply: Hj.
move=> i Li; rewrite /LoadModel.step_of; case: ifP => //= Hk; last exact: Hj.
rewrite nth_set_nth /=; case: eqP => [->|_]; first by apply: HJ => //; apply: Hj.
by apply: (@HK k) => //; apply: Hj.
Qed.
End Invariant.

(** ** Whatever is called is the right function *)

Definition place_right (w : wrapper) (t : thread) : Prop :=
  match at_ t with
  | Looking syms => libs (file major (w_lib w)) = Some syms
  | Checking a => pending t \/ right w a
  | Storing a => right w a
  | _ => True
  end.
Definition thread_right (t : thread) : Prop :=
  [/\ forall w, List.In w (todo t) -> List.In w table,
      forall w l, todo t = w :: l -> place_right w t
    & forall w a, List.In (Called w a) (events t) -> right w a /\ a <> 0].

Lemma in_rcons T (x y : T) l : List.In x (rcons l y) -> List.In x l \/ x = y.
Proof. by elim: l => [|z l IH] /= [->|H]; auto; case: (IH H); auto. Qed.

Lemma step_right c t : cache_ok c -> thread_right t ->
  cache_ok (step c t).1 /\ thread_right (step c t).2.
Proof.
move=> Hc; case: t => [[|w l] p e ev] [Ht Hp He] //.
have Hw : List.In w table by apply: Ht; left.
have [Es Et Ew Ec] := fits Hw.
have {}Hp := Hp w l erefl; rewrite /place_right /= in Hp.
have mk p' e' : place_right w (Thread (w :: l) p' e' ev) -> thread_right (Thread (w :: l) p' e' ev).
  by move=> H; split=> //= w' l' [<- _].
have fin e' x : (forall v a, x = Called v a -> right v a /\ a <> 0) ->
    thread_right (Thread l Start e' (rcons ev x)).
  move=> Hx; split=> //=; first by move=> v Hv; apply: Ht; right.
  by move=> v a Hv; have [/He|E] := in_rcons Hv; last exact: Hx.
have stp : thread_right (Thread [::] Start false (rcons ev (Undefined w))).
  by split=> //= v a Hv; have [/He|] := in_rcons Hv.
rewrite /LoadModel.step /=; clear Ht He; case: p Hp => [|| syms | a | a |] Hp /=.
- by split=> //; apply: mk; case: ifP.
- rewrite file_name; case E: libs => [syms|]; first by split=> //; apply: mk.
  by split=> //; apply: fin.
- rewrite Es; case E: (syms _) => [a|]; split=> //; apply: mk; last by left.
  by right; exists syms.
- by case: e Hp mk => [_ _|[//|Ha] mk]; split=> //; apply: mk.
- by rewrite Ew; split; [apply: cache_write|apply: mk].
- case: eqP => Ha; split=> //; apply: fin => v a [<- <-]; split=> //; move: Ha; rewrite Ec.
  by case: (Hc w Hw) => [->|].
Qed.

(** In every history of calls and for every schedule of the threads: what is
    called is the function of that name in the library of CUDA it belongs to. *)
Theorem C80_right ts sched t w a : known ts -> List.In t (run (begin ts) sched).2 ->
  List.In (Called w a) (events t) ->
  a <> 0 /\ exists2 syms, libs (file major (w_lib w)) = Some syms & syms (exported w) = Some a.
Proof.
move=> Hk Ht Ha.
have [|||||_ H] := @run_inv cache_ok (fun _ _ t => thread_right t) _ _ _ sched (begin ts).
- by move=> i c u Hc Hu; case: (step_right Hc Hu).
- by move=> i c u Hc Hu; case: (step_right Hc Hu).
- by [].
- by move=> v Hv; left.
- move=> i; rewrite size_map => Hi; rewrite (nth_map (false, [::])) //; split=> //= v.
  have := cat_take_drop i ts; rewrite (drop_nth (false, [::])) //.
  by case: (nth _ ts i) => [e ws] E; exact: (Hk _ _ _ _ (esym E)).
have {Ht} [i Hi Et] : exists2 i, (i < size (run (begin ts) sched).2)%N & t = nth idle (run (begin ts) sched).2 i.
  elim: (_.2) Ht => //= x l IH [<-|/IH [i Hi Et]]; first by exists 0.
  by exists i.+1.
rewrite size_run in Hi; have := H i Hi; rewrite -Et => -[_ _ He].
by have [[syms E1 E2] H0] := He w a Ha; split=> //; exists syms.
Qed.

(** ** All calls are made *)

Section Complete.
Hypothesis Hcomplete : complete major libs.

Definition place_done (c : cache) (w : wrapper) (t : thread) : Prop :=
  match at_ t with
  | Looking syms => libs (file major (w_lib w)) = Some syms /\ pending t = false
  | Checking a => right w a /\ pending t = false
  | Storing a => right w a
  | Calling => c (w_name w) <> 0
  | _ => True
  end.
Definition thread_done (ws : seq wrapper) (c : cache) (t : thread) : Prop :=
  [/\ forall w, List.In w (todo t) -> List.In w table,
      forall w l, todo t = w :: l -> place_done c w t,
      clears || ~~ pending t
    & exists2 d, ws = d ++ todo t & answered major libs d (events t)].

Lemma right_pos w a : List.In w table -> right w a -> a <> 0.
Proof.
move=> Hw [syms E1 E2]; have [b] := Hcomplete Hw E1.
by rewrite E2 => -[->].
Qed.

Lemma write_pos c p q a : a <> 0 -> c q <> 0 -> write c p a q <> 0.
Proof. by rewrite /write; case: String.eqb. Qed.

Lemma step_done ws c t : cache_ok c -> thread_done ws c t ->
  [/\ cache_ok (step c t).1, thread_done ws (step c t).1 (step c t).2
    & forall q, c q <> 0 -> (step c t).1 q <> 0].
Proof.
move=> Hc; case: t => [[|w l] p e ev] [Ht Hp He [d Ed Ha]].
  by split=> //; split=> //; exists d.
have Hw : List.In w table by apply: Ht; left.
have [Es Et Ew Ec] := fits Hw.
have {}Hp := Hp w l erefl; rewrite /place_done /= in Hp; rewrite /= in He.
have mk c' p' e' : clears || ~~ e' -> place_done c' w (Thread (w :: l) p' e' ev) ->
    thread_done ws c' (Thread (w :: l) p' e' ev).
  by move=> H1 H2; split=> //; [move=> w' l' [<- _]|exists d].
have fin c' e' x : clears || ~~ e' -> answers major libs w x ->
    thread_done ws c' (Thread l Start e' (rcons ev x)).
  move=> H1 H2; split=> //=; first by move=> v Hv; apply: Ht; right.
  by exists (rcons d w); [rewrite cat_rcons|constructor].
rewrite /LoadModel.step /=; clear Ht Ed Ha; case: p Hp => [|| syms | a | a |] Hp /=.
- split=> //; apply: mk => //; rewrite /place_done /= Et; case: ifP => //= /eqP; by [].
- rewrite file_name; case E: libs => [syms|]; split=> //.
    apply: mk; first by rewrite /=; move: He; case: (clears) => //=; case: (e).
    by split=> //=; move: He; case: (clears); case: (e).
  by apply: fin; rewrite ?orbT // /answers E.
- have [E1 E2] := Hp; have [a Ea _] := Hcomplete Hw E1.
  rewrite Es Ea /=; split=> //; apply: mk; first by rewrite (E2 : e = false) orbT.
  by split; [exists syms|rewrite /= (E2 : e = false)].
- have [E1 E2] := Hp; rewrite (E2 : e = false); split=> //; apply: mk => //; by rewrite orbT.
- rewrite Ew; split; first exact: cache_write.
  - by apply: mk => //; rewrite /place_done /= /write String.eqb_refl; apply: right_pos Hp.
  - by move=> q; apply: write_pos; apply: right_pos Hp.
- rewrite Ec; case: eqP => // H0; split=> //; apply: fin => //.
  rewrite /answers; have [//|[syms -> E]] := Hc w Hw.
  by exists (c (w_name w)).
Qed.

(** The steps that a thread has still to make at most. *)
Definition rest (t : thread) : nat :=
  6 * size (todo t) -
  match at_ t with
  | Start => 0 | Opening => 1 | Looking _ => 2 | Checking _ => 3 | Storing _ => 4 | Calling => 5
  end.

Lemma step_rest c t : (rest (step c t).2 <= (rest t).-1)%N.
Proof.
case: t => [[|w l] p e ev]; rewrite /rest //=.
rewrite /LoadModel.step /= mulnS.
case: p => [|| syms | a | a |] /=.
- by case: ifP => _ /=; rewrite mulnS; lia.
- by case: (libs _) => [syms|] /=; rewrite ?mulnS; lia.
- by case: (syms _) => [a|] /=; rewrite ?mulnS; lia.
- by case: e => /=; rewrite ?mulnS; lia.
- by rewrite mulnS; lia.
- by case: ifP => _ /=; rewrite ?mulnS; lia.
Qed.

Lemma run_rest sched st i : (i < size st.2)%N ->
  (rest (nth idle (run st sched).2 i) <= rest (nth idle st.2 i) - count_mem i sched)%N.
Proof.
elim: sched st => [|k sched IH] st Hi /=; first by rewrite subn0.
apply: leq_trans (IH _ _) _; first by rewrite size_step.
rewrite /LoadModel.step_of; case: ifP => Hk /=; last first.
  by case: eqP => // E; rewrite E Hi in Hk.
rewrite nth_set_nth /= [k == i]eq_sym; case: eqP => [->|_] //=.
by have := step_rest st.1 (nth idle st.2 k); lia.
Qed.

Lemma rest0 t : (forall w l, todo t = w :: l -> False) \/ rest t <> 0.
Proof.
case: t => [[|w l] p e ev]; first by left.
by right; rewrite /rest /= mulnS; case: p => [||?|?|?|]; lia.
Qed.

(** If the libraries that are there have all functions, each thread makes its
    calls one after the other, whatever the others do: each one calls the
    function, or raises an error if its library is not there.  After six steps
    for each call the thread is through. *)
Theorem C80_calls ts sched b e ws a : known ts -> ts = b ++ (e, ws) :: a ->
  (clears = true \/ forall b' a' e' ws', ts = b' ++ (e', ws') :: a' -> e' = false) ->
  exists d l, [/\ ws = d ++ l,
    answered major libs d (events (nth idle (run (begin ts) sched).2 (size b)))
    & (6 * size ws <= count_mem (size b) sched)%N -> l = [::]].
Proof.
move=> Hk Ets Hp.
have Nts i : (i < size ts)%N -> exists b' a' e' ws', ts = b' ++ (e', ws') :: a' /\
    nth (false, [::]) ts i = (e', ws').
  move=> Hi; have := cat_take_drop i ts; rewrite (drop_nth (false, [::])) //.
  by case: (nth _ ts i) => [e' ws'] E; exists (take i ts), (drop i.+1 ts), e', ws'; rewrite E.
have [|||||_ H] := @run_inv cache_ok
    (fun i c t => thread_done (nth (false, [::]) ts i).2 c t) _ _ _ sched (begin ts).
- by move=> i c u Hc Hu; case: (step_done Hc Hu).
- by move=> i c u Hc Hu; case: (step_done Hc Hu).
- move=> i j c u v Hc Hu [V1 V2 V3 V4]; split=> // w l E.
  have [_ _ Hq] := step_done Hc Hu; have := V2 w l E; rewrite /place_done.
  by case: (at_ v) => //; apply: Hq.
- by move=> v Hv; left.
- move=> i; rewrite size_map => Hi; rewrite (nth_map (false, [::])) //.
  have [b' [a' [e' [ws' [E ->]]]]] := Nts i Hi; split=> //=.
  + exact: (Hk _ _ _ _ E).
  + by case: Hp => [-> //|/(_ _ _ _ _ E) ->]; rewrite orbT.
  + by exists [::] => //; constructor.
have Hb : (size b < size ts)%N by rewrite Ets size_cat /= addnS ltnS leq_addr.
have [|_ _ _ [d]] := H (size b); first by rewrite size_map.
have -> : nth (false, [::]) ts (size b) = (e, ws) by rewrite Ets nth_cat ltnn subnn.
move=> Ed Ha; exists d, (todo (nth idle (run (begin ts) sched).2 (size b))); split=> // Hs.
have := @run_rest sched (begin ts) (size b); rewrite size_map => /(_ Hb).
rewrite (nth_map (false, [::])) //.
have -> : nth (false, [::]) ts (size b) = (e, ws) by rewrite Ets nth_cat ltnn subnn.
rewrite {2}/rest /= => Hr.
have Hr0 : rest (nth idle (run (begin ts) sched).2 (size b)) = 0.
  by apply/eqP; rewrite -leqn0; apply: leq_trans Hr _; rewrite subn0 leqn0 subn_eq0.
have [|/(_ Hr0) //] := rest0 (nth idle (run (begin ts) sched).2 (size b)).
by case: (todo _) => // w l /(_ w l erefl).
Qed.
End Complete.
End Load.

(** ** Where it fails *)

Local Arguments get_lib_name : simpl never.
Local Arguments file : simpl never.

(** A library without the function: on Linux and macOS the call does not raise
    the error with its message, its behaviour is undefined. *)
Theorem C80_missing_refuted major libs clears w syms e : List.In w table ->
  libs (file major (w_lib w)) = Some syms -> syms (exported w) = None ->
  exists2 sched, sched <> [::] &
    events (nth idle (run Linux major libs clears (begin [:: (e, [:: w])]) sched).2 0) = [:: Undefined w].
Proof.
move=> Hw E1 E2; have [Es Et Ew Ec] := fits Hw.
exists [:: 0; 0; 0; 0] => //.
by rewrite /run /= /step_of /= /step /= file_name E1 /= Es E2.
Qed.

(** A library that has the function and an earlier error that the thread did
    not ask for, where success does not forget errors. *)
Theorem C80_pending_refuted major libs w : List.In w table -> complete major libs ->
  libs (file major (w_lib w)) <> None ->
  exists2 sched, sched <> [::] &
    events (nth idle (run Linux major libs false (begin [:: (true, [:: w])]) sched).2 0) = [:: Undefined w].
Proof.
move=> Hw Hc E; have [Es Et Ew Ec] := fits Hw.
exists [:: 0; 0; 0; 0] => //; rewrite /run /= /step_of /= /step /= file_name.
case E1: (libs _) E => [syms|//] _ /=.
by have [a Ea _] := Hc _ _ Hw E1; rewrite Es Ea.
Qed.

(** On Windows a missing function raises the error. *)
Theorem C80_missing_windows major libs clears w syms e : List.In w table ->
  libs (get_lib_name Windows major (w_lib w)) = Some syms -> syms (exported w) = None ->
  exists2 sched, sched <> [::] &
    events (nth idle (run Windows major libs clears (begin [:: (e, [:: w])]) sched).2 0) = [:: Raised w].
Proof.
move=> Hw E1 E2; have [Es Et Ew Ec] := fits Hw.
exists [:: 0; 0; 0] => //.
by rewrite /run /= /step_of /= /step /= E1 /= Es E2.
Qed.

(** The last character of a text. *)
Definition final (s : string) : ascii := last " "%char (list_ascii_of_string s).

Lemma final_app a b : final (a ++ b) = if b is ""%string then final a else final b.
Proof.
rewrite /final.
have -> : list_ascii_of_string (a ++ b) = list_ascii_of_string a ++ list_ascii_of_string b.
  by elim: a => //= x a ->.
by rewrite last_cat; case: b.
Qed.

Lemma number_final s : number s -> s <> ""%string -> (48 <= nat_of_ascii (final s) <= 57)%N.
Proof.
move=> Hs s0.
have [a E] : exists a, s = (a ++ String (final s) "")%string.
  elim: s s0 {Hs} => // c s IH _; case: s IH => [_|d s IH]; first by exists ""%string.
  by have [//|a {1}->] := IH; exists (String c a); rewrite /final /=.
exact: (Hs a _ _ E).
Qed.

(** On Windows no library is found, if all that can be opened have names that
    end with .dll: every call raises. *)
Theorem C80_windows_refuted major libs clears w e : List.In w table ->
  (forall f, libs f <> None -> ends f ".dll") -> number major ->
  events (nth idle (run Windows major libs clears (begin [:: (e, [:: w])]) [:: 0; 0]).2 0) = [:: Raised w].
Proof.
move=> Hw Hl Hm; rewrite /run /= /step_of /= /step /=.
case E: (libs _) => [syms|] //.
have /Hl [a Ea] : libs (get_lib_name Windows major (w_lib w)) <> None by rewrite E.
have := congr1 final Ea; rewrite final_app /get_lib_name.
have N (x : string) c : final x = c -> (nat_of_ascii c < 48)%N -> final (x ++ major) <> "l"%char.
  move=> Ex Hc; rewrite final_app; case Em: major Hm => [|d m] Hm; first by rewrite Ex => El; rewrite El in Hc.
  by rewrite -Em in Hm *; have := @number_final major Hm; rewrite Em => /(_ ltac:(by [])) + El; rewrite El.
case: (w_lib w) => // El.
- by case: (N "libcublas.lib."%string "."%char).
- by case: (N "libcusparse.lib."%string "."%char).
Qed.

(** On macOS only the runtime library can be found, if all that can be opened
    have names that end with .dylib: the number of the version comes before that
    there. *)
Theorem C80_mac_refuted major libs clears w e : List.In w table ->
  (forall f, libs f <> None -> ends f ".dylib") -> number major ->
  w_lib w = Cublas \/ w_lib w = Cusparse ->
  events (nth idle (run Mac major libs clears (begin [:: (e, [:: w])]) [:: 0; 0]).2 0) = [:: Raised w].
Proof.
move=> Hw Hl Hm Hc; rewrite /run /= /step_of /= /step /=.
case E: (libs _) => [syms|] //.
have /Hl [a Ea] : libs (get_lib_name Mac major (w_lib w)) <> None by rewrite E.
have := congr1 final Ea; rewrite final_app /get_lib_name.
have N (x : string) c : final x = c -> (nat_of_ascii c < 48)%N -> final (x ++ major) <> "b"%char.
  move=> Ex Hx; rewrite final_app; case Em: major Hm => [|d m] Hm; first by rewrite Ex => El; rewrite El in Hx.
  by rewrite -Em in Hm *; have := @number_final major Hm; rewrite Em => /(_ ltac:(by [])) + El; rewrite El.
case: Hc => -> El.
- by case: (N "libcublas.dylib."%string "."%char).
- by case: (N "libcusparse.dylib."%string "."%char).
Qed.

(** ** The hypotheses are met *)
Section Cases.
(** CUDA 11 without cuSPARSE: each function has an address. *)
Definition case_world : world := fun f =>
  if String.eqb f "libcudart.so" || String.eqb f "libcublas.so.11" then Some (fun=> Some 7) else None.

Definition malloc : wrapper := nth (Wrapper Cudart "" "" "" "" "") table 9.
Definition gemv : wrapper := nth (Wrapper Cudart "" "" "" "" "") table 17.
Definition spmv : wrapper := nth (Wrapper Cudart "" "" "" "" "") table 36.

Lemma nth_in k w : (k < size table)%N -> nth (Wrapper Cudart "" "" "" "" "") table k = w -> List.In w table.
Proof.
move=> + <-; elim: table k => //= x l IH [|k] H; first by left.
by right; apply: IH.
Qed.

(** Two threads with an interleaving in which both load the same function. *)
Example C80_case :
  let ts := [:: (true, [:: malloc; gemv]); (false, [:: malloc; spmv])] in
  let sched := [:: 0; 1; 0; 1; 0; 0; 1; 0; 0; 1; 1; 0; 0; 1; 0; 1; 0; 1; 0; 0; 1; 0; 1; 1] in
  [/\ w_name malloc = "cudaMalloc"%string, w_name spmv = "cusparseSpMV"%string,
      known ts, complete "11" case_world
    & [seq events t | t <- (run Linux "11" case_world true (begin ts) sched).2] =
      [:: [:: Called malloc 7; Called gemv 7]; [:: Called malloc 7; Raised spmv]]].
Proof.
have I9 : List.In malloc table by apply: (@nth_in 9).
have I17 : List.In gemv table by apply: (@nth_in 17).
have I36 : List.In spmv table by apply: (@nth_in 36).
move=> ts sched; split=> //.
- move=> b a e ws E w; have : List.In (e, ws) ts.
    by rewrite E; elim: (b) => [|x l IH]; [left|right].
  by move=> [[_ <-]|[[_ <-]|[]]] [<-|[<-|[]]].
- move=> w syms _; rewrite /case_world; case: ifP => // _ [<-]; by exists 7.
Qed.

(** An older library without cublasDgemv_v2. *)
Example C80_missing_case :
  let libs : world := fun=> Some (fun n => if String.eqb n "cublasDgemv_v2" then None else Some 7) in
  let dgemv := nth (Wrapper Cudart "" "" "" "" "") table 18 in
  events (nth idle (run Linux "10" libs true (begin [:: (false, [:: dgemv])]) [:: 0; 0; 0; 0]).2 0) =
  [:: Undefined dgemv].
Proof. by []. Qed.

Example C80_number_case : number "11".
Proof. by move=> [|x [|y a]] c b [] => [<- _|_ <- _|_ _] //; case: a. Qed.
End Cases.

Definition C80_assumptions :=
  (@C80_right, @C80_calls, @C80_missing_refuted, @C80_pending_refuted, @C80_missing_windows,
   @C80_windows_refuted, @C80_mac_refuted).
Print Assumptions C80_assumptions.
