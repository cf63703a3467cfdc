(** The device queries report what nvidia-smi says: C87. *)
From mathcomp Require Import all_ssreflect.
From mathcomp Require Import zify.
From Coq Require Import Ascii String.
From Verif Require Import LocateModel LocateSpec QueryModel QuerySpec.
From Verif Require Import PropLocate.

Set Implicit Arguments.
Unset Strict Implicit.
Unset Printing Implicit Defensive.

(** ** Lines *)

Lemma filter_without c (l : text) : without c l -> [seq x <- l | ~~ same x c] = l.
Proof.
elim: l => //= a l IH /without_cons [/sameP /negbTE -> /IH ->]; by [].
Qed.

Lemma recordsP ls out : prints ls out -> records out = ls.
Proof.
elim=> // l ls' out' Hl _; rewrite /records lines_cat //= => ->.
by rewrite filter_rcons same_refl /= filter_without.
Qed.

Lemma countP ls out : prints ls out -> count (same newline) out = size ls.
Proof.
elim=> // l ls' out' Hl _ IH; rewrite count_cat.
suff -> : count (same newline) l = 0 by rewrite add0n /= IH.
elim: l Hl => // a l IHl /without_cons [Ha /IHl E].
rewrite -cat1s count_cat E addn0; change ((same newline a : nat) + 0 = 0)%N.
by case: sameP => // E'; case: Ha.
Qed.

(** ** Letters *)

Lemma ascii_lt c : (nat_of_ascii c < 256)%N.
Proof. by apply/ltP; apply: nat_ascii_bounded. Qed.

Lemma ascii_nat n : (n < 256)%N -> nat_of_ascii (Ascii.ascii_of_nat n) = n.
Proof. by move=> /ltP; apply: nat_ascii_embedding. Qed.

Lemma ascii_inj a b : nat_of_ascii a = nat_of_ascii b -> a = b.
Proof. by move=> E; rewrite -[a]ascii_nat_embedding E ascii_nat_embedding. Qed.

Lemma lower_nat c : nat_of_ascii (lower c) =
  if (65 <= nat_of_ascii c <= 90)%N then (nat_of_ascii c + 32)%N else nat_of_ascii c.
Proof. by rewrite /lower; case: ifP => // H; rewrite ascii_nat //; lia. Qed.

Lemma lower_upper k : (k < 26)%N ->
  lower (Ascii.ascii_of_nat (65 + k)) = lower (Ascii.ascii_of_nat (97 + k)).
Proof.
move=> Hk; apply: ascii_inj; rewrite !lower_nat !ascii_nat; try lia.
have -> : (64 < 65 + k <= 90)%N = true by lia.
have -> : (64 < 97 + k <= 90)%N = false by lia.
lia.
Qed.

Lemma letterP a b : letter a b <-> lower a = lower b.
Proof.
split=> [[->|[k [Hk [[-> ->]|[-> ->]]]]]|E] //; first 2 last.
- have := congr1 nat_of_ascii E; rewrite !lower_nat.
  case: ifP => Ha; case: ifP => Hb H.
  + by left; apply: ascii_inj; lia.
  + right; exists (nat_of_ascii a - 65)%N; split; first lia.
    by left; split; apply: ascii_inj; rewrite ascii_nat; lia.
  + right; exists (nat_of_ascii b - 65)%N; split; first lia.
    by right; split; apply: ascii_inj; rewrite ascii_nat; lia.
  + by left; apply: ascii_inj.
- exact: lower_upper.
- by rewrite lower_upper.
Qed.

Lemma lettersP s t : letters s t <-> map lower s = map lower t.
Proof.
split; first by elim=> //= a s' b t' /letterP -> _ ->.
elim: s t => [|a s IH] [|b t] //=; first by constructor.
by case=> /letterP H /IH; constructor.
Qed.

Lemma map_cat_inv (f : ascii -> ascii) (l a b : text) : map f l = a ++ b ->
  exists x y, [/\ l = x ++ y, map f x = a & map f y = b].
Proof.
move=> E; exists (take (size a) l), (drop (size a) l); split; first by rewrite cat_take_drop.
  by rewrite map_take E take_size_cat.
by rewrite map_drop E drop_size_cat.
Qed.

Lemma mentionsP words l :
  reflect (mentions words l) (contains (map lower (lit words)) (map lower l)).
Proof.
apply: (iffP idP) => [/containsP [a [b E]]|[a [w [b [-> /lettersP E]]]]].
  have [x [y [-> _ Ey]]] := map_cat_inv E.
  have [w [z [-> Ew _]]] := map_cat_inv Ey.
  by exists x, w, z; split=> //; apply/lettersP.
by apply/containsP; exists (map lower a), (map lower b); rewrite !map_cat E.
Qed.

Lemma grep_none words ls : none_mentions words ls -> grep_i (lit words) ls = [::].
Proof.
elim: ls => //= l ls IH H; case: mentionsP => [Hl|_]; first by case: (H [::] l ls).
by apply: IH => b x a E; apply: (H (l :: b) x a); rewrite E.
Qed.

Lemma grep_first words ls1 l ls2 : none_mentions words ls1 -> mentions words l ->
  grep_i (lit words) (ls1 ++ l :: ls2) = l :: grep_i (lit words) ls2.
Proof.
move=> H Hl; rewrite /grep_i filter_cat -/(grep_i _ ls1) grep_none //=.
by case: mentionsP.
Qed.

(** ** The value after the colon *)

Lemma from_colonP key rest : without ":" key -> from_colon (key ++ lit ": " ++ rest) =
  Some (lit ": " ++ rest).
Proof. by elim: key => //= a key IH /without_cons [/sameP /negbTE -> /IH]. Qed.

Lemma blankP c : reflect (blank c) (is_blank c).
Proof.
apply: (iffP idP) => [H|[->|[k [Hk ->]]]] //; last first.
  by rewrite /is_blank ascii_nat; lia.
have [E|N] := eqVneq (nat_of_ascii c) 32; first by left; apply: ascii_inj.
right; exists (nat_of_ascii c - 9)%N; move: H; rewrite /is_blank => H.
by split; first lia; apply: ascii_inj; rewrite ascii_nat; lia.
Qed.

Lemma drop_blanks_same s : (forall c r, s = c :: r -> ~ blank c) -> drop_blanks s = s.
Proof. by case: s => //= c s /(_ c s erefl) /blankP /negbTE ->. Qed.

Lemma proper_strip s w : proper s -> all is_blank w -> bytes_strip (s ++ w) = s.
Proof.
move=> [H0 H1 H2] Hw; rewrite /bytes_strip.
rewrite (@drop_blanks_same (s ++ w)); last by case: s H0 H1 {H2} => // a s _ H c r [<- _]; apply: (H a s).
rewrite rev_cat.
have -> v : all is_blank v -> drop_blanks (v ++ rev s) = drop_blanks (rev s).
  by elim: v => //= a v IH /andP [-> /IH].
  rewrite drop_blanks_same ?revK // => c r E; apply: (H2 (rev r)).
  by rewrite -[s]revK E rev_cons.
by rewrite all_rev.
Qed.

Lemma drop_blanks_sub s : exists2 w, s = w ++ drop_blanks s & all is_blank w.
Proof.
elim: s => [|c s [w E H]] /=; first by exists [::].
case: ifP => Hc; last by exists [::].
by exists (c :: w) => /=; rewrite ?Hc // -E.
Qed.

Lemma drop_blanks_head s c r : drop_blanks s = c :: r -> ~ blank c.
Proof.
elim: s => //= a s IH; case: ifP => // /negbT H [<- _].
by move/blankP; apply/negP.
Qed.

Lemma bytes_strip_proper s : bytes_strip s <> [::] -> proper (bytes_strip s).
Proof.
move=> H0; split=> //; rewrite /bytes_strip.
  set u := drop_blanks s.
  have [w E Hw] := drop_blanks_sub (rev u) => c r Er.
  apply: (@drop_blanks_head s c (r ++ rev w)); rewrite -/u -[u]revK E rev_cat Er.
  by rewrite cat_cons.
move=> r c E; apply: (@drop_blanks_head (rev (drop_blanks s)) c (rev r)).
by rewrite -[drop_blanks _]revK E rev_rcons.
Qed.

Lemma query_value f t out st v w : works t -> answer t = Some (st, out) -> f out = v ++ w ->
  proper v -> all is_blank w -> query f t = v.
Proof.
move=> [o Ho] Ha Hf Hv Hw; rewrite /query /check_nvidia_smi Ho /= Ha /= Hf proper_strip //.
by case: v Hv {Hf} => // [[]].
Qed.

(** ** The theorems *)

(** The name is that of the first GPU of the report, however many there are. *)
Theorem C87_gpu_name t st out ls1 l name ls2 : works t -> answer t = Some (st, out) ->
  prints (ls1 ++ l :: ls2) out -> none_mentions "Product Name" ls1 ->
  entry "Product Name" l name -> proper name ->
  get_gpu_name t = name.
Proof.
move=> Hw Ha Ho H1 [key [El Hk Hm]] Hn; rewrite /get_gpu_name.
apply: (query_value (w := [:: newline]) Hw Ha) => //.
rewrite (recordsP Ho) grep_first // /= take0 /grep_o /= El from_colonP //= /unlines /=.
by rewrite drop0 cats0 cats1.
Qed.

(** The version is that of the only line of the report that mentions one. *)
Theorem C87_driver t st out ls1 l version ls2 : works t -> answer t = Some (st, out) ->
  prints (ls1 ++ l :: ls2) out -> none_mentions "Driver Version" ls1 ->
  none_mentions "Driver Version" ls2 ->
  entry "Driver Version" l version -> proper version ->
  get_nvidia_driver_version t = version.
Proof.
move=> Hw Ha Ho H1 H2 [key [El Hk Hm]] Hn; rewrite /get_nvidia_driver_version.
apply: (query_value (w := [:: newline]) Hw Ha) => //.
rewrite (recordsP Ho) grep_first // grep_none //= /grep_o /= El from_colonP //= /unlines /=.
by rewrite drop0 cats0 cats1.
Qed.

(** Unlike the name, the version is not only the first: with two lines both are
    returned, with a line feed between. *)
Theorem C87_driver_two_refuted t st out ls1 l v ls2 l' v' ls3 : works t ->
  answer t = Some (st, out) -> prints (ls1 ++ l :: ls2 ++ l' :: ls3) out ->
  none_mentions "Driver Version" ls1 -> none_mentions "Driver Version" ls2 ->
  none_mentions "Driver Version" ls3 ->
  entry "Driver Version" l v -> entry "Driver Version" l' v' -> proper v -> proper v' ->
  get_nvidia_driver_version t = v ++ newline :: v' /\ get_nvidia_driver_version t <> v.
Proof.
move=> Hw Ha Ho H1 H2 H3 [key [El Hk Hm]] [key' [El' Hk' Hm']] [V0 V1 V2] [V0' V1' V2'].
suff -> : get_nvidia_driver_version t = v ++ newline :: v'.
  by split=> // /(congr1 size); rewrite size_cat /=; lia.
rewrite /get_nvidia_driver_version.
apply: (query_value (w := [:: newline]) Hw Ha) => //.
  rewrite (recordsP Ho) grep_first // grep_first // grep_none //= /grep_o /= El El'.
  by rewrite !from_colonP //= /unlines /= !drop0 cats0 -!cats1 -!catA.
split.
- by case: (v).
- by case: v V0 V1 {V2 El} => // a v _ H c r [<- _]; apply: (H a v).
- move=> r c E; case: (lastP v') V0' V2' E => // s x _ H.
  rewrite -rcons_cons -rcons_cat => /rcons_inj [_ <-]; exact: (H s x).
Qed.

(** The number is the number of lines of the list. *)
Theorem C87_number t st out ls : works t -> answer t = Some (st, out) -> prints ls out ->
  get_num_gpu_devices t = Some (size ls).
Proof.
move=> [o Ho] Ha Hp; rewrite /get_num_gpu_devices /check_nvidia_smi Ho /= Ha /=.
rewrite (countP Hp) -cats1; apply: int_of_writes => //; exact: decimalP.
Qed.

(** If all lines are GPUs it is their number; a line of another kind, such as one
    for a slice of a GPU, is counted as a GPU. *)
Lemma gpus_size ls k o : gpus ls k o -> size ls = (k + o)%N.
Proof. by elim=> //= l ls' k' o' _ _ ->; lia. Qed.

Theorem C87_gpus t st out ls k : works t -> answer t = Some (st, out) -> prints ls out ->
  gpus ls k 0 -> get_num_gpu_devices t = Some k.
Proof. by move=> Hw Ha Hp /gpus_size E; rewrite (C87_number Hw Ha Hp) E addn0. Qed.

Theorem C87_slices_refuted t st out ls k o : works t -> answer t = Some (st, out) ->
  prints ls out -> gpus ls k o -> (0 < o)%N ->
  exists2 r, get_num_gpu_devices t = Some r & (k < r)%N.
Proof.
move=> Hw Ha Hp /gpus_size E Ho; exists (k + o)%N; last lia.
by rewrite (C87_number Hw Ha Hp) E.
Qed.

(** When the tool is not there, or reports that it finds no device, so do all
    three queries. *)
Theorem C87_absent t : ~ works t ->
  [/\ get_gpu_name t = lit "not found", get_nvidia_driver_version t = lit "not found"
    & get_num_gpu_devices t = Some 0].
Proof.
move=> H.
have E : check_nvidia_smi t = false.
  rewrite /check_nvidia_smi; case Ec: (check t) => [[[|k] out]|] //.
  by case: H; exists out.
by rewrite /get_gpu_name /get_nvidia_driver_version /get_num_gpu_devices /query E.
Qed.

(** Reports that do not mention what is looked for. *)
Theorem C87_silent t st out ls : works t -> answer t = Some (st, out) -> prints ls out ->
  (none_mentions "Product Name" ls -> get_gpu_name t = lit "not found") /\
  (none_mentions "Driver Version" ls -> get_nvidia_driver_version t = lit "not found").
Proof.
move=> [o Ho] Ha Hp; rewrite /get_gpu_name /get_nvidia_driver_version /query.
by rewrite /check_nvidia_smi Ho /= Ha /= !(recordsP Hp); split=> /grep_none ->.
Qed.

(** Whatever the tool does, there is an answer: a text that is not empty and has
    no blanks around it, and a number. *)
Lemma query_proper f t : proper (query f t).
Proof.
have N : proper (lit "not found").
  split=> // [c r [<- _]|r c]; first by move/blankP.
  rewrite (_ : lit "not found" = rcons (lit "not foun") "d"%char) //.
  by move/rcons_inj => [_ <-] /blankP.
rewrite /query; case: ifP => // _; case: (pipe _ _) => [[e s]|] //.
case: ifP => // _; case E: (bytes_strip s) => [|c r] //.
by rewrite -E; apply: bytes_strip_proper; rewrite E.
Qed.

Theorem C87_total t : [/\ proper (get_gpu_name t), proper (get_nvidia_driver_version t)
  & exists n, get_num_gpu_devices t = Some n].
Proof.
split; try exact: query_proper.
rewrite /get_num_gpu_devices; case: ifP => _; first by exists 0.
case: (answer t) => [[st out]|] /=; last by exists 0.
exists (count (same newline) out); rewrite -cats1; apply: int_of_writes => //; exact: decimalP.
Qed.

(** The status of the second run is lost in the pipe: if the check passes and the
    list then fails, the lines of the message are counted as devices. *)
Theorem C87_failed_refuted t st out ls : works t -> answer t = Some (st, out) -> st <> 0 ->
  prints ls out -> ls <> [::] -> exists2 n, get_num_gpu_devices t = Some n & (0 < n)%N.
Proof. by move=> Hw Ha _ Hp Hn; exists (size ls); [exact: C87_number Ha Hp | case: (ls) Hn]. Qed.

(** restrict_to_single_processor sets its five variables to 1 and no other. *)
Lemma same_textP s t : reflect (s = t) (same_text s t).
Proof.
elim: s t => [|a s IH] [|b t] /=; try by constructor.
case: sameP => [->|N] /=; last by constructor; case.
by case: IH => [->|N]; constructor => //; case.
Qed.

Theorem C87_restrict e :
  (forall x, x = lit "OMP_NUM_THREADS" \/ x = lit "OPENBLAS_NUM_THREADS" \/
     x = lit "MKL_NUM_THREADS" \/ x = lit "VECLIB_MAXIMUM_THREADS" \/
     x = lit "NUMEXPR_NUM_THREADS" -> restrict_to_single_processor e x = Some (lit "1")) /\
  (forall x, x <> lit "OMP_NUM_THREADS" -> x <> lit "OPENBLAS_NUM_THREADS" ->
     x <> lit "MKL_NUM_THREADS" -> x <> lit "VECLIB_MAXIMUM_THREADS" ->
     x <> lit "NUMEXPR_NUM_THREADS" -> restrict_to_single_processor e x = e x).
Proof.
split=> x; first by do 4!(case=> [->|] //); move=> ->.
move=> H1 H2 H3 H4 H5; rewrite /restrict_to_single_processor /putenv.
by do 5!(case: same_textP => //).
Qed.

(** ** A case: a report with two GPUs, lists with two GPUs and with slices *)
Fixpoint printed (ls : seq text) : text :=
  if ls is l :: ls' then l ++ newline :: printed ls' else [::].
Lemma printedP ls : all (all (fun c => ~~ same c newline)) ls -> prints ls (printed ls).
Proof.
elim: ls => [|l ls IH] /=; first by constructor.
by case/andP => H /IH; constructor=> //; apply: withoutP.
Qed.

Definition case_tool (ls : seq text) (st : nat) : tool :=
  Tool (Some (0, lit "NVIDIA-SMI")) (Some (st, printed ls)).
Definition case_before : seq text := [:: lit "==NVSMI LOG=="; lit "Driver Version                  : 460.84";
  lit "GPU 00000000:02:00.0"].
Definition case_line : text := lit "    Product Name                : GeForce GTX 1080 Ti".
Definition case_after : seq text := [:: lit "GPU 00000000:03:00.0"; lit "    Product Name                : Tesla V100"].
Definition case_report := case_before ++ case_line :: case_after.

Lemma none_byP words ls :
  ~~ has (fun l => contains (map lower (lit words)) (map lower l)) ls -> none_mentions words ls.
Proof.
move=> H b l a E /mentionsP Hm; move: H.
by rewrite E has_cat /= Hm orbT.
Qed.

Lemma proper_byP s : (if s is c :: _ then ~~ is_blank c && ~~ is_blank (last space s) else false) ->
  proper s.
Proof.
case: s => // a s /andP [H1 H2]; split=> // [c r [<- _]|r c E]; apply/blankP => //.
by rewrite E last_rcons in H2.
Qed.

Lemma case_entry : entry "Product Name" case_line (lit "GeForce GTX 1080 Ti").
Proof.
exists (lit "    Product Name                "); split=> //; first exact: withoutP.
exact/mentionsP.
Qed.

Example C87_gpu_name_case : get_gpu_name (case_tool case_report 0) = lit "GeForce GTX 1080 Ti".
Proof.
apply: (@C87_gpu_name _ 0 (printed case_report) case_before case_line _ case_after) => //.
- by exists (lit "NVIDIA-SMI").
- exact: printedP.
- exact: none_byP.
- exact: case_entry.
- exact: proper_byP.
Qed.

Example C87_driver_case : get_nvidia_driver_version (case_tool case_report 0) = lit "460.84".
Proof.
apply: (@C87_driver _ 0 (printed case_report) [:: lit "==NVSMI LOG=="]
  (lit "Driver Version                  : 460.84") _
  [:: lit "GPU 00000000:02:00.0", case_line & case_after]) => //.
- by exists (lit "NVIDIA-SMI").
- exact: printedP.
- exact: none_byP.
- exact: none_byP.
- exists (lit "Driver Version                  "); split=> //; [exact: withoutP|exact/mentionsP].
- exact: proper_byP.
Qed.

Definition case_versions : seq text :=
  [:: lit "Driver Version : 460.84"; lit "host driver version: 470.1"].
Example C87_driver_two_case :
  get_nvidia_driver_version (case_tool case_versions 0) <> lit "460.84".
Proof.
have [] := @C87_driver_two_refuted (case_tool case_versions 0) 0 (printed case_versions) [::]
  (lit "Driver Version : 460.84") (lit "460.84") [::] (lit "host driver version: 470.1")
  (lit "470.1") [::] => //; try exact: none_byP; try exact: proper_byP.
- by exists (lit "NVIDIA-SMI").
- exact: printedP.
- exists (lit "Driver Version "); split=> //; [exact: withoutP|exact/mentionsP].
- exists (lit "host driver version"); split=> //; [exact: withoutP|exact/mentionsP].
Qed.

Definition case_list : seq text := [:: lit "GPU 0: A100 (UUID: GPU-1)"; lit "GPU 1: A100 (UUID: GPU-2)"].
Definition case_slices : seq text := [:: lit "GPU 0: A100 (UUID: GPU-1)";
  lit "  MIG 1g.5gb Device 0: (UUID: MIG-1)"; lit "  MIG 1g.5gb Device 1: (UUID: MIG-2)"].
Lemma a_gpu r : is_gpu (lit "GPU " ++ r). Proof. by exists r. Qed.

Example C87_gpus_case : get_num_gpu_devices (case_tool case_list 0) = Some 2.
Proof.
apply: (@C87_gpus _ 0 (printed case_list) case_list) => //.
- by exists (lit "NVIDIA-SMI").
- exact: printedP.
- apply: gpus_one; first exact: (a_gpu (lit "0: A100 (UUID: GPU-1)")).
  apply: gpus_one; first exact: (a_gpu (lit "1: A100 (UUID: GPU-2)")).
  exact: gpus_nil.
Qed.

Example C87_slices_case : exists2 r, get_num_gpu_devices (case_tool case_slices 0) = Some r & (1 < r)%N.
Proof.
apply: (@C87_slices_refuted _ 0 (printed case_slices) case_slices 1 2) => //.
- by exists (lit "NVIDIA-SMI").
- exact: printedP.
- apply: gpus_one; first exact: (a_gpu (lit "0: A100 (UUID: GPU-1)")).
  by do 2!(apply: gpus_other; first by case); apply: gpus_nil.
Qed.

Example C87_failed_case :
  exists2 n, get_num_gpu_devices (case_tool [:: lit "Failed to initialize NVML: Unknown Error"] 255)
    = Some n & (0 < n)%N.
Proof.
apply: (@C87_failed_refuted _ 255 (printed [:: lit "Failed to initialize NVML: Unknown Error"])
  [:: lit "Failed to initialize NVML: Unknown Error"]) => //.
  by exists (lit "NVIDIA-SMI").
exact: printedP.
Qed.

Example C87_silent_case : get_gpu_name (case_tool case_list 0) = lit "not found".
Proof.
apply: (proj1 (@C87_silent (case_tool case_list 0) 0 (printed case_list) case_list _ erefl _)).
- by exists (lit "NVIDIA-SMI").
- exact: printedP.
- exact: none_byP.
Qed.

Example C87_absent_case : ~ works (Tool (Some (127, [::])) None) /\ ~ works (Tool None None).
Proof. by split; case. Qed.

Definition C87_assumptions := (@C87_gpu_name, @C87_driver, @C87_driver_two_refuted, @C87_number,
  @C87_gpus, @C87_slices_refuted, @C87_absent, @C87_silent, @C87_total, @C87_failed_refuted,
  @C87_restrict).
Print Assumptions C87_assumptions.
