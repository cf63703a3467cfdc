(** C93: the properties of the GPU devices in the returned info. *)
From mathcomp Require Import all_ssreflect.
From Verif Require Import Mem HeapModel PropHeap GpuQueryModel.
Set Implicit Arguments.
Unset Strict Implicit.
Unset Printing Implicit Defensive.

(** Specification: the number reported for a device, 0 for an emulated one *)
Definition counted (f : cuda_properties -> nat) (q : cuda_properties) : nat :=
  if major q == 9999 then 0 else f q.

(** The properties of the last device up to [i] for which the library told them *)
Fixpoint last_told (get : nat -> option cuda_properties) (i : nat) : option cuda_properties :=
  if get i is Some q then Some q else if i is j.+1 then last_told get j else None.

Definition table (get : nat -> option cuda_properties) (f : cuda_properties -> nat) (n : nat) : seq (option nat) :=
  mkseq (fun i => omap (counted f) (last_told get i)) n.

Lemma storedE f q : stored f q = omap (counted f) q.
Proof. by case: q. Qed.

(** The first [k] entries of [m] are those of [g] *)
Definition filled (g : nat -> option nat) (n k : nat) (m : seq (option nat)) : Prop :=
  size m = n /\ forall i, i < k -> nth None m i = g i.

Lemma filled_wr g n k m : k < n -> filled g n k m -> exists2 m', wr m k (g k) = Some m' & filled g n k.+1 m'.
Proof.
move=> lt [S F]; rewrite wrE ?S //; eexists; first reflexivity.
have W : wr m k (g k) = Some (set_nth (g k) m k (g k)) by rewrite wrE ?S.
split; first by rewrite (size_wr W).
move=> i; rewrite (nth_wr _ _ W) ltnS leq_eqVlt; case: eqP => [-> //|_ /=]; exact: F.
Qed.

Lemma filled_all g n m : filled g n n m -> m = mkseq g n.
Proof.
case=> S F; apply: (@eq_from_nth _ None); first by rewrite S size_mkseq.
by move=> i; rewrite S => Hi; rewrite F // nth_mkseq.
Qed.

Lemma filled0 g n : filled g n 0 (nseq n None).
Proof. by split; rewrite ?size_nseq. Qed.

Definition seq_of_opt (x : option nat) : seq nat := if x is Some y then [:: y] else [::].

(** What the struct owns *)
Definition owned (p : device_properties) : seq nat :=
  seq_of_opt (block (num_multiprocessors p)) ++ seq_of_opt (block (num_threads_per_multiprocessor p)).

Lemma deallocateP h L p : owns h (owned p ++ L) ->
  exists2 h', deallocate_members h p = Some (h', DeviceProperties (num_devices p) None None) & owns h' L.
Proof.
case: p => n a b; rewrite /owned /deallocate_members /=.
case: (block a) => [x|] /=.
  case/owns_delete=> h1 -> /=; case: (block b) => [y|] /=; last by exists h1.
  by case/owns_delete=> h2 -> H2; exists h2.
case: (block b) => [y|] /=; last by exists h.
by case/owns_delete=> h2 -> H2; exists h2.
Qed.

Lemma set_num_devicesP n h L p : owns h (owned p ++ L) ->
  exists h' a b, set_num_devices n h p =
    Some (h', DeviceProperties n (Some (a, nseq n None)) (Some (b, nseq n None))) /\ owns h' [:: a, b & L].
Proof.
move=> H; rewrite /set_num_devices.
have [h1 -> H1] := deallocateP (p := DeviceProperties n _ _) H.
do 3 eexists; split; first reflexivity.
have := owns_new (owns_new H1) => /owns_perm; apply.
by apply/permP => c /=; rewrite addnCA.
Qed.

(** The arrays of the struct hold the table, and the heap is as before with them *)
Lemma query_deviceP n get h L p : owns h (owned p ++ L) ->
  exists h' a b, query_device (Some n) get h p =
    Some (h', DeviceProperties n (Some (a, table get multi_processor_count n)) (Some (b, table get max_threads n)))
    /\ owns h' [:: a, b & L].
Proof.
move=> H; rewrite /query_device.
have [h1 [a [b [-> H1]]]] /= := set_num_devicesP n H.
pose g f i := omap (counted f) (last_told get i).
pose I k (s : device_properties * option cuda_properties) :=
  exists m t, [/\ s.1 = DeviceProperties n (Some (a, m)) (Some (b, t)), filled (g multi_processor_count) n k m,
    filled (g max_threads) n k t & s.2 = if k is j.+1 then last_told get j else None].
set f := (fun (device : nat) (s : device_properties * option cuda_properties) => _).
have [|k [q r] /andP [_ lt] [m [t [/= -> Fm Ft ->]]]|[q r] -> [m [t [/= -> Fm Ft _]]]] :=
  @for1_inv _ I 0 n f (DeviceProperties n (Some (a, nseq n None)) (Some (b, nseq n None)), None) (leq0n n).
- by exists (nseq n None), (nseq n None); split=> //; apply: filled0.
- have E : (if get k is Some q0 then Some q0 else if k is j.+1 then last_told get j else None) = last_told get k.
    by case: k {lt Fm Ft}.
  rewrite /f E !storedE /write.
  have [m' Em Fm'] := filled_wr lt Fm; have [t' Et Ft'] := filled_wr lt Ft.
  move: Em Et; rewrite /g => Em Et; rewrite /= Em /= Et /=; eexists; first reflexivity.
  by exists m', t'; split.
- do 3 eexists; split; first by rewrite /= (filled_all Fm) (filled_all Ft).
  exact: H1.
Qed.

Lemma py_query_someP n get h L : owns h L ->
  exists2 h', py_query_device (Some n) get h =
    Some (h', Dictionary n (table get multi_processor_count n) (table get max_threads n)) & owns h' L.
Proof.
move=> H; rewrite /py_query_device.
have [h1 [a [b [-> H1]]]] := @query_deviceP n get h L constructor H.
set p := DeviceProperties _ _ _; rewrite [obind _ (Some _)]/=.
pose g f i := omap (counted f) (last_told get i).
pose I k (s : seq (option nat) * seq (option nat)) :=
  filled (g multi_processor_count) n k s.1 /\ filled (g max_threads) n k s.2.
set f := (fun (device : nat) (s : seq (option nat) * seq (option nat)) => _).
have [|k [x y] /andP [_ lt] [/= Fx Fy]|[x y] E [/= Fx Fy]] :=
  @for1_inv _ I 0 n f (nseq n None, nseq n None) (leq0n n).
- by split; apply: filled0.
- have [x' Ex Fx'] := filled_wr lt Fx; have [y' Ey Fy'] := filled_wr lt Fy.
  move: Ex Ey; rewrite /g => Ex Ey.
  rewrite /f /= /table !(rdE None) ?size_mkseq //= !nth_mkseq // Ex /= Ey /=.
  by exists (x', y').
- have [h2 D H2] := @deallocateP h1 L p H1.
  rewrite E [obind _ (Some _)]/= D /=; exists h2 => //.
  by rewrite (filled_all Fx) (filled_all Fy).
Qed.

(** Whatever the CUDA library answers, errors included: the query stays inside its
    arrays, releases no array twice, and leaves exactly the blocks [L] allocated before *)
Theorem C93_released count get h L : owns h L ->
  exists h' d, py_query_device count get h = Some (h', d) /\ owns h' L.
Proof.
move=> H; case: count => [n|]; last by exists h; eexists; split; first reflexivity.
by have [h' -> H'] := py_query_someP n get H; exists h'; eexists; split; first reflexivity.
Qed.

(** Any number of queries into one struct, and its end, leave the blocks as before *)
Fixpoint queries (l : seq (option nat * (nat -> option cuda_properties))) (h : heap) (p : device_properties) :=
  if l is (c, get) :: l' then do (h, p) <- query_device c get h p; queries l' h p else deallocate_members h p.

Theorem C93_repeated l h L : owns h L ->
  exists h' p, queries l h constructor = Some (h', p) /\ owns h' L.
Proof.
move=> H; have {H} : owns h (owned constructor ++ L) by [].
elim: l h constructor => [|[c get] l IH] h p H /=.
  by have [h' E H'] := deallocateP H; exists h'; eexists; split; first exact: E.
case: c => [n|]; last exact: IH.
by have [h' [a [b [-> H']]]] := query_deviceP n get H; apply: IH.
Qed.

(** If the library tells the properties of all devices, they are the ones returned *)
Theorem C93_properties n get d h L : owns h L -> (forall i, i < n -> get i = Some (d i)) ->
  exists2 h', py_query_device (Some n) get h =
    Some (h', Dictionary n (mkseq (fun i => Some (counted multi_processor_count (d i))) n)
                           (mkseq (fun i => Some (counted max_threads (d i))) n)) & owns h' L.
Proof.
move=> H G; have [h' -> H'] := py_query_someP n get H; exists h' => //; rewrite /table.
have E f : mkseq (fun i => omap (counted f) (last_told get i)) n = mkseq (fun i => Some (counted f (d i))) n.
  apply/eq_in_map => i; rewrite mem_iota add0n => /andP [_ lt].
  by case: i lt => [|i] lt /=; rewrite G.
by rewrite !E.
Qed.

(** What a call with gpu=True reports *)
Definition report count get num_gpu_devices h : option outcome :=
  do (_, d) <- py_query_device count get h; reported d num_gpu_devices.

(** RuntimeError if and only if the library finds no device *)
Theorem C93_no_device count get k h L : owns h L ->
  report count get k h = Some RuntimeError <-> count = None \/ count = Some 0.
Proof.
move=> H; rewrite /report; case: count => [n|]; last by split=> // _; left.
have [h' -> _] /= := py_query_someP n get H; rewrite /reported /=.
case: n => [|n] /=; first by split=> // _; right.
by split=> // -[].
Qed.

(** Otherwise the numbers of the first device, and all devices for num_gpu_devices=0 *)
Theorem C93_reported n get q k h L : owns h L -> get 0 = Some q ->
  report (Some n.+1) get k h =
    Some (Reports (if k == 0 then n.+1 else k) (Some (counted multi_processor_count q)) (Some (counted max_threads q))).
Proof.
move=> H G; rewrite /report; have [h' -> _] /= := py_query_someP n.+1 get H.
by rewrite /reported /= G.
Qed.

(** Full statement: the numbers returned for a device are those of this device, or an
    error is raised.  It is false, for errors of cudaGetDeviceProperties are not looked
    at: the device then has the numbers of the one before *)
Theorem C93_error_refuted q h L : owns h L ->
  exists2 h', py_query_device (Some 2) (fun i => if i == 0 then Some q else None) h =
    Some (h', Dictionary 2 (nseq 2 (Some (counted multi_processor_count q))) (nseq 2 (Some (counted max_threads q))))
  & owns h' L.
Proof.
move=> H; have [h' -> H'] := py_query_someP 2 (fun i => if i == 0 then Some q else None) H.
by exists h'.
Qed.

(** or, for the first device, indeterminate ones *)
Theorem C93_first_error_refuted get n k h L : owns h L -> get 0 = None ->
  report (Some n.+1) get k h = Some (Reports (if k == 0 then n.+1 else k) None None).
Proof.
move=> H G; rewrite /report; have [h' -> _] /= := py_query_someP n.+1 get H.
by rewrite /reported /= G.
Qed.

(** Cases *)
Example C93_heap_case : owns (Heap [:: 3; 1] 5) [:: 1; 3].
Proof. by split. Qed.
Example C93_case :
  omap snd (py_query_device (Some 2) (fun i => Some (if i == 0 then CudaProperties 8 108 2048 else CudaProperties 9999 1 1))
    (Heap [:: 3; 1] 5)) = Some (Dictionary 2 [:: Some 108; Some 0] [:: Some 2048; Some 0]).
Proof.
by have [h' -> _] := py_query_someP 2 (fun i => Some (if i == 0 then CudaProperties 8 108 2048 else CudaProperties 9999 1 1))
  C93_heap_case.
Qed.

Definition C93_assumptions := (@C93_released, @C93_repeated, @C93_properties, @C93_no_device, @C93_reported,
  @C93_error_refuted, @C93_first_error_refuted).
Print Assumptions C93_assumptions.
