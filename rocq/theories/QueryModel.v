(** * What the device queries report about GPUs

    Models get_gpu_name (205-231), get_num_gpu_devices (284-306),
    get_nvidia_driver_version (355-381), _check_nvidia_smi (397-415) and
    restrict_to_single_processor (515-519) of /repo/imate/device/_device.py.
    The tool nvidia-smi is a parameter: how its runs end and what they print.
    The filters of the shell are functions on lines of ASCII characters; the
    error stream is not modelled (it is read and dropped). *)
From mathcomp Require Import all_ssreflect.
From Coq Require Import Ascii String.
From Verif Require Import LocateModel.

Set Implicit Arguments.
Unset Strict Implicit.
Unset Printing Implicit Defensive.

(** One run of a command: None when Popen raises FileNotFoundError (there is no
    shell), else the exit status and the text printed. *)
Definition run := option (nat * text).

(** The two runs of nvidia-smi in one query: the one of the check, and the one
    with options. *)
Record tool := Tool { check : run; answer : run }.

(** ** The filters of the shell *)

(** The lines of the input of a filter, without their line feeds; a last line
    need not have one. *)
Definition records (s : text) : seq text :=
  [seq [seq c <- l | ~~ same c newline] | l <- lines s].

(** The output of a filter. *)
Definition unlines (ls : seq text) : text := flatten [seq rcons l newline | l <- ls].

Definition lower (c : ascii) : ascii :=
  let n := nat_of_ascii c in if (65 <= n <= 90)%N then Ascii.ascii_of_nat (n + 32) else c.

(** grep -i words *)
Definition grep_i (words : text) (ls : seq text) : seq text :=
  [seq l <- ls | contains (map lower words) (map lower l)].

(** grep -o ":.*": the first match takes the rest of the line *)
Fixpoint from_colon (s : text) : option text :=
  if s is c :: s' then if same c colon then Some s else from_colon s' else None.
Definition grep_o (ls : seq text) : seq text := pmap from_colon ls.

(** cut -c 3- *)
Definition cut3 (ls : seq text) : seq text := map (drop 2) ls.

(** A pipe ends with the status of its last command, whatever that of
    nvidia-smi was; cut and wc end with 0. *)
Definition pipe (f : text -> text) (r : run) : run :=
  if r is Some (_, out) then Some (0, f out) else None.

(** ** Python *)

(** bytes.strip(): tab, line feed, vertical tab, form feed, carriage return,
    blank *)
Definition is_blank (c : ascii) : bool :=
  let n := nat_of_ascii c in ((9 <= n <= 13) || (n == 32))%N.
Fixpoint drop_blanks (s : text) : text :=
  if s is c :: s' then if is_blank c then drop_blanks s' else s else [::].
Definition bytes_strip (s : text) : text := rev (drop_blanks (rev (drop_blanks s))).

(** 397-415 *)
Definition check_nvidia_smi (t : tool) : bool :=
  if check t is Some (status, _) then status == 0 else false.

(** 205-231 and 355-381 differ in the pipe only *)
Definition query (f : text -> text) (t : tool) : text :=
  if ~~ check_nvidia_smi t then lit "not found"
  else match pipe f (answer t) with
       | None => lit "not found"
       | Some (error_code, stdout) =>
           let name := if error_code != 0 then lit "not found" else bytes_strip stdout in
           if name is [::] then lit "not found" else name
       end.

(** 211-212: nvidia-smi -a | grep -i "Product Name" -m 1 | grep -o ":.*" | cut -c 3- *)
Definition get_gpu_name (t : tool) : text :=
  query (fun s => unlines (cut3 (grep_o (take 1 (grep_i (lit "Product Name") (records s)))))) t.

(** 361-362: nvidia-smi -q | grep -i "Driver Version" | grep -o ":.*" | cut -c 3- *)
Definition get_nvidia_driver_version (t : tool) : text :=
  query (fun s => unlines (cut3 (grep_o (grep_i (lit "Driver Version") (records s))))) t.

(** 284-306: nvidia-smi --list-gpus | wc -l.  None is the ValueError of int. *)
Definition get_num_gpu_devices (t : tool) : option nat :=
  if ~~ check_nvidia_smi t then Some 0
  else match pipe (fun s => rcons (decimal (count (same newline) s)) newline) (answer t) with
       | None => Some 0
       | Some (error_code, stdout) => if error_code != 0 then Some 0 else int_of stdout
       end.

(** 515-519 *)
Definition environment := text -> option text.
Definition putenv (e : environment) (x v : text) : environment :=
  fun y => if same_text y x then Some v else e y.
Definition restrict_to_single_processor (e : environment) : environment :=
  let e := putenv e (lit "OMP_NUM_THREADS") (lit "1") in
  let e := putenv e (lit "OPENBLAS_NUM_THREADS") (lit "1") in
  let e := putenv e (lit "MKL_NUM_THREADS") (lit "1") in
  let e := putenv e (lit "VECLIB_MAXIMUM_THREADS") (lit "1") in
  putenv e (lit "NUMEXPR_NUM_THREADS") (lit "1").
