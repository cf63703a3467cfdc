(** * Where CUDA is, which version it has, and which processor there is

    Models /repo/imate/device/_cuda.py (_find_in_path 28-40, locate_cuda
    163-244, _get_cuda_version 251-335), the entry of the CUDA version in
    /repo/imate/device/_info.py 160-170, and get_processor_name of
    /repo/imate/device/_device.py 83-90, on systems with POSIX paths (not
    win32).  Texts are sequences of ASCII characters.  The file system, the
    environment, os.path.abspath and the parsing of JSON are parameters. *)
From mathcomp Require Import all_ssreflect.
From Coq Require Import Ascii String.

Set Implicit Arguments.
Unset Strict Implicit.
Unset Printing Implicit Defensive.

Definition text := seq ascii.
(** A literal. *)
Definition lit (s : string) : text := list_ascii_of_string s.

Definition same (a b : ascii) : bool := Ascii.eqb a b.
Fixpoint same_text (s t : text) : bool :=
  match s, t with
  | [::], [::] => true
  | a :: s', b :: t' => same a b && same_text s' t'
  | _, _ => false
  end.

Definition space : ascii := " ".
Definition newline : ascii := Ascii.ascii_of_nat 10.
Definition dot : ascii := ".".
Definition slash : ascii := "/".
Definition colon : ascii := ":".

(** str.isspace for one character: tab, line feed, vertical tab, form feed,
    carriage return, the separators 28-31, blank *)
Definition is_space (c : ascii) : bool :=
  let n := nat_of_ascii c in ((9 <= n <= 13) || (28 <= n <= 32))%N.

Definition is_digit (c : ascii) : bool := (48 <= nat_of_ascii c <= 57)%N.
Definition digit_value (c : ascii) : nat := (nat_of_ascii c - 48)%N.

(** s.split(c) *)
Fixpoint split (c : ascii) (s : text) : seq text :=
  if s is a :: s' then
    if same a c then [::] :: split c s'
    else if split c s' is w :: ws then (a :: w) :: ws else [:: [:: a]]
  else [:: [::]].

(** s.split() without argument: the words between white space *)
Fixpoint words_from (w : text) (s : text) : seq text :=
  if s is a :: s' then
    if is_space a then (if w is [::] then [::] else [:: rev w]) ++ words_from [::] s'
    else words_from (a :: w) s'
  else if w is [::] then [::] else [:: rev w].
Definition words (s : text) : seq text := words_from [::] s.

(** s.strip() *)
Fixpoint lstrip (s : text) : text :=
  if s is a :: s' then if is_space a then lstrip s' else s else [::].
Definition strip (s : text) : text := rev (lstrip (rev (lstrip s))).

(** The digits of int(s): decimal digits, with single underscores between
    them. *)
Fixpoint digits (acc : nat) (s : text) : option nat :=
  match s with
  | [::] => Some acc
  | c :: s' =>
      if is_digit c then digits (acc * 10 + digit_value c)%N s'
      else if same c "_" then
        if s' is d :: s'' then
          if is_digit d then digits (acc * 10 + digit_value d)%N s'' else None
        else None
      else None
  end.

(** int(s).  A negative number is not a version and is not modelled: None,
    like the ValueError of a text that is no number. *)
Definition int_of (s : text) : option nat :=
  let t := strip s in
  let t := if t is c :: t' then if same c "+" then t' else t else t in
  if t is c :: t' then if is_digit c then digits (digit_value c) t' else None else None.

(** s[:-n] and s[-n:] for n > 0 *)
Definition but_last (n : nat) (s : text) : text := take (size s - n) s.
Definition last_part (n : nat) (s : text) : text := drop (size s - n) s.

(** posixpath.join *)
Definition join (a b : text) : text :=
  if b is c :: _ then
    if same c slash then b
    else if a is [::] then b
    else if same (last slash a) slash then a ++ b else a ++ slash :: b
  else if a is [::] then b
  else if same (last slash a) slash then a ++ b else a ++ slash :: b.

(** posixpath.dirname: up to the last slash, without slashes at the end unless
    there is nothing else *)
Fixpoint to_slash (s : text) : text :=
  if s is c :: s' then if same c slash then s else to_slash s' else [::].
Fixpoint no_slash (s : text) : text :=
  if s is c :: s' then if same c slash then no_slash s' else s else [::].
Definition dirname (p : text) : text :=
  let head := rev (to_slash (rev p)) in
  if all (fun c => same c slash) head then head else rev (no_slash (rev head)).

(** The file system and the environment. *)
Record system := System {
  exists_ : text -> bool; is_file : text -> bool; contents : text -> text;
  environ : text -> option text; abspath : text -> text;
  json_version : text -> option text (* json.load(file)['cuda']['version'] *) }.

Inductive err := EKey | EEnvironment | EFile | EValue | EType.
Inductive result (T : Type) := Done of T | Error of err.
Arguments Done {T}.
Arguments Error {T}.

(** 28-40 *)
Fixpoint first_in (s : system) (name : text) (dirs : seq text) : option text :=
  if dirs is d :: dirs' then
    let p := join d name in
    if exists_ s p then Some (abspath s p) else first_in s name dirs'
  else None.
Definition find_in_path (s : system) (name path : text) : option text :=
  first_in s name (split colon path).

(** The lines of a file, as iteration over it gives them: each with its line
    feed. *)
Fixpoint lines (s : text) : seq text :=
  if s is c :: s' then
    if same c newline then [:: c] :: lines s'
    else if lines s' is l :: ls then (c :: l) :: ls else [:: [:: c]]
  else [::].

Fixpoint starts (p s : text) : option text :=
  match p, s with
  | [::], _ => Some s
  | a :: p', b :: s' => if same a b then starts p' s' else None
  | _, [::] => None
  end.

(** re.match(r'^#define CUDA_VERSION.\d+$', line); $ is also before a line
    feed at the end *)
Definition matches (line : text) : bool :=
  if starts (lit "#define CUDA_VERSION") line is Some (c :: rest) then
    if same c newline then false
    else
      let d := if same (last space rest) newline then but_last 1 rest else rest in
      (0 < size d)%N && all is_digit d
  else false.

(** 287-290 *)
Fixpoint find_line (ls : seq text) : option text :=
  if ls is l :: ls' then if matches l then Some l else find_line ls' else None.

(** A version: major, and minor and patch if given. *)
Record version := Version { major : nat; minor : option nat; patch : option nat }.

(** [int(v) for v in xs] *)
Fixpoint ints (xs : seq text) : option (seq nat) :=
  if xs is x :: xs' then
    if int_of x is Some n then
      if ints xs' is Some ns then Some (n :: ns) else None
    else None
  else Some [::].

(** 312-335 *)
Definition parse_version (s : text) : result version :=
  if ints (split dot (last [::] (split space s))) is Some ns then
    if ns is n :: ns' then Done (Version n (ohead ns') (ohead (behead ns'))) else Error EValue
  else Error EValue.

(** 296-302: the number of the header with dots *)
Definition dotted (line : text) : text :=
  let v := last [::] (words line) in
  let v := but_last 3 v ++ dot :: last_part 3 v in
  but_last 1 v ++ dot :: last_part 1 v.

(** 251-335 *)
Definition get_version (s : system) (home : text) : result version :=
  let txt := join home (lit "version.txt") in
  let json := join home (lit "version.json") in
  if is_file s txt then parse_version (contents s txt)
  else if is_file s json then
    if json_version s (contents s json) is Some v then parse_version v else Error EKey
  else
    let header := join (join home (lit "include")) (lit "cuda.h") in
    if is_file s header then
      if find_line (lines (contents s header)) is Some l then parse_version (dotted l)
      else Error EFile
    else Error EFile.

Record cuda := Cuda {
  c_home : text; c_nvcc : text; c_include : text; c_lib : text; c_version : version }.

(** 163-184: the first variable that gives a home with the compiler *)
Fixpoint from_environ (s : system) (names : seq text) : option (text * text) :=
  if names is v :: names' then
    if environ s v is Some home then
      if ~~ exists_ s home then from_environ s names'
      else
        let nvcc := join (join home (lit "bin")) (lit "nvcc") in
        if ~~ exists_ s nvcc then from_environ s names' else Some (home, nvcc)
    else from_environ s names'
  else None.

(** 197-244; None is the empty dictionary *)
Definition from_home (s : system) (home nvcc : text) : result (option cuda) :=
  let include := join home (lit "include") in
  if ~~ exists_ s include then Done None
  else
    let finish lib :=
      match get_version s home with
      | Done v => Done (Some (Cuda home nvcc include lib v))
      | Error e => Error e
      end in
    let lib := join home (lit "lib") in
    if exists_ s lib then finish lib
    else
      let lib64 := join home (lit "lib64") in
      if exists_ s lib64 then finish lib64 else Error EEnvironment.

(** 163-244 *)
Definition locate (s : system) : result (option cuda) :=
  if from_environ s [:: lit "CUDA_HOME"; lit "CUDA_ROOT"; lit "CUDA_PATH"] is Some (home, nvcc)
  then from_home s home nvcc
  else
    if environ s (lit "PATH") is Some path then
      if find_in_path s (lit "nvcc") path is Some nvcc then
        from_home s (dirname (dirname nvcc)) nvcc
      else Done None
    else Error EKey.

(** '%d' of a natural number *)
Fixpoint decimal_aux (fuel n : nat) : text :=
  if fuel is f.+1 then
    (if (n < 10)%N then [::] else decimal_aux f (n %/ 10)) ++
    [:: Ascii.ascii_of_nat (48 + n %% 10)]
  else [::].
Definition decimal (n : nat) : text := decimal_aux n.+1 n.

(** _info.py 160-170 *)
Definition info_version (s : system) : result text :=
  match locate s with
  | Error e => Error e
  | Done None => Done (lit "not found")
  | Done (Some c) =>
      let v := c_version c in
      match minor v, patch v with
      | Some b, Some p => Done (decimal (major v) ++ dot :: decimal b ++ dot :: decimal p)
      | _, _ => Error EType
      end
  end.

(** ** The processor *)

(** "model name" in line *)
Fixpoint contains (p s : text) : bool :=
  (if starts p s is Some _ then true else false) ||
  (if s is _ :: s' then contains p s' else false).

(** What follows the last colon. *)
Definition after_colon (s : text) : option text :=
  if has (same colon) s then Some (last [::] (split colon s)) else None.
Definition to_colon (s : text) : text := but_last (size (last [::] (split colon s))) s.

(** re.sub(".*model name.*:", "", line, 1): .* takes as much as it can, so that
    all up to the last colon goes if the words are before it; a second match
    does not start (count is 1). *)
Definition strip_name (line : text) : text :=
  if after_colon line is Some rest then
    if contains (lit "model name") (to_colon line) then rest else line
  else line.

(** _device.py 83-90 on Linux, given the output of "cat /proc/cpuinfo" *)
Fixpoint processor_in (ls : seq text) : text :=
  if ls is l :: ls' then
    if contains (lit "model name") l then behead (strip_name l) else processor_in ls'
  else [::].
Definition processor_name (cpuinfo : text) : text := processor_in (split newline (strip cpuinfo)).
