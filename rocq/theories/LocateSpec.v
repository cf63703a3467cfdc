(** What the search for CUDA and for the name of the processor should find.
    From the model only texts, the file system and the environment are taken. *)
From mathcomp Require Import all_ssreflect.
From Coq Require Import Ascii String.
From Verif Require Import LocateModel.

Set Implicit Arguments.
Unset Strict Implicit.
Unset Printing Implicit Defensive.

(** The text is the number [n] in decimal digits. *)
Definition digit (d : nat) : ascii := Ascii.ascii_of_nat (48 + d).
Inductive writes : text -> nat -> Prop :=
  | writes_one d : (d < 10)%N -> writes [:: digit d] d
  | writes_more s n d : writes s n -> (d < 10)%N -> writes (rcons s (digit d)) (10 * n + d).

(** The words one after the other with the character between them. *)
Fixpoint glue (c : ascii) (ws : seq text) : text :=
  match ws with
  | [::] => [::]
  | [:: w] => w
  | w :: ws' => w ++ c :: glue c ws'
  end.

Definition without (c : ascii) (s : text) : Prop := forall a b, s <> a ++ c :: b.

(** "a/b" *)
Definition child (a b p : text) : Prop :=
  (a = [::] -> p = b) /\
  (forall a', a = rcons a' "/"%char -> p = a ++ b) /\
  (forall a' c, a = rcons a' c -> c <> "/"%char -> p = a ++ "/"%char :: b).

(** A home of CUDA with its compiler. *)
Definition usable (s : system) (variable home nvcc : text) : Prop :=
  [/\ environ s variable = Some home, exists_ s home = true, exists_ s nvcc = true
    & exists2 bin, child home (lit "bin") bin & child bin (lit "nvcc") nvcc].

(** The first of the variables that leads to a compiler. *)
Definition by_variable (s : system) (home nvcc : text) : Prop :=
  exists before variable after,
  [/\ [:: lit "CUDA_HOME"; lit "CUDA_ROOT"; lit "CUDA_PATH"] = before ++ variable :: after,
      usable s variable home nvcc
    & forall b a v h n, before = b ++ v :: a -> ~ usable s v h n].

Definition no_variable (s : system) : Prop :=
  forall v h n, v = lit "CUDA_HOME" \/ v = lit "CUDA_ROOT" \/ v = lit "CUDA_PATH" ->
    ~ usable s v h n.

(** The first directory of the search path with a compiler. *)
Definition by_path (s : system) (nvcc : text) : Prop :=
  exists path before dir after p,
  [/\ environ s (lit "PATH") = Some path,
      path = glue ":" (before ++ dir :: after) /\
      (forall b a d, before ++ dir :: after = b ++ d :: a -> without ":" d),
      child dir (lit "nvcc") p,
      exists_ s p = true /\ nvcc = abspath s p
    & forall b a d q, before = b ++ d :: a -> child d (lit "nvcc") q -> exists_ s q = false].

(** No directory of the search path has one. *)
Definition not_in_path (s : system) : Prop :=
  exists path dirs,
  [/\ environ s (lit "PATH") = Some path, path = glue ":" dirs, dirs <> [::],
      (forall b a d, dirs = b ++ d :: a -> without ":" d)
    & forall b a d q, dirs = b ++ d :: a -> child d (lit "nvcc") q -> exists_ s q = false].

(** The directories that belong to a home. *)
Definition has_parts (s : system) (home include lib : text) : Prop :=
  [/\ child home (lit "include") include, exists_ s include = true, exists_ s lib = true
    & child home (lit "lib") lib \/
      child home (lit "lib64") lib /\
      (forall q, child home (lit "lib") q -> exists_ s q = false)].

(** The words "model name" somewhere in the text. *)
Definition has_words (s : text) : Prop := exists a b, s = a ++ lit "model name" ++ b.

(** Numbers one by one. *)
Inductive numbers : seq text -> seq nat -> Prop :=
  | numbers_nil : numbers [::] [::]
  | numbers_cons w n ws ns : writes w n -> numbers ws ns -> numbers (w :: ws) (n :: ns).

(** The end of the file after the version. *)
Definition line_end (t : text) : Prop :=
  t = [::] \/ t = [:: Ascii.ascii_of_nat 10] \/ t = [:: Ascii.ascii_of_nat 13; Ascii.ascii_of_nat 10].

(** The version with these numbers. *)
Definition is_version (ns : seq nat) (v : version) : Prop :=
  match ns with
  | [::] => False
  | [:: a] => [/\ major v = a, minor v = None & patch v = None]
  | [:: a; b] => [/\ major v = a, minor v = Some b & patch v = None]
  | [:: a, b, c & _] => [/\ major v = a, minor v = Some b & patch v = Some c]
  end.
