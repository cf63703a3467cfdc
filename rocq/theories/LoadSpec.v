(** Which functions of CUDA the calls should reach.  From the model only the
    functions with their library and name, the libraries of the system and the
    events are taken. *)
From mathcomp Require Import all_ssreflect.
From Coq Require Import Ascii String.
From Verif Require Import LoadModel.

Set Implicit Arguments.
Unset Strict Implicit.
Unset Printing Implicit Defensive.
Local Open Scope string_scope.

(** The name under which a library exports a function: cuBLAS exports the
    current interface with the suffix _v2. *)
Definition exported (w : wrapper) : string :=
  match w_lib w with
  | Cublas => w_name w ++ "_v2"
  | _ => w_name w
  end.

(** The files of CUDA on Linux. *)
Definition file (major : string) (l : library) : string :=
  match l with
  | Cudart => "libcudart.so"
  | Cublas => "libcublas.so." ++ major
  | Cusparse => "libcusparse.so." ++ major
  end.

(** What a call should do: call the function, or raise an error if the library
    is not there. *)
Definition answers (major : string) (libs : world) (w : wrapper) (e : event) : Prop :=
  match libs (file major (w_lib w)) with
  | Some syms => exists2 a, syms (exported w) = Some a & e = Called w a
  | None => e = Raised w
  end.

(** The calls one after the other. *)
Inductive answered (major : string) (libs : world) : seq wrapper -> seq event -> Prop :=
  | answered_nil : answered major libs [::] [::]
  | answered_more ws es w e : answered major libs ws es -> answers major libs w e ->
      answered major libs (rcons ws w) (rcons es e).

(** The libraries that are there have all functions. *)
Definition complete (major : string) (libs : world) : Prop :=
  forall w syms, List.In w table -> libs (file major (w_lib w)) = Some syms ->
    exists2 a, syms (exported w) = Some a & a <> 0.

(** All calls of all threads are of functions of the package. *)
Definition known (ts : seq (bool * seq wrapper)) : Prop :=
  forall b a e ws, ts = (b ++ (e, ws) :: a)%SEQ -> forall w, List.In w ws -> List.In w table.

(** The name of a file ends so. *)
Definition ends (s suffix : string) : Prop := exists a, s = a ++ suffix.

(** A number in decimal digits. *)
Definition number (s : string) : Prop :=
  forall a c b, s = a ++ String c b -> (48 <= nat_of_ascii c <= 57)%N.
