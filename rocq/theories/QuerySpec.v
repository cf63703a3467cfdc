(** What a report of nvidia-smi says.  From the model only texts and the runs of
    the tool are taken. *)
From mathcomp Require Import all_ssreflect.
From Coq Require Import Ascii String.
From Verif Require Import LocateModel LocateSpec QueryModel.

Set Implicit Arguments.
Unset Strict Implicit.
Unset Printing Implicit Defensive.

(** The text is these lines, each with a line feed at its end. *)
Inductive prints : seq text -> text -> Prop :=
  | prints_nil : prints [::] [::]
  | prints_cons l ls out : without newline l -> prints ls out ->
      prints (l :: ls) (l ++ newline :: out).

(** The same letter, in upper or lower case. *)
Definition letter (a b : ascii) : Prop :=
  a = b \/ exists k, (k < 26)%N /\
    ((a = Ascii.ascii_of_nat (65 + k) /\ b = Ascii.ascii_of_nat (97 + k)) \/
     (b = Ascii.ascii_of_nat (65 + k) /\ a = Ascii.ascii_of_nat (97 + k))).
Inductive letters : text -> text -> Prop :=
  | letters_nil : letters [::] [::]
  | letters_cons a s b t : letter a b -> letters s t -> letters (a :: s) (b :: t).

(** The words are somewhere in the line, in upper or lower case. *)
Definition mentions (words : string) (l : text) : Prop :=
  exists a w b, l = a ++ w ++ b /\ letters (lit words) w.

Definition none_mentions (words : string) (ls : seq text) : Prop :=
  forall b l a, ls = b ++ l :: a -> ~ mentions words l.

(** "   Product Name      : name" *)
Definition entry (words : string) (l name : text) : Prop :=
  exists key, [/\ l = key ++ lit ": " ++ name, without ":" key & mentions words l].

Definition blank (c : ascii) : Prop :=
  c = " "%char \/ exists k, (k < 5)%N /\ c = Ascii.ascii_of_nat (9 + k).

(** Not empty, and no blanks around it. *)
Definition proper (s : text) : Prop :=
  [/\ s <> [::], (forall c r, s = c :: r -> ~ blank c) & (forall r c, s = rcons r c -> ~ blank c)].

Definition works (t : tool) : Prop := exists out, check t = Some (0, out).

(** A line of "nvidia-smi --list-gpus" for a GPU. *)
Definition is_gpu (l : text) : Prop := exists r, l = lit "GPU " ++ r.
Inductive gpus : seq text -> nat -> nat -> Prop :=
  | gpus_nil : gpus [::] 0 0
  | gpus_one l ls k o : is_gpu l -> gpus ls k o -> gpus (l :: ls) k.+1 o
  | gpus_other l ls k o : ~ is_gpu l -> gpus ls k o -> gpus (l :: ls) k o.+1.
