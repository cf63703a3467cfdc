(** When an array serves its purpose, for C83. *)
Require Import ZArith List.
From Verif Require Import IndexModel WorkModel.
Local Open Scope Z_scope.

(** Two parts do not overlap *)
Definition apart (p q : Z * Z) : Prop := fst p + snd p <= fst q \/ fst q + snd q <= fst p.

(** The array is there, its parts lie inside it, and no two of them overlap *)
Definition serves (a : array) : Prop :=
  exists k, size a = Some k /\
    (forall p, In p (parts a) -> 0 <= fst p /\ fst p + snd p <= k) /\
    ForallOrdPairs apart (parts a).

(** The numbers an index can denote *)
Definition capacity (c : index_type) : Z :=
  match long_int c, unsigned c with
  | false, false => 2 ^ 31
  | false, true => 2 ^ 32
  | true, false => 2 ^ 63
  | true, true => 2 ^ 64
  end.
