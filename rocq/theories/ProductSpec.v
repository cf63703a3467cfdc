(** What a product should do, for C84. *)
Require Import ZArith.
From mathcomp Require Import all_ssreflect all_algebra.
From Verif Require Import Mem KernelModel OperatorModel OperatorSpec ProductModel.
Set Implicit Arguments.
Unset Strict Implicit.
Unset Printing Implicit Defensive.
Import GRing.Theory.
Local Open Scope nat_scope.

(** Position of element [k] of a numpy array in its block *)
Definition place (v : vector) (k : nat) : nat :=
  Z.to_nat (Z.add (Z.of_nat (v_start v)) (Z.mul (Z.of_nat k) (v_stride v))).

Section Spec.
Variable R : comRingType.

(** A block of memory, and element [k] of a numpy array *)
Definition block (mem : seq (seq R)) (b : nat) : seq R := nth [::] mem b.
Definition element (mem : seq (seq R)) (v : vector) (k : nat) : R :=
  nth 0%R (block mem (v_block v)) (place v k).
Definition entries (mem : seq (seq R)) (v : vector) (n : nat) : 'cV[R]_n :=
  (\col_k element mem v k)%R.

(** A one-dimensional array of the given type with [n] elements next to each other,
    inside its block *)
Definition plain (mem : seq (seq R)) (T : dtype) (v : vector) (n : nat) : Prop :=
  [/\ v_type v = T, v_ndim v = 1 /\ v_writeable v, v_stride v = Zpos xH, v_len v = n
    & v_block v < size mem /\ v_start v + n <= size (block mem (v_block v))].

(** The vector and the product fit the operator *)
Definition fitting (mem : seq (seq R)) (o : object R) (transposed : bool) (v p : vector) : Prop :=
  [/\ plain mem (o_type o) v (if transposed then o_rows o else o_cols o),
      plain mem (o_type o) p (if transposed then o_cols o else o_rows o)
    & v_block v <> v_block p].

(** Nothing but the elements of [p] differs *)
Definition only_changes (p : vector) (mem mem' : seq (seq R)) : Prop :=
  forall b k, ~ (b = v_block p /\ exists2 i, i < v_len p & k = place p i) ->
    nth 0%R (block mem' b) k = nth 0%R (block mem b) k.

(** The last argument of set_parameters *)
Fixpoint last_argument (a : argument R) (us : seq (use R)) : argument R :=
  match us with
  | [::] => a
  | SetParameters a' :: us => last_argument a' us
  | Product _ _ _ :: us => last_argument a us
  end.

(** The argument gives the parameter [t] *)
Definition gives (a : argument R) (t : R) : Prop :=
  match a with
  | AScalar x => x = t
  | AArray (x :: _) => x = t
  | _ => False
  end.

(** New objects *)
Definition new_object (T : dtype) (m n : nat) (M : matrix_object R) : object R :=
  Object T m n M (NoParameters R) (Null R).

End Spec.
