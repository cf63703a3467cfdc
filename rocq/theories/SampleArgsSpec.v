(** Which arguments the documentation of imate.toeplitz and imate.correlation_matrix
    allows, as relations between a Python value and what it stands for. *)
Require Import String.
From mathcomp Require Import all_ssreflect all_algebra.
From Verif Require Import ConvModel SampleArgsModel.
Set Implicit Arguments.
Unset Strict Implicit.
Unset Printing Implicit Defensive.
Import GRing.Theory Num.Theory.
Local Open Scope ring_scope.

Section Spec.
Variable R : rcfType.

(** [v] is an integer and stands for [n]; True and False are the integers 1 and 0 *)
Inductive whole : value R -> int -> Prop :=
  | whole_int z : whole (Int R z) z
  | whole_numpy z : whole (NpInt R z) z
  | whole_true : whole (Bool R true) 1
  | whole_false : whole (Bool R false) 0.

(** [v] is a positive integer and stands for [n] *)
Definition positive (v : value R) (n : nat) : Prop := (0 < n)%N /\ whole v (Posz n).

(** [v] is an integer or a Python float and stands for [x] *)
Inductive entry : value R -> num R -> Prop :=
  | entry_whole v z : whole v z -> entry v (Fin z%:~R)
  | entry_float x : entry (Float x) x.

(** The same with all floating types *)
Inductive real : value R -> num R -> Prop :=
  | real_entry v x : entry v x -> real v x
  | real_numpy x : real (NpFloat x) x.

Definition csr_or_csc (v : value R) : Prop := v = Str R "csr" \/ v = Str R "csc".
Definition floating_type (v : value R) : Prop :=
  [\/ v = Str R "float32", v = Str R "float64" | v = Str R "float128"].

(** The parameter that is used: 1/2 for the Matern kernel if none is given *)
Inductive parameter_used : string -> value R -> num R -> Prop :=
  | used_given k v x : real v x -> parameter_used k v x
  | used_matern : parameter_used "matern" (None_ R) (Fin (1 / 2%:R))
  | used_exponential : parameter_used "exponential" (None_ R) NaN.

(** Number of points of a set with [n] points, or a grid with [n] points on each of
    [d] axes *)
Definition number_of_points (g : bool) (n d : nat) : nat := if g then (n ^ d)%N else n.

(** Documented arguments of correlation_matrix (without the name of the kernel) and
    what they stand for *)
Record documented (a : arguments R) (n d : nat) (l : R) (g s : bool) (rho : R) : Prop := Documented {
  doc_size : positive (size a) n;
  doc_dimension : positive (dimension a) d;
  doc_scale : real (scale a) (Fin l) /\ 0 < l;
  doc_grid : grid a = Bool R g;
  doc_sparse : sparse a = Bool R s;
  doc_density : real (density a) (Fin rho) /\ 0 < rho < 1;
  doc_format : csr_or_csc (format a);
  doc_dtype : floating_type (dtype a);
  doc_plot : exists b, plot a = Bool R b;
  doc_verbose : exists b, verbose a = Bool R b }.
End Spec.
