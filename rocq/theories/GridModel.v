(** Model of imate/sample_matrices/_generate_points.pyx with grid=True.  The
    coordinates are doubles that hold integers until they are scaled; arithmetic
    is exact.  None stands for a coordinate that is not a number.  The number of
    points size**dimension is assumed to fit the C type int. *)
From mathcomp Require Import all_ssreflect all_algebra.
Set Implicit Arguments.
Unset Strict Implicit.
Unset Printing Implicit Defensive.
Import GRing.Theory Num.Theory.
Local Open Scope ring_scope.

Section Model.
Variable F : realFieldType.
Variable grid_size : nat.

(** Lines 105-125: the coordinates of a point from those of the previous point;
    shift is shift_next_dim *)
Fixpoint next_point (shift : bool) (prev : seq F) : seq F :=
  match prev with
  | [::] => [::]
  | x :: r =>
    if shift then
      if grid_size%:R - 1 <= x then 0 :: next_point true r
      else (x + 1) :: next_point false r
    else x :: next_point false r
  end.

(** Lines 92-125: point 0 is the origin, the others follow from the one before *)
Fixpoint grid_points (prev : seq F) (num_points : nat) : seq (seq F) :=
  if num_points is k.+1 then prev :: grid_points (next_point true prev) k else [::].

(** Lines 128-131: x * dx with dx = 1.0 / (grid_size - 1.0); for grid_size = 1
    the factor is infinite and 0 * inf is not a number (cdivision is on) *)
Definition scale_coord (x : F) : option F :=
  let d := grid_size%:R - 1 in
  if d == 0 then None else Some (x * (1 / d)).

(** Lines 49-52 and 66-131 *)
Definition generate_points (dimension : nat) : seq (seq (option F)) :=
  [seq [seq scale_coord x | x <- row] |
    row <- grid_points (nseq dimension 0) (grid_size ^ dimension)].
End Model.
