(** Model of the products that the operator objects offer to Python:
    imate/_c_linear_operator/py_c_linear_operator.pyx (set_parameters, dot,
    transpose_dot), on top of the C++ operators of [OperatorModel].

    Memory consists of blocks of numbers.  A vector is a view of a block.  Arithmetic is
    exact, so that a change of precision keeps the numbers.  A product whose vectors
    are in the same block is left out (None). *)
Require Import ZArith.
From mathcomp Require Import all_ssreflect all_algebra.
From Verif Require Import Mem KernelModel OperatorModel.
Set Implicit Arguments.
Unset Strict Implicit.
Unset Printing Implicit Defensive.
Import GRing.Theory.
Local Open Scope nat_scope.

(** The types of numpy arrays *)
Inductive dtype := Float32 | Float64 | Float128 | OtherType.
Definition same (a b : dtype) : bool :=
  match a, b with
  | Float32, Float32 | Float64, Float64 | Float128, Float128 | OtherType, OtherType => true
  | _, _ => false
  end.

(** A numpy array: type, number of dimensions, block, position of the first element,
    distance of elements, number of elements *)
Record vector := Vector {
  v_type : dtype; v_ndim : nat; v_block : nat; v_start : nat; v_stride : Z; v_len : nat;
  v_writeable : bool
}.

Inductive error := AttributeError | TypeError | ValueError.

(** What a call leads to: an exception, undefined behaviour (a NULL pointer, released
    memory, a position outside an array), or a result *)
Inductive outcome (T : Type) := Raise of error | Undefined | Ok of T.
Arguments Raise {T}.
Arguments Undefined {T}.
Arguments Ok {T}.

Section Product.
Variable R : comRingType.

(** The argument of set_parameters *)
Inductive argument := ANone | AScalar of R | AArray of seq R | AList of seq R.

(** The attribute parameters (38, 222-232) *)
Inductive attribute := NoParameters | ArrayParameters of seq R | ListParameters of seq R.

(** The pointer to the parameters in the C++ object: cLinearOperator::parameters,
    which is NULL at first (c_linear_operator.cpp 28-75) *)
Inductive pointer := Null | Released | Valid of seq R.

(** The C++ object *)
Inductive matrix_object := Constant of storage R | Function of affine R.

(** An object of Python: the type of the only one of Aop_float, Aop_double and
    Aop_long_double that is set (py_c_matrix.pyx 119-210), the shape, the C++ object
    and the parameters *)
Record object := Object {
  o_type : dtype; o_rows : nat; o_cols : nat; o_matrix : matrix_object;
  o_parameters : attribute; o_pointer : pointer
}.

(** 222-232: set_parameters *)
Definition py_set_parameters (o : object) (a : argument) : object :=
  Object (o_type o) (o_rows o) (o_cols o) (o_matrix o)
    match a with
    | AScalar x => ArrayParameters [:: x]
    | AArray xs => ArrayParameters xs
    | AList xs => ListParameters xs
    | ANone => NoParameters
    end (o_pointer o).

(** c_linear_operator.cpp 108-111 *)
Definition with_pointer (o : object) (p : pointer) : object :=
  Object (o_type o) (o_rows o) (o_cols o) (o_matrix o) (o_parameters o) p.

(** 238-243, 276, 295, 314: the memory views; "float[:]" wants one dimension, any
    distance of the elements, and write access *)
Definition view (v : vector) : option error :=
  if (v_ndim v == 1) && v_writeable v then None else Some ValueError.

(** dot or transpose_dot of the C++ object *)
Definition c_product (o : object) (transposed : bool) (v c : seq R) : option (seq R) :=
  let m := o_rows o in let n := o_cols o in
  match o_matrix o with
  | Constant s => if transposed then transpose_dot s m n v c else dot s m n v c
  | Function f =>
      let f := match o_pointer o with
               | Valid p => set_parameters f p
               | _ => Affine (mat_A f) (mat_B f) (B_is_identity f) (eigenvalue_relation_known f) None
               end in
      if transposed then affine_transpose_dot f m n v c else affine_dot f m n v c
  end.

(** 276-336 and 380-440.  The memory that the parameters are converted to is released
    at the end of the call, and the C++ object keeps the pointer to it. *)
Definition product (transposed : bool) (o : object) (v p : vector) (mem : seq (seq R))
    : option (outcome (object * seq (seq R))) :=
  if ~~ same (v_type v) (v_type p) then Some (Raise TypeError)
  else if same (v_type v) OtherType then Some (Raise TypeError)
  else if view v is Some e then Some (Raise e)
  else if view p is Some e then Some (Raise e)
  else
    let call o' after :=
      if ~~ same (v_type v) (o_type o) then Some Undefined
      else if v_block v == v_block p then None
      else
        let b := nth [::] mem (v_block v) in let c := nth [::] mem (v_block p) in
        if c_product o' transposed (drop (v_start v) b) (drop (v_start p) c) is Some r then
          Some (Ok (with_pointer o after, set_nth [::] mem (v_block p) (take (v_start p) c ++ r)))
        else Some Undefined in
    match o_parameters o with
    | ListParameters _ => Some (Raise AttributeError)
    | NoParameters => call o (o_pointer o)
    | ArrayParameters xs => call (with_pointer o (Valid xs)) Released
    end.

(** A use of the object *)
Inductive use := SetParameters of argument | Product of bool & vector & vector.

(** The uses one after the other: an exception leaves all as it was, and the program
    goes on; undefined behaviour ends it *)
Fixpoint uses (o : object) (mem : seq (seq R)) (us : seq use)
    : option (outcome (object * seq (seq R))) :=
  match us with
  | [::] => Some (Ok (o, mem))
  | SetParameters a :: us => uses (py_set_parameters o a) mem us
  | Product t v p :: us =>
      do r <- product t o v p mem;
      match r with
      | Raise _ => uses o mem us
      | Undefined => Some Undefined
      | Ok (o, mem) => uses o mem us
      end
  end.

End Product.
