(** What the arguments of the stochastic Lanczos quadrature should look like.
    Only the type of Python values is taken from the model. *)
From mathcomp Require Import all_ssreflect all_algebra.
From Verif Require Import ConvModel ArgsModel.

Set Implicit Arguments.
Unset Strict Implicit.
Unset Printing Implicit Defensive.
Import GRing.Theory Num.Theory.
Local Open Scope ring_scope.

Section Spec.
Variable R : rcfType.

(** The value is the integer z (True and False count as 1 and 0). *)
Inductive integer_arg : pyval R -> int -> Prop :=
  | ia_bool (b : bool) : integer_arg (PBool R b) (Posz b)
  | ia_int z : integer_arg (PInt R z) z
  | ia_np z : integer_arg (NpInt R z) z.

(** The value is the number x; numpy integers only where [np] says so. *)
Inductive real_arg (np : bool) : pyval R -> num R -> Prop :=
  | ra_bool (b : bool) : real_arg np (PBool R b) (Fin b%:R)
  | ra_int z : real_arg np (PInt R z) (Fin z%:~R)
  | ra_np z : np -> real_arg np (NpInt R z) (Fin z%:~R)
  | ra_float x : real_arg np (PFloat x) x.

Definition boolean_arg (v : pyval R) : Prop := exists b, v = PBool R b.

(** Zero, positive or plus infinity. *)
Definition nonnegative (x : num R) : Prop :=
  match x with Fin r => 0 <= r | PInf => True | NInf | NaN => False end.

Definition well_formed (a : arguments R) : Prop :=
  [/\ [/\ boolean_arg (gram a), boolean_arg (verbose a), boolean_arg (plot a)
        & boolean_arg (gpu a)],
      exponent a <> PNone R /\ exponent a <> NonScalar R,
      (exists lo hi : int,
         [/\ integer_arg (min_num_samples a) lo, integer_arg (max_num_samples a) hi,
             1 <= lo & lo <= hi]),
      [/\ (error_atol a = PNone R \/
             exists2 x, real_arg false (error_atol a) x & nonnegative x),
          (error_rtol a = PNone R \/
             exists2 x, real_arg false (error_rtol a) x & nonnegative x),
          (lanczos_tol a = PNone R \/
             exists2 x, real_arg true (lanczos_tol a) x & nonnegative x)
        & (exists c o : R,
             [/\ real_arg false (confidence_level a) (Fin c),
                 real_arg true (outlier_significance_level a) (Fin o),
                 0 <= c <= 1 & 0 <= o <= 1 - c])]
    & [/\ (exists d k : int,
             [/\ integer_arg (lanczos_degree a) d, integer_arg (orthogonalize a) k,
                 1 <= d & k <= d]),
          (seed a = PNone R \/ exists z, integer_arg (seed a) z),
          (exists2 z, integer_arg (num_threads a) z & 0 <= z)
        & (exists2 z, integer_arg (num_gpu_devices a) z & 0 <= z)]].

(** None of the real-valued arguments is a not-a-number. *)
Definition no_nan (a : arguments R) : Prop :=
  let ok v := v <> PFloat (@NaN R) in
  [/\ ok (error_atol a), ok (error_rtol a), ok (lanczos_tol a),
      ok (confidence_level a) & ok (outlier_significance_level a)].

End Spec.

(** The parameter values the caller gave, in order; [None] when the object is
    not a scalar, a flat list or a one-dimensional array (the array entry is
    read through its offset and stride). *)
Definition given (T : Type) (p : parameters T) : option (seq T) :=
  match p with
  | NoParameters => Some [::]
  | Scalar x => Some [:: x]
  | FlatList xs => Some xs
  | Array1 buffer offset stride n =>
      Some (pmap (fun i => if offset%:Z + stride * i%:Z is Posz k
                           then nth None (map Some buffer) k else None) (iota 0 n))
  | _ => None
  end.

(** A numpy array whose view stays in its buffer, as numpy guarantees. *)
Definition valid_view (T : Type) (p : parameters T) : Prop :=
  if p is Array1 buffer offset stride n
  then forall i, (i < n)%N -> exists2 k, offset%:Z + stride * i%:Z = Posz k & (k < size buffer)%N
  else True.

Definition contiguous (T : Type) (p : parameters T) : Prop :=
  if p is Array1 _ _ stride _ then stride = 1 else True.
