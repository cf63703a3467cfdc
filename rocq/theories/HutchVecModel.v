(** * The test vectors of the Hutchinson method

    Models /repo/imate/_linear_algebra/random_vectors.pyx 26-82,
    generate_random_column_vectors, with
    /repo/imate/_linear_algebra/orthogonalization.pyx 168-295,
    orthogonalize_vectors, as called by the Hutchinson method
    (/repo/imate/traceinv/_hutchinson_method.pyx 782-787, 880-885).

    - The random array is filled by several threads: [FillModel].
    - The loop of orthogonalization.pyx is that of c_orthogonalization.cpp
      ([OrthoModel]) statement by statement; it differs in the tolerance
      (1e-15 for both precisions, 224) and in the replacement of a vector,
      which comes from a new generator with the same seed (282-283).
    - Arithmetic is exact.  The float and double variants are one definition. *)
From Coq Require Import ZArith NArith.
From mathcomp Require Import all_ssreflect all_algebra.
From Verif Require Import Mem KernelModel LanczosModel OrthoModel RngModel.
From Verif Require FillModel.
Set Implicit Arguments.
Unset Strict Implicit.
Unset Printing Implicit Defensive.
Import GRing.Theory Num.Theory.
Local Open Scope ring_scope.

(** py_random_array_generator.pyx 24-51 with [num_threads] threads: an array [a]
    that the call may leave in place of [a0].  [lo] is the static schedule,
    [clock] what the threads read from the clock when the seed is negative. *)
Definition may_fill (lo : nat -> nat) (num_threads : nat) (clock : nat -> N) (seed : Z)
    (a0 : seq Z) (a : seq Z) : Prop :=
  exists sched s table',
    [/\ FillModel.run lo (FillModel.start num_threads
           (rng_initialize num_threads clock seed) a0) sched = Some s,
        FillModel.finished s &
        FillModel.finish (size a0) s = Some (table', a)].

(** The same with one thread, as called in orthogonalization.pyx 282-283 for a
    vector of [n] entries. *)
Definition fill_alone (clock : nat -> N) (seed : Z) (n : nat) : seq Z :=
  if generate_random_array (rng_initialize 1 clock seed) 0 (List.repeat Z0 n) n
    is Some (_, a) then a else [::].

Section Model.
Variable R : rcfType.

(** An entry of the array as a number of the data type: 1.0 or -1.0 *)
Definition entry (z : Z) : R := if Z.eqb z (Zpos xH) then 1 else if Z.eqb z (Zneg xH) then -1 else 0.

(** random_vectors.pyx 78-82.  The threads work on different columns, so the
    columns are taken in order. *)
Definition normalize_columns (V : seq R) (n k : nat) : option (seq R) :=
  for_ 0 k 1 (fun j V => do p <- normalize_at V (j * n) n; Some p.2) V.

(** random_vectors.pyx 65-82 on the filled array [V] of [k] vectors of [n]
    entries.  [clocks l] is what the l-th call in orthogonalization.pyx 282
    reads from the clock.  [Some None] is the end of the process by abort()
    (orthogonalization.pyx 235). *)
Definition column_vectors (eps : R) (clocks : nat -> nat -> N) (seed : Z)
    (orthogonalize : bool) (V : seq R) (n k : nat) : option (option (seq R)) :=
  let fresh l := [seq entry z | z <- fill_alone (clocks l) seed n] in
  do r <- if orthogonalize then orthogonalize_vectors eps fresh V n k else Some (Some V);
  if r is Some V then omap Some (normalize_columns V n k) else Some None.

(** random_vectors.pyx 26-82: [r] is a possible outcome of the call. *)
Definition may_generate (eps : R) (lo : nat -> nat) (num_threads : nat)
    (clock : nat -> N) (clocks : nat -> nat -> N) (seed : Z) (orthogonalize : bool)
    (a0 : seq Z) (n k : nat) (r : option (option (seq R))) : Prop :=
  exists2 a, may_fill lo num_threads clock seed a0 a &
    r = column_vectors eps clocks seed orthogonalize [seq entry z | z <- a] n k.

(** E[:, i] (_hutchinson_method.pyx 814, 912): E is stored by columns
    (772-774). *)
Definition column (n : nat) (E : seq R) (i : nat) : 'cV[R]_n := \col_r nth 0 E (i * n + r)%N.
End Model.
