(** * The seed taken from the clock

    Models get_highres_time_stamp of
    /repo/imate/_random_generator/highres_time_stamp.cpp 86-133 where the clock
    of POSIX is used (94-107), with the arithmetic in doubles of line 107.  The
    value is used by the constructor of SplitMix64 if the seed is negative
    (split_mix_64.cpp 28-47, RngModel.splitmix_init). *)
From Coq Require Import NArith ZArith.
Local Open Scope N_scope.

(** A natural number as a double: to the nearest number of 53 bits, a number
    halfway between two of them to the one with the even last bit. *)
Definition to_double (x : N) : N :=
  let k := N.log2 x - 52 in
  let q := x / 2 ^ k in
  let r := x mod 2 ^ k in
  let q := if 2 * r <? 2 ^ k then q
           else if 2 ^ k <? 2 * r then q + 1
           else if N.even q then q else q + 1 in
  if k =? 0 then x else q * 2 ^ k.

(** 96-107.  The clock is the number of seconds and of nanoseconds; if it cannot
    be read, the structure keeps what was in memory, since the value 1 of line
    104 is overwritten. *)
Definition time_stamp (reading : option (N * N)) (memory : N * N) : N :=
  let '(sec, nsec) := match reading with Some c => c | None => memory end in
  to_double (to_double (to_double sec * 1000000000) + to_double nsec).
