(** Model of imate/_c_trace_estimator: Gram-Schmidt against a circular buffer,
    Lanczos tridiagonalisation and Golub-Kahn bidiagonalisation.
    Exact arithmetic over a real closed field; arrays in option memory. *)
From mathcomp Require Import all_ssreflect all_algebra.
From Verif Require Import Mem KernelModel.
Set Implicit Arguments.
Unset Strict Implicit.
Unset Printing Implicit Defensive.
Import GRing.Theory Num.Theory.
Local Open Scope ring_scope.

Section Model.
Variable R : rcfType.

(** The pointer &V[off] passed to a kernel that reads. *)
Definition at_ (V : seq R) (off : nat) : seq R := drop off V.

(** The pointer &V[off] passed to a kernel that writes. *)
Definition upd_at (V : seq R) (off : nat) (f : seq R -> option (seq R)) : option (seq R) :=
  do w <- f (drop off V); Some (take off V ++ w).

(** Division; by zero the C++ result is infinite or NaN, here [None]. *)
Definition dv (x y : R) : option R := if y == 0 then None else Some (x / y).

(** ** Gram-Schmidt *)

(** c_orthogonalization.cpp 134-158: number of vectors to use; 0 is the early
    return. *)
Definition gs_num_steps (num_ortho : int) (num_vectors n : nat) : nat :=
  if (num_ortho == 0) || (num_vectors < 2)%N then 0%N
  else
    let s := if (num_ortho < 0) || (Posz num_vectors < num_ortho) then num_vectors
             else absz num_ortho in
    if (n < s)%N then n else s.

(** c_orthogonalization.cpp 170-179: which vector the step uses. *)
Definition gs_index (num_vectors last_vector step : nat) : nat :=
  if (step <= last_vector %% num_vectors)%N then (last_vector %% num_vectors - step)%N
  else (last_vector %% num_vectors + num_vectors - step)%N.

(** c_orthogonalization.cpp 181-222: one step; [u] is &V[n*i], [eps] the
    machine epsilon of DataType.  The warning printed on a small norm is not
    modelled. *)
Definition gs_step (eps : R) (n : nat) (u v : seq R) : option (seq R) :=
  do norm <- euclidean_norm u n;
  if norm < eps * Num.sqrt n%:R then Some v else
  do inner_prod <- inner_product u v n;
  do scale <- dv inner_prod (norm * norm);
  do skip <- (if `| `|scale| - 1 | <= 2%:R * eps then
                do norm_v <- euclidean_norm v n;
                let distance2 := norm_v * norm_v - 2%:R * inner_prod + norm * norm in
                Some (distance2 < 2%:R * eps * n%:R)
              else Some false);
  if skip then Some v else subtract_scaled_vector u n scale v.

(** c_orthogonalization.cpp 124-224: gram_schmidt_process, v a separate
    array. *)
Definition gram_schmidt (eps : R) (V : seq R) (n num_vectors last_vector : nat)
    (num_ortho : int) (v : seq R) : option (seq R) :=
  for_ 0 (gs_num_steps num_ortho num_vectors n) 1
    (fun step v =>
       gs_step eps n (at_ V (n * gs_index num_vectors last_vector step)) v) v.

(** The same when v is itself one of the vectors, &V[off]. *)
Definition gram_schmidt_inside (eps : R) (V : seq R) (n num_vectors last_vector : nat)
    (num_ortho : int) (off : nat) : option (seq R) :=
  for_ 0 (gs_num_steps num_ortho num_vectors n) 1
    (fun step V =>
       upd_at V off (gs_step eps n (at_ V (n * gs_index num_vectors last_vector step)))) V.

(** ** Lanczos *)

(** c_lanczos_tridiagonalization.cpp 128-144: buffer_size. *)
Definition lanczos_buffer_size (orthogonalize : int) (m : nat) : nat :=
  if (orthogonalize == 0) || (orthogonalize == 1) then 2%N
  else if (orthogonalize < 0) || (Posz m < orthogonalize) then m
  else absz orthogonalize.

(** The variables of the loop; [lz_stop] is set when the loop was left by
    break. *)
Record lz_state := LzState {
  lz_V : seq R; lz_r : seq R; lz_alpha : seq R; lz_beta : seq R;
  lz_size : nat; lz_stop : bool }.

Section Iterations.
Variable eps : R.
(** A->dot(vector, product) and A->transpose_dot(vector, product). *)
Variable A_dot : seq R -> seq R -> option (seq R).
Variable A_transpose_dot : seq R -> seq R -> option (seq R).

(** c_lanczos_tridiagonalization.cpp 166-229: the body of the loop. *)
Definition lanczos_body (n bs : nat) (tol : R) (orthogonalize : int) (initial_beta : R)
    (j : nat) (s : lz_state) : option lz_state :=
  if lz_stop s then Some s else
  let Vj := ((j %% bs) * n)%N in
  do scale <- (if j == 0%N then dv 1 initial_beta
               else do b <- rd (lz_beta s) j.-1; dv 1 b);
  do V <- upd_at (lz_V s) Vj (copy_scaled_vector (lz_r s) n scale);
  do r <- A_dot (at_ V Vj) (lz_r s);
  do a <- inner_product (at_ V Vj) r n;
  do alpha <- wr (lz_alpha s) j a;
  do r <- subtract_scaled_vector (at_ V Vj) n a r;
  do r <- (if (0 < j)%N then
             do b <- rd (lz_beta s) j.-1;
             subtract_scaled_vector (at_ V ((j.-1 %% bs) * n)) n b r
           else Some r);
  do r <- (if orthogonalize != 0 then
             let num_ortho := if (j < bs)%N then j.+1 else bs in
             gram_schmidt eps V n bs (j %% bs) num_ortho%:Z r
           else Some r);
  do b <- euclidean_norm r n;
  do beta <- wr (lz_beta s) j b;
  Some (LzState V r alpha beta (lz_size s).+1 (b < tol * Num.sqrt n%:R)).

(** c_lanczos_tridiagonalization.cpp 116-236.  [V0] and [r0] are the
    uninitialised buffers of sizes n*buffer_size and n allocated in lines
    149-152; the result is (lanczos_size, alpha, beta). *)
Definition lanczos (v : seq R) (n m : nat) (tol : R) (orthogonalize : int)
    (V0 r0 alpha beta : seq R) : option (nat * seq R * seq R) :=
  let bs := lanczos_buffer_size orthogonalize m in
  do r <- copy_vector v n r0;
  do initial_beta <- euclidean_norm r n;
  do s <- for_ 0 m 1 (lanczos_body n bs tol orthogonalize initial_beta)
            (LzState V0 r alpha beta 0 false);
  Some (lz_size s, lz_alpha s, lz_beta s).

(** ** Golub-Kahn *)

(** c_golub_kahn_bidiagonalization.cpp 122-139: buffer_size. *)
Definition gk_buffer_size (orthogonalize : int) (m : nat) : nat :=
  if orthogonalize == 0 then 2%N
  else if (orthogonalize < 0) || (Posz m - 1 < orthogonalize) then m
  else (absz orthogonalize).+1.

Record gk_state := GkState {
  gk_U : seq R; gk_V : seq R; gk_alpha : seq R; gk_beta : seq R;
  gk_size : nat; gk_stop : bool }.

(** normalize_vector_in_place on &V[off]. *)
Definition normalize_at (V : seq R) (off n : nat) : option (R * seq R) :=
  do p <- normalize_vector_in_place (drop off V) n;
  Some (p.1, take off V ++ p.2).

(** c_golub_kahn_bidiagonalization.cpp 156-225: the body of the loop.  When
    alpha[j] is zero the code divides 0/0 in line 195 and every later alpha
    and beta is NaN; the model stops with [None] there.  The zero vector
    normalised in line 215 when beta[j] is zero is not used any more. *)
Definition gk_body (n bs : nat) (tol : R) (orthogonalize : int) (j : nat) (s : gk_state)
  : option gk_state :=
  if gk_stop s then Some s else
  let cur := ((j %% bs) * n)%N in
  let next := ((j.+1 %% bs) * n)%N in
  let num_ortho := if (j < bs)%N then j else (bs - 1)%N in
  do U <- upd_at (gk_U s) cur (A_dot (at_ (gk_V s) cur));
  do U <- (if (0 < j)%N then
             do b <- rd (gk_beta s) j.-1;
             upd_at U cur (subtract_scaled_vector (at_ U ((j.-1 %% bs) * n)) n b)
           else Some U);
  do U <- (if (orthogonalize != 0) && (0 < j)%N then
             gram_schmidt_inside eps U n bs (j.-1 %% bs) num_ortho%:Z cur
           else Some U);
  do p <- normalize_at U cur n;
  if p.1 == 0 then None else
  let U := p.2 in
  do alpha <- wr (gk_alpha s) j p.1;
  do V <- upd_at (gk_V s) next (A_transpose_dot (at_ U cur));
  do V <- upd_at V next (subtract_scaled_vector (at_ V cur) n p.1);
  do V <- (if orthogonalize != 0 then
             gram_schmidt_inside eps V n bs (j %% bs) num_ortho%:Z next
           else Some V);
  do q <- normalize_at V next n;
  do beta <- wr (gk_beta s) j q.1;
  Some (GkState U q.2 alpha beta (gk_size s).+1 (q.1 < tol * Num.sqrt n%:R)).

(** c_golub_kahn_bidiagonalization.cpp 110-232. *)
Definition golub_kahn (v : seq R) (n m : nat) (tol : R) (orthogonalize : int)
    (U0 V0 alpha beta : seq R) : option (nat * seq R * seq R) :=
  let bs := gk_buffer_size orthogonalize m in
  do p <- normalize_vector_and_copy v n V0;
  if p.1 == 0 then None else
  do s <- for_ 0 m 1 (gk_body n bs tol orthogonalize)
            (GkState U0 p.2 alpha beta 0 false);
  Some (gk_size s, gk_alpha s, gk_beta s).

End Iterations.
End Model.
