(** Model of the Lanczos and Golub-Kahn iterations on a GPU device:
    imate/_cu_trace_estimator.  The statements are those of the CPU versions
    (LanczosModel) with the vector operations of the device (GpuModel); the
    Gram-Schmidt process has a different test. *)
From mathcomp Require Import all_ssreflect all_algebra.
From Verif Require Import Mem KernelModel CblasModel LanczosModel GpuModel.
Set Implicit Arguments.
Unset Strict Implicit.
Unset Printing Implicit Defensive.
Import GRing.Theory Num.Theory Order.Theory.
Local Open Scope ring_scope.

Section Model.
Variable R : rcfType.

(** cu_orthogonalization.cu 184-226: one step.  The test of line 206 has no
    absolute value around scale (c_orthogonalization.cpp 202 has one) *)
Definition cu_gs_step (eps : R) (n : nat) (u v : seq R) : option (seq R) :=
  do norm <- cu_euclidean_norm u n;
  if norm < eps * Num.sqrt n%:R then Some v else
  do inner_prod <- cu_inner_product u v n;
  do scale <- dv inner_prod (norm * norm);
  do skip <- (if `|scale - 1| <= 2%:R * eps then
                do norm_v <- cu_euclidean_norm v n;
                let distance2 := norm_v * norm_v - 2%:R * inner_prod + norm * norm in
                Some (distance2 < 2%:R * eps * n%:R)
              else Some false);
  if skip then Some v else cu_subtract_scaled_vector u n scale v.

(** cu_orthogonalization.cu 128-228: the number of steps and the indices are
    those of c_orthogonalization.cpp 134-179 *)
Definition cu_gram_schmidt (eps : R) (V : seq R) (n num_vectors last_vector : nat)
    (num_ortho : int) (v : seq R) : option (seq R) :=
  for_ 0 (gs_num_steps num_ortho num_vectors n) 1
    (fun step v =>
       cu_gs_step eps n (at_ V (n * gs_index num_vectors last_vector step)) v) v.

Definition cu_gram_schmidt_inside (eps : R) (V : seq R) (n num_vectors last_vector : nat)
    (num_ortho : int) (off : nat) : option (seq R) :=
  for_ 0 (gs_num_steps num_ortho num_vectors n) 1
    (fun step V =>
       upd_at V off (cu_gs_step eps n (at_ V (n * gs_index num_vectors last_vector step)))) V.

Section Iterations.
Variable eps : R.
(** A->dot(vector, product) and A->transpose_dot(vector, product) on the device *)
Variable A_dot : seq R -> seq R -> option (seq R).
Variable A_transpose_dot : seq R -> seq R -> option (seq R).

(** cu_lanczos_tridiagonalization.cu 172-237 *)
Definition cu_lanczos_body (n bs : nat) (tol : R) (orthogonalize : int) (initial_beta : R)
    (j : nat) (s : lz_state R) : option (lz_state R) :=
  if lz_stop s then Some s else
  let Vj := ((j %% bs) * n)%N in
  do scale <- (if j == 0%N then dv 1 initial_beta
               else do b <- rd (lz_beta s) j.-1; dv 1 b);
  do V <- upd_at (lz_V s) Vj (cu_copy_scaled_vector (lz_r s) n scale);
  do r <- A_dot (at_ V Vj) (lz_r s);
  do a <- cu_inner_product (at_ V Vj) r n;
  do alpha <- wr (lz_alpha s) j a;
  do r <- cu_subtract_scaled_vector (at_ V Vj) n a r;
  do r <- (if (0 < j)%N then
             do b <- rd (lz_beta s) j.-1;
             cu_subtract_scaled_vector (at_ V ((j.-1 %% bs) * n)) n b r
           else Some r);
  do r <- (if orthogonalize != 0 then
             let num_ortho := if (j < bs)%N then j.+1 else bs in
             cu_gram_schmidt eps V n bs (j %% bs) num_ortho%:Z r
           else Some r);
  do b <- cu_euclidean_norm r n;
  do beta <- wr (lz_beta s) j b;
  Some (LzState V r alpha beta (lz_size s).+1 (b < tol * Num.sqrt n%:R)).

(** cu_lanczos_tridiagonalization.cu 118-244: the buffers are device arrays,
    alpha and beta host arrays; buffer_size as in lines 131-148 *)
Definition cu_lanczos (v : seq R) (n m : nat) (tol : R) (orthogonalize : int)
    (V0 r0 alpha beta : seq R) : option (nat * seq R * seq R) :=
  let bs := lanczos_buffer_size orthogonalize m in
  do r <- cu_copy_vector v n r0;
  do initial_beta <- cu_euclidean_norm r n;
  do s <- for_ 0 m 1 (cu_lanczos_body n bs tol orthogonalize initial_beta)
            (LzState V0 r alpha beta 0 false);
  Some (lz_size s, lz_alpha s, lz_beta s).

(** normalize_vector_in_place on &device_V[off] *)
Definition cu_normalize_at (V : seq R) (off n : nat) : option (R * seq R) :=
  do p <- cu_normalize_vector_in_place (drop off V) n;
  Some (p.1, take off V ++ p.2).

(** cu_golub_kahn_bidiagonalization.cu 163-240 *)
Definition cu_gk_body (n bs : nat) (tol : R) (orthogonalize : int) (j : nat) (s : gk_state R)
  : option (gk_state R) :=
  if gk_stop s then Some s else
  let cur := ((j %% bs) * n)%N in
  let next := ((j.+1 %% bs) * n)%N in
  let num_ortho := if (j < bs)%N then j else (bs - 1)%N in
  do U <- upd_at (gk_U s) cur (A_dot (at_ (gk_V s) cur));
  do U <- (if (0 < j)%N then
             do b <- rd (gk_beta s) j.-1;
             upd_at U cur (cu_subtract_scaled_vector (at_ U ((j.-1 %% bs) * n)) n b)
           else Some U);
  do U <- (if (orthogonalize != 0) && (0 < j)%N then
             cu_gram_schmidt_inside eps U n bs (j.-1 %% bs) num_ortho%:Z cur
           else Some U);
  do p <- cu_normalize_at U cur n;
  if p.1 == 0 then None else
  let U := p.2 in
  do alpha <- wr (gk_alpha s) j p.1;
  do V <- upd_at (gk_V s) next (A_transpose_dot (at_ U cur));
  do V <- upd_at V next (cu_subtract_scaled_vector (at_ V cur) n p.1);
  do V <- (if orthogonalize != 0 then
             cu_gram_schmidt_inside eps V n bs (j %% bs) num_ortho%:Z next
           else Some V);
  do q <- cu_normalize_at V next n;
  do beta <- wr (gk_beta s) j q.1;
  Some (GkState U q.2 alpha beta (gk_size s).+1 (q.1 < tol * Num.sqrt n%:R)).

(** cu_golub_kahn_bidiagonalization.cu 113-247: v is copied to the device and
    normalised there *)
Definition cu_golub_kahn (v : seq R) (n m : nat) (tol : R) (orthogonalize : int)
    (U0 V0 alpha beta : seq R) : option (nat * seq R * seq R) :=
  let bs := gk_buffer_size orthogonalize m in
  do V <- cu_copy_vector v n V0;
  do p <- cu_normalize_vector_in_place V n;
  if p.1 == 0 then None else
  do s <- for_ 0 m 1 (cu_gk_body n bs tol orthogonalize)
            (GkState U0 p.2 alpha beta 0 false);
  Some (gk_size s, gk_alpha s, gk_beta s).

End Iterations.
End Model.
