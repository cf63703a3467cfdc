(** Model of the operator cache of imate/linear_operator: linear_operator.py,
    matrix.py and affine_matrix_function.py (the two initialize methods are the
    same but for the class they construct). *)
Require Import Arith Bool List.
Import ListNotations.

(** What a construction or a request ends with *)
Inductive error := TypeError | RuntimeError | AttributeError | Interrupted | ProcessAborted.
Inductive outcome (T : Type) := Done (x : T) | Fail (e : error).
Arguments Done {T}. Arguments Fail {T}.

(** An operator: on the CPU, or on the GPU, for a number of devices *)
Inductive operator := Cpu | Gpu (devices : nat).

(** The attribute gpu_Aop: deleted, None, or an operator for a number of devices *)
Inductive gpu_attr := Deleted | NoOp | Op (devices : nat).

(** linear_operator.py 34-42 (Aop, data_type_name and num_parameters are left
    out) *)
Record state := State {
  cpu_op : bool;  (* cpu_Aop is not None *)
  gpu_op : gpu_attr;
  num : nat;      (* num_gpu_devices *)
  on_cpu : bool;  (* initialized_on_cpu *)
  on_gpu : bool   (* initialized_on_gpu *) }.
Definition new_state : state := State false NoOp 0 false false.

(** A call of initialize or get_linear_operator. [ok] is false when a
    construction during the call would be interrupted by an exception, such as a
    MemoryError or a KeyboardInterrupt. *)
Record request := Request { gpu : bool; devices : nat; ok : bool }.

Section Machine.
(** The number of GPU devices and whether the data type is float32 or float64 *)
Variables (all_devices : nat) (gpu_dtype : bool).

(** pycuMatrix(A, n): py_cu_linear_operator.pyx 45-51, py_cu_matrix.pyx 136-142,
    cu_linear_operator.cu 70-89 *)
Definition construct_gpu (r : request) : outcome nat :=
  if negb (ok r) then Fail Interrupted
  else if all_devices =? 0 then Fail RuntimeError
  else if negb gpu_dtype then Fail TypeError
  else if devices r =? 0 then Done all_devices
  else if all_devices <? devices r then Fail ProcessAborted
  else Done (devices r).

(** matrix.py 286-352, affine_matrix_function.py 295-362. The second component
    says how the call ended. *)
Definition initialize (s : state) (r : request) : state * outcome unit :=
  let fin s := (State (cpu_op s) (gpu_op s) (devices r) (on_cpu s) (on_gpu s), Done tt) in
  if gpu r then
    if negb (on_gpu s) then
      match construct_gpu r with
      | Fail e => (s, Fail e)
      | Done d => fin (State (cpu_op s) (Op d) (num s) (on_cpu s) true)
      end
    else if devices r =? num s then fin s
    else
      match gpu_op s with
      | Deleted => (s, Fail AttributeError)
      | NoOp => (s, Fail AttributeError)
      | Op _ =>
          let reallocate :=
            if (devices r =? 0) && (num s =? all_devices) then false
            else if (devices r =? all_devices) && (num s =? 0) then false
            else true in
          if reallocate then
            (* 336-337: the old operator goes first *)
            let s' := State (cpu_op s) Deleted (num s) (on_cpu s) (on_gpu s) in
            match construct_gpu r with
            | Fail e => (s', Fail e)
            | Done d => fin (State (cpu_op s) (Op d) (num s) (on_cpu s) true)
            end
          else fin s
      end
  else if on_cpu s then fin s
  else if ok r then fin (State true (gpu_op s) (num s) true (on_gpu s))
  else (s, Fail Interrupted).

(** linear_operator.py 114-147 *)
Definition get_linear_operator (s : state) (r : request) : state * outcome operator :=
  let (s', o) := initialize s r in
  (s', match o with
       | Fail e => Fail e
       | Done _ =>
           if gpu r then
             match gpu_op s' with
             | Deleted => Fail AttributeError
             | NoOp => Fail RuntimeError
             | Op d => if on_gpu s' then Done (Gpu d) else Fail RuntimeError
             end
           else if cpu_op s' && on_cpu s' then Done Cpu else Fail RuntimeError
       end).

(** An event: a call of initialize or of get_linear_operator. After an abort
    there are no further events. *)
Inductive event := Initialize (r : request) | Get (r : request).
Definition request_of (e : event) : request := match e with Initialize r => r | Get r => r end.
Definition step (s : state) (e : event) : state :=
  match e with Initialize r => fst (initialize s r) | Get r => fst (get_linear_operator s r) end.
Definition state_after (h : list event) : state := fold_left step h new_state.

(** The result of a request after a history *)
Definition answer (h : list event) (r : request) : outcome operator :=
  snd (get_linear_operator (state_after h) r).
End Machine.
