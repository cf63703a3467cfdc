(** Model of the query of the GPU devices: imate/_cuda_utilities/device_properties.cu,
    query_device.cu, py_query_device.pyx, with its use in
    imate/_cu_linear_operator/py_cu_linear_operator.pyx 45-51 and
    imate/_trace_estimator/trace_estimator.pyx 202-216.

    Numbers are natural numbers; the allocations succeed. *)
From mathcomp Require Import all_ssreflect.
From Verif Require Import Mem HeapModel.
Set Implicit Arguments.
Unset Strict Implicit.
Unset Printing Implicit Defensive.

(** An allocated array of int: the block and its contents; [None] is an
    indeterminate value *)
Definition array := (nat * seq (option nat))%type.

(** device_properties.h 23-35, struct DeviceProperties; [None] is NULL *)
Record device_properties := DeviceProperties {
  num_devices : nat;
  num_multiprocessors : option array;
  num_threads_per_multiprocessor : option array }.

(** device_properties.cu 27-32 *)
Definition constructor : device_properties := DeviceProperties 0 None None.

Definition block (a : option array) : option nat := omap fst a.

(** device_properties.cu 55-68; 42-45 (destructor) does the same *)
Definition deallocate_members (h : heap) (p : device_properties) : option (heap * device_properties) :=
  do h <- delete_opt h (block (num_multiprocessors p));
  do h <- delete_opt h (block (num_threads_per_multiprocessor p));
  Some (h, DeviceProperties (num_devices p) None None).

(** device_properties.cu 81-91 *)
Definition set_num_devices (n : nat) (h : heap) (p : device_properties) : option (heap * device_properties) :=
  let p := DeviceProperties n (num_multiprocessors p) (num_threads_per_multiprocessor p) in
  do (h, p) <- deallocate_members h p;
  let: (h, a) := new h in
  let: (h, b) := new h in
  Some (h, DeviceProperties (num_devices p) (Some (a, nseq n None)) (Some (b, nseq n None))).

(** struct cudaDeviceProp, the fields used *)
Record cuda_properties := CudaProperties { major : nat; multi_processor_count : nat; max_threads : nat }.

Definition write (a : option array) (i : nat) (v : option nat) : option (option array) :=
  if a is Some (b, m) then do m <- wr m i v; Some (Some (b, m)) else None.
Definition read (a : option array) (i : nat) : option (option nat) :=
  if a is Some (_, m) then rd m i else None.

(** What is stored for a device; nothing is known if the struct was never filled *)
Definition stored (f : cuda_properties -> nat) (properties : option cuda_properties) : option nat :=
  if properties is Some q then Some (if major q == 9999 then 0 else f q) else None.

(** query_device.cu 31-67.  [count]: what cudaGetDeviceCount gives, [None] for an error;
    [get i]: what cudaGetDeviceProperties gives for device i, [None] for an error, which
    is not looked at: the struct then keeps what it held. *)
Definition query_device (count : option nat) (get : nat -> option cuda_properties) (h : heap)
    (p : device_properties) : option (heap * device_properties) :=
  if count is Some n then
    do (h, p) <- set_num_devices n h p;
    do (p, _) <- for_ 0 n 1 (fun device s =>
      let: (p, properties) := s in
      let properties := if get device is Some q then Some q else properties in
      do m <- write (num_multiprocessors p) device (stored multi_processor_count properties);
      do t <- write (num_threads_per_multiprocessor p) device (stored max_threads properties);
      Some (DeviceProperties (num_devices p) m t, properties)) (p, None);
    Some (h, p)
  else Some (h, p).

(** The returned dictionary *)
Record dictionary := Dictionary { devices : nat; multiprocessors : seq (option nat); threads : seq (option nat) }.

(** py_query_device.pyx 22-58; the destructor runs at the end *)
Definition py_query_device (count : option nat) (get : nat -> option cuda_properties) (h : heap)
  : option (heap * dictionary) :=
  do (h, p) <- query_device count get h constructor;
  let n := num_devices p in
  do (a, b) <- for_ 0 n 1 (fun device s =>
    let: (a, b) := s in
    do x <- read (num_multiprocessors p) device;
    do y <- read (num_threads_per_multiprocessor p) device;
    do a <- wr a device x;
    do b <- wr b device y;
    Some (a, b)) (nseq n None, nseq n None);
  do (h, _) <- deallocate_members h p;
  Some (h, Dictionary n a b).

(** Outcome of a call with gpu=True before the computation *)
Inductive outcome := RuntimeError | Reports (used : nat) (multi : option nat) (per_multi : option nat).

(** py_cu_linear_operator.pyx 45-51, trace_estimator.pyx 202-216: the numbers of the
    first device are reported, and the number of devices used *)
Definition reported (d : dictionary) (num_gpu_devices : nat) : option outcome :=
  if devices d == 0 then Some RuntimeError
  else
    do m <- rd (multiprocessors d) 0;
    do t <- rd (threads d) 0;
    Some (Reports (if num_gpu_devices == 0 then devices d else num_gpu_devices) m t).
