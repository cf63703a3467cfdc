(** * Loading the CUDA libraries at run time

    Models /repo/imate/_cuda_dynamic_loading: load_symbol and
    get_library_handle_unix/_windows of dynamic_loading.h 78-206, get_lib_name
    (cudart_symbols.cpp 55-90, cublas_symbols.cpp 50-83, cusparse_symbols.cpp
    45-78), and the functions that stand for the ones of CUDA (cudart_symbols.cpp
    106-468, cublas_symbols.cpp 97-510, cusparse_symbols.cpp 92-322), called by
    any number of threads (one for each GPU device, cu_trace_estimator.cu
    265-272).

    Simplifications: reads and writes of a pointer are single steps; the
    libraries of the system do not change; a call of a function of CUDA is its
    address; arguments are passed on unchanged and are left out. *)
From mathcomp Require Import all_ssreflect.
From Coq Require Import Ascii String.

Set Implicit Arguments.
Unset Strict Implicit.
Unset Printing Implicit Defensive.
Local Open Scope string_scope.

Inductive os := Linux | Mac | Windows.
Inductive library := Cudart | Cublas | Cusparse.

(** get_lib_name of the three files; [major] is the text of CUBLAS_VER_MAJOR and
    CUSPARSE_VER_MAJOR *)
Definition extension (o : os) : string :=
  match o with Windows => "lib" | Mac => "dylib" | Linux => "so" end.
Definition get_lib_name (o : os) (major : string) (l : library) : string :=
  match l with
  | Cudart => "libcudart" ++ "." ++ extension o
  | Cublas => "libcublas" ++ "." ++ extension o ++ "." ++ major
  | Cusparse => "libcusparse" ++ "." ++ extension o ++ "." ++ major
  end.

(** A function of the package with the name of one of CUDA: the pointer it
    compares with NULL, the symbol it loads, the pointer it writes, the pointer
    it calls. *)
Record wrapper := Wrapper {
  w_lib : library; w_name : string; w_test : string; w_symbol : string;
  w_store : string; w_call : string }.

Definition table : seq wrapper := [::
  Wrapper Cudart "cudaEventCreate" "cudaEventCreate" "cudaEventCreate" "cudaEventCreate" "cudaEventCreate";
  Wrapper Cudart "cudaEventDestroy" "cudaEventDestroy" "cudaEventDestroy" "cudaEventDestroy" "cudaEventDestroy";
  Wrapper Cudart "cudaEventElapsedTime" "cudaEventElapsedTime" "cudaEventElapsedTime" "cudaEventElapsedTime" "cudaEventElapsedTime";
  Wrapper Cudart "cudaEventRecord" "cudaEventRecord" "cudaEventRecord" "cudaEventRecord" "cudaEventRecord";
  Wrapper Cudart "cudaEventSynchronize" "cudaEventSynchronize" "cudaEventSynchronize" "cudaEventSynchronize" "cudaEventSynchronize";
  Wrapper Cudart "cudaGetDevice" "cudaGetDevice" "cudaGetDevice" "cudaGetDevice" "cudaGetDevice";
  Wrapper Cudart "cudaGetDeviceCount" "cudaGetDeviceCount" "cudaGetDeviceCount" "cudaGetDeviceCount" "cudaGetDeviceCount";
  Wrapper Cudart "cudaGetDeviceProperties" "cudaGetDeviceProperties" "cudaGetDeviceProperties" "cudaGetDeviceProperties" "cudaGetDeviceProperties";
  Wrapper Cudart "cudaFree" "cudaFree" "cudaFree" "cudaFree" "cudaFree";
  Wrapper Cudart "cudaMalloc" "cudaMalloc" "cudaMalloc" "cudaMalloc" "cudaMalloc";
  Wrapper Cudart "cudaMemcpy" "cudaMemcpy" "cudaMemcpy" "cudaMemcpy" "cudaMemcpy";
  Wrapper Cudart "cudaSetDevice" "cudaSetDevice" "cudaSetDevice" "cudaSetDevice" "cudaSetDevice";
  Wrapper Cudart "__cudaRegisterFatBinary" "__cudaRegisterFatBinary" "__cudaRegisterFatBinary" "__cudaRegisterFatBinary" "__cudaRegisterFatBinary";
  Wrapper Cudart "__cudaRegisterFatBinaryEnd" "__cudaRegisterFatBinaryEnd" "__cudaRegisterFatBinaryEnd" "__cudaRegisterFatBinaryEnd" "__cudaRegisterFatBinaryEnd";
  Wrapper Cudart "__cudaUnregisterFatBinary" "__cudaUnregisterFatBinary" "__cudaUnregisterFatBinary" "__cudaUnregisterFatBinary" "__cudaUnregisterFatBinary";
  Wrapper Cublas "cublasCreate" "cublasCreate" "cublasCreate_v2" "cublasCreate" "cublasCreate";
  Wrapper Cublas "cublasDestroy" "cublasDestroy" "cublasDestroy_v2" "cublasDestroy" "cublasDestroy";
  Wrapper Cublas "cublasSgemv" "cublasSgemv" "cublasSgemv_v2" "cublasSgemv" "cublasSgemv";
  Wrapper Cublas "cublasDgemv" "cublasDgemv" "cublasDgemv_v2" "cublasDgemv" "cublasDgemv";
  Wrapper Cublas "cublasScopy" "cublasScopy" "cublasScopy_v2" "cublasScopy" "cublasScopy";
  Wrapper Cublas "cublasDcopy" "cublasDcopy" "cublasDcopy_v2" "cublasDcopy" "cublasDcopy";
  Wrapper Cublas "cublasSaxpy" "cublasSaxpy" "cublasSaxpy_v2" "cublasSaxpy" "cublasSaxpy";
  Wrapper Cublas "cublasDaxpy" "cublasDaxpy" "cublasDaxpy_v2" "cublasDaxpy" "cublasDaxpy";
  Wrapper Cublas "cublasSdot" "cublasSdot" "cublasSdot_v2" "cublasSdot" "cublasSdot";
  Wrapper Cublas "cublasDdot" "cublasDdot" "cublasDdot_v2" "cublasDdot" "cublasDdot";
  Wrapper Cublas "cublasSnrm2" "cublasSnrm2" "cublasSnrm2_v2" "cublasSnrm2" "cublasSnrm2";
  Wrapper Cublas "cublasDnrm2" "cublasDnrm2" "cublasDnrm2_v2" "cublasDnrm2" "cublasDnrm2";
  Wrapper Cublas "cublasSscal" "cublasSscal" "cublasSscal_v2" "cublasSscal" "cublasSscal";
  Wrapper Cublas "cublasDscal" "cublasDscal" "cublasDscal_v2" "cublasDscal" "cublasDscal";
  Wrapper Cusparse "cusparseCreate" "cusparseCreate" "cusparseCreate" "cusparseCreate" "cusparseCreate";
  Wrapper Cusparse "cusparseDestroy" "cusparseDestroy" "cusparseDestroy" "cusparseDestroy" "cusparseDestroy";
  Wrapper Cusparse "cusparseCreateCsr" "cusparseCreateCsr" "cusparseCreateCsr" "cusparseCreateCsr" "cusparseCreateCsr";
  Wrapper Cusparse "cusparseCreateDnVec" "cusparseCreateDnVec" "cusparseCreateDnVec" "cusparseCreateDnVec" "cusparseCreateDnVec";
  Wrapper Cusparse "cusparseDestroySpMat" "cusparseDestroySpMat" "cusparseDestroySpMat" "cusparseDestroySpMat" "cusparseDestroySpMat";
  Wrapper Cusparse "cusparseDestroyDnVec" "cusparseDestroyDnVec" "cusparseDestroyDnVec" "cusparseDestroyDnVec" "cusparseDestroyDnVec";
  Wrapper Cusparse "cusparseSpMV_bufferSize" "cusparseSpMV_bufferSize" "cusparseSpMV_bufferSize" "cusparseSpMV_bufferSize" "cusparseSpMV_bufferSize";
  Wrapper Cusparse "cusparseSpMV" "cusparseSpMV" "cusparseSpMV" "cusparseSpMV" "cusparseSpMV"
].

(** A library gives addresses to names; 0 is NULL.  The libraries that can be
    opened: *)
Definition symbols := string -> option nat.
Definition world := string -> option symbols.

Inductive event :=
  | Called of wrapper & nat    (* the function at this address was called *)
  | Raised of wrapper          (* std::runtime_error with a message *)
  | Undefined of wrapper.      (* undefined behaviour *)

(** Where a thread is in the function it executes. *)
Inductive place :=
  | Start | Opening | Looking of symbols | Checking of nat | Storing of nat | Calling.

(** A thread: the calls it has still to make (the first one is being executed),
    its place, whether its last error of dlopen or dlsym was not yet asked for
    by dlerror, and what happened. *)
Record thread := Thread { todo : seq wrapper; at_ : place; pending : bool; events : seq event }.

Definition cache := string -> nat.
Definition write (c : cache) (p : string) (a : nat) : cache :=
  fun q => if String.eqb q p then a else c q.

Section Load.
Variable (o : os) (major : string) (libs : world).
(** Whether a successful dlopen or dlsym forgets an earlier error (as in glibc;
    POSIX does not say so). *)
Variable clears : bool.

Definition next (t : thread) (p : place) (e : bool) : thread := Thread (todo t) p e (events t).
(** The call ends with this event. *)
Definition finish (t : thread) (e : bool) (ev : event) : thread :=
  Thread (behead (todo t)) Start e (rcons (events t) ev).
(** Undefined behaviour: nothing is known of the rest. *)
Definition stop (t : thread) (w : wrapper) : thread :=
  Thread [::] Start false (rcons (events t) (Undefined w)).

Definition step (c : cache) (t : thread) : cache * thread :=
  if todo t is w :: _ then
    match at_ t with
    | Start => (* if (symbol == NULL) *)
        (c, next t (if c (w_test w) == 0 then Opening else Calling) (pending t))
    | Opening => (* dlopen, 97-107 of dynamic_loading.h; LoadLibrary, 128-143 *)
        if libs (get_lib_name o major (w_lib w)) is Some syms
        then (c, next t (Looking syms) (pending t && ~~ clears))
        else (* throw std::runtime_error(dlerror()): the error is fetched *)
          (c, finish t false (Raised w))
    | Looking syms => (* dlsym, 186-187; GetProcAddress, 171-182 *)
        if syms (w_symbol w) is Some a
        then (c, next t (Checking a) (pending t && ~~ clears))
        else if o is Windows then (c, finish t (pending t) (Raised w))
        else (c, next t (Checking 0) true)
    | Checking a => (* 189-193: error = dlerror() forgets the error, so that the
                       second dlerror() is NULL, no message *)
        if o is Windows then (c, next t (Storing a) (pending t))
        else if pending t then (c, stop t w)
        else (c, next t (Storing a) false)
    | Storing a => (write c (w_store w) a, next t Calling (pending t))
    | Calling => (* return symbol(...) *)
        let a := c (w_call w) in
        if a == 0 then (c, stop t w) else (c, finish t (pending t) (Called w a))
    end
  else (c, t).

(** The threads make steps in the order of the schedule. *)
Definition state := (cache * seq thread)%type.
Definition idle : thread := Thread [::] Start false [::].
Definition step_of (s : state) (i : nat) : state :=
  if (i < size s.2)%N then
    let r := step s.1 (nth idle s.2 i) in (r.1, set_nth idle s.2 i r.2)
  else s.
Definition run (s : state) (schedule : seq nat) : state := foldl step_of s schedule.

(** All pointers are NULL at first (cudart_symbols.cpp 29-45 and so on). *)
Definition begin (ts : seq (bool * seq wrapper)) : state :=
  (fun=> 0, [seq Thread t.2 Start t.1 [::] | t <- ts]).
End Load.
