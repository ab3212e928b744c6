(** CudaHandles: the per-GPU table of cuBLAS / cuSPARSE handles, /repo/src/CUDAUtilities.cpp:65-92, 121-142.
    A handle is modelled as the pair of a serial number and the processor on which it was created (the CUDA device current at that time).  Failures reported by
    the CUDA libraries (which abort) are not modelled.  LEGION_MAX_NUM_PROCS = 2 ^ [bits]. *)
From Verif Require Import Base Outcome.
Set Implicit Arguments.
Local Open Scope Z_scope.

Inductive proc_kind := TOC_PROC | OTHER_PROC.
Record processor := mk_proc { proc_id : Z; proc_kind_of : proc_kind }.
Inductive library := CUBLAS | CUSPARSE.
Record handle := mk_handle { serial : nat; device : Z }.
(** one CUDALibraryContext: CUDAUtilities.hpp:52-62 (both handles start as nullptr; the cuda_stream field is never used) *)
Record context := mk_context { cublas_handle : option handle; cusparse_handle : option handle }.
Definition empty_context : context := mk_context None None.
(** the static table and the number of handles created so far by any library call *)
Record cuda_state := mk_cuda { table : Z -> context; created : nat }.
Definition initial : cuda_state := mk_cuda (fun _ => empty_context) 0.

Section Table.
Variable bits : nat.
Definition max_procs : Z := 2 ^ Z.of_nat bits.
(** CUDAUtilities.cpp:124-129: the assertion and the index expression proc.id & (LEGION_MAX_NUM_PROCS - 1); an index outside the array is undefined behaviour *)
Definition library_context (p : processor) : outcome Z :=
  match proc_kind_of p with
  | OTHER_PROC => AssertFail
  | TOC_PROC => let i := Z.land (proc_id p) (max_procs - 1) in if (0 <=? i) && (i <? max_procs) then Ok i else UB
  end.
Definition field (l : library) (c : context) : option handle := match l with CUBLAS => cublas_handle c | CUSPARSE => cusparse_handle c end.
Definition set_field (l : library) (c : context) (h : handle) : context :=
  match l with CUBLAS => mk_context (Some h) (cusparse_handle c) | CUSPARSE => mk_context (cublas_handle c) (Some h) end.
(** CUDAUtilities.cpp:77-92 and 137-142: get_cublas_handle / get_cusparse_handle called by a task on processor [p] *)
Definition get_handle (p : processor) (l : library) (s : cuda_state) : outcome (handle * cuda_state) :=
  do i <- library_context p;
  match field l (table s i) with
  | Some h => Ok (h, s)
  | None =>
      let h := mk_handle (created s) (proc_id p) in
      Ok (h, mk_cuda (fun j => if j =? i then set_field l (table s i) h else table s j) (S (created s)))
  end.
(** a history of calls, by tasks on any processors in any order *)
Fixpoint calls (cs : list (processor * library)) (s : cuda_state) : outcome (list handle * cuda_state) :=
  match cs with
  | [] => Ok ([], s)
  | (p, l) :: rest =>
      do r <- get_handle p l s;
      let '(h, s1) := r in
      do r' <- calls rest s1;
      let '(hs, s2) := r' in Ok (h :: hs, s2)
  end.
End Table.
