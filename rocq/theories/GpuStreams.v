(** GpuStreams: task bodies that only enqueue work on CUDA streams.  The CUDA variants (/repo/src/LinearAlgebraTasks.cu,
    COOMatrixTasks.cu, CSRMatrixTasks.cu) return while their kernels may still be queued; /repo/src/CUDAUtilities.cpp:65-74
    tells Realm that all work of the task is on the task's own stream (set_task_ctxsync_required(false)), so that Realm
    completes the task when that stream reaches the point at which the body returned.  The library handles are shared by
    all tasks whose processors use the same slot of the table (CUDAUtilities.cpp:121-142, CudaHandles.v), and a library
    call goes to the stream that was last set on the handle.
    Trusted here: CUDA streams are FIFO; Realm runs one body at a time per processor and completes a task as just
    described; a kernel or library call performs its updates in the order of the list (any order between different
    streams).  DeferredBuffers live until the task completes.  Failing CUDA calls (which abort) are not modelled. *)
From Verif Require Import Base Outcome Sched Async CudaHandles.
Set Implicit Arguments.

Section Streams.
Variables L V : Type.
Notation step := (step L V).
Notation op := (op L V).

(** What a task body does, call by call. *)
Inductive call :=
| Compute (ss : list step)                  (* updates by the thread that runs the body *)
| GetHandle (l : library)                   (* get_cublas_handle / get_cusparse_handle *)
| SetStream (l : library)                   (* cublasSetStream / cusparseSetStream (handle, stream of this task) *)
| LibCall (l : library) (ss : list step)    (* a cuBLAS / cuSPARSE call: enqueues its updates on the stream set on the handle *)
| Kernel (ss : list step)                   (* kernel<<<..., stream>>>: enqueues on the stream of this task *)
| Sync.                                     (* cudaStreamSynchronize(stream) *)

(** The variant of a point task that was chosen. *)
Inductive variant :=
| CpuBody                       (* any CPU variant, fill or copy *)
| ScalBody | AxpyBody | XpayBody
| DotBody (empty : bool)        (* the piece has no points *)
| CooMatvecBody
| CsrMatvecBody (convert : nat). (* how many of the updates belong to the row-pointer conversion *)

(** The bodies; [t] is the list of updates of the task. *)
Definition body (v : variant) (t : list step) : list call :=
  match v with
  | CpuBody => [Compute t]
  (* ScalTask / AxpyTask::cuda_task_body, LinearAlgebraTasks.cu:14-56, 59-111 *)
  | ScalBody | AxpyBody =>
      [GetHandle CUBLAS; SetStream CUBLAS] ++ match t with [] => [] | _ => [LibCall CUBLAS t] end
  (* XpayTask::cuda_task_body, LinearAlgebraTasks.cu:133-175 *)
  | XpayBody => match t with [] => [] | _ => [Kernel t] end
  (* DotTask::cuda_task_body, LinearAlgebraTasks.cu:178-234: an empty piece returns 0 without a call (line 210) *)
  | DotBody empty =>
      [GetHandle CUBLAS; SetStream CUBLAS] ++ (if empty then [Compute t] else [LibCall CUBLAS t; Sync])
  (* COOMatvecTask::cuda_task_body, COOMatrixTasks.cu:66-146 *)
  | CooMatvecBody =>
      [GetHandle CUSPARSE; SetStream CUSPARSE] ++ match t with [] => [] | _ => [LibCall CUSPARSE t] end
  (* CSRMatvecTask::cuda_task_body, CSRMatrixTasks.cu:72-149; the conversion kernel is CuSPARSEHelpers.hpp:75-79 *)
  | CsrMatvecBody n =>
      match t with
      | [] => []
      | _ => [GetHandle CUSPARSE; SetStream CUSPARSE; Kernel (firstn n t); LibCall CUSPARSE (skipn n t)]
      end
  end.

(** Where the point tasks run: task [j] of operation [i] has a processor, a stream handed out by Realm for this execution
    of the body (several tasks may get the same stream) and a variant. *)
Record machine := mk_machine {
  m_proc : nat -> nat -> processor;
  m_stream : nat -> nat -> nat;
  m_variant : nat -> nat -> variant }.
Definition on_device (m : machine) (i j : nat) : bool :=
  match proc_kind_of (m_proc m i j) with TOC_PROC => true | OTHER_PROC => false end.
(** CUDA variants run on GPUs and the others do not (the processor constraint of the registration,
    /repo/src/LegionUtilities.hpp:115-205). *)
Definition variants_match (m : machine) : Prop :=
  forall i j, m_variant m i j = CpuBody <-> proc_kind_of (m_proc m i j) = OTHER_PROC.

(** What is queued on a stream: updates, and the events with which Realm finds out that a task is complete. *)
Inductive item := Work (i j : nat) (a : step) | Marker (i j : nat).
Inductive status := Waiting | Running (rest : list call) | Returned | Complete.
Record state := mk_state {
  task_status : nat -> nat -> status;
  handle_stream : Z -> library -> nat;     (* the stream set on the handle of this slot and library *)
  queue : nat -> list item }.
Definition start_state : state := mk_state (fun _ _ => Waiting) (fun _ _ => 0) (fun _ => []).

Definition set_status (d : state) (i j : nat) (x : status) : state :=
  mk_state (fun i' j' => if (i' =? i) && (j' =? j) then x else task_status d i' j') (handle_stream d) (queue d).
Definition set_handle (d : state) (slot : Z) (l : library) (s : nat) : state :=
  mk_state (task_status d)
    (fun slot' l' => if (slot' =? slot)%Z && match l', l with CUBLAS, CUBLAS | CUSPARSE, CUSPARSE => true | _, _ => false end
                     then s else handle_stream d slot' l') (queue d).
Definition set_queue (d : state) (s : nat) (q : list item) : state :=
  mk_state (task_status d) (handle_stream d) (fun s' => if s' =? s then q else queue d s').
Definition enqueue (d : state) (s : nat) (q : list item) : state := set_queue d s (queue d s ++ q).

Variable bits : nat.   (* LEGION_MAX_NUM_PROCS = 2 ^ bits *)
Variable m : machine.
Variable ops : list op.

Definition task_of (i j : nat) : option (list step) :=
  match nth_error ops i with Some o => nth_error (o_tasks o) j | None => None end.
(** Legion starts a point task when all tasks of all earlier conflicting operations are complete. *)
Definition may_start (d : state) (i : nat) : Prop :=
  forall i' oi oi', i' < i -> nth_error ops i' = Some oi' -> nth_error ops i = Some oi -> conflict oi' oi ->
    forall j', j' < length (o_tasks oi') -> task_status d i' j' = Complete.
Definition processor_free (d : state) (i j : nat) : Prop :=
  forall i' j' rest, task_status d i' j' = Running rest -> m_proc m i' j' <> m_proc m i j.

(** One transition; the label is the update performed, if any. *)
Inductive move (d : state) : option (nat * step) -> state -> Prop :=
| mv_start i j t : task_of i j = Some t -> task_status d i j = Waiting -> may_start d i -> processor_free d i j ->
    move d None (set_status d i j (Running (body (m_variant m i j) t)))
| mv_compute i j a ss rest : task_status d i j = Running (Compute (a :: ss) :: rest) ->
    move d (Some (i, a)) (set_status d i j (Running (Compute ss :: rest)))
| mv_computed i j rest : task_status d i j = Running (Compute [] :: rest) ->
    move d None (set_status d i j (Running rest))
| mv_handle i j l rest slot : task_status d i j = Running (GetHandle l :: rest) ->
    library_context bits (m_proc m i j) = Ok slot ->
    move d None (set_status d i j (Running rest))
| mv_set_stream i j l rest slot : task_status d i j = Running (SetStream l :: rest) ->
    library_context bits (m_proc m i j) = Ok slot ->
    move d None (set_status (set_handle d slot l (m_stream m i j)) i j (Running rest))
| mv_library i j l ss rest slot : task_status d i j = Running (LibCall l ss :: rest) ->
    library_context bits (m_proc m i j) = Ok slot ->
    move d None (set_status (enqueue d (handle_stream d slot l) (map (Work i j) ss)) i j (Running rest))
| mv_kernel i j ss rest : task_status d i j = Running (Kernel ss :: rest) ->
    move d None (set_status (enqueue d (m_stream m i j) (map (Work i j) ss)) i j (Running rest))
| mv_sync i j rest : task_status d i j = Running (Sync :: rest) -> queue d (m_stream m i j) = [] ->
    move d None (set_status d i j (Running rest))
| mv_cpu_return i j : task_status d i j = Running [] -> on_device m i j = false ->
    move d None (set_status d i j Complete)
| mv_gpu_return i j : task_status d i j = Running [] -> on_device m i j = true ->
    move d None (set_status (enqueue d (m_stream m i j) [Marker i j]) i j Returned)
| mv_work s i j a q : queue d s = Work i j a :: q -> move d (Some (i, a)) (set_queue d s q)
| mv_marker s i j q : queue d s = Marker i j :: q -> move d None (set_status (set_queue d s q) i j Complete).

Definition performed (x : option (nat * step)) : list (nat * step) := match x with Some a => [a] | None => [] end.
(** [moves n tr d]: after [n] transitions from the start, with the updates [tr], the state is [d]. *)
Inductive moves : nat -> list (nat * step) -> state -> Prop :=
| ms_start : moves 0 [] start_state
| ms_move n tr d x d' : moves n tr d -> move d x d' -> moves (S n) (tr ++ performed x) d'.

Definition all_complete (d : state) : Prop := forall i j t, task_of i j = Some t -> task_status d i j = Complete.
End Streams.

