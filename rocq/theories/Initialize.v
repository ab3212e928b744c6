(** Initialize: LegionSolvers::initialize (/repo/src/Initialize.cpp:20-485): what it prints, and the task variants it registers with Legion, with the
    names they get (/repo/src/TaskBaseClasses.hpp, /repo/src/MetaprogrammingUtilities.hpp:20-53).
    SIMPLIFICATION: a variant is recorded with its task, not with its function pointer; a configuration whose task ids do not compile (an entry or index type
    that is used but not enabled) is [None]. *)
From Coq Require Import String List ZArith Bool.
From Verif Require Import Base TaskIds TaskFlags TestAll.
Import ListNotations.
Set Implicit Arguments.
Local Open Scope string_scope.

(** ToString: /repo/src/MetaprogrammingUtilities.hpp:25-53 *)
Definition entry_name (t : etype) : string := match t with F32 => "float" | F64 => "double" end.
Definition index_name (i : itype) : string := match i with S32 => "int" | U32 => "unsigned" | S64 => "longlong" end.

(** task_base_name: UtilityTasks.hpp:16-117, LinearAlgebraTasks.hpp:14-47, COOMatrixTasks.hpp:16-52, CSRMatrixTasks.hpp:16-50, ExampleSystems.hpp:65-139,
    StencilGenerator.hpp:37-120 *)
Definition task_base_name (b : block) : string :=
  match b with
  | PRINT_SCALAR => "print_scalar" | NEGATE_SCALAR => "negate_scalar" | ADD_SCALAR => "add_scalar" | SUBTRACT_SCALAR => "subtract_scalar"
  | MULTIPLY_SCALAR => "multiply_scalar" | DIVIDE_SCALAR => "divide_scalar" | SQRT_SCALAR => "sqrt_scalar" | RSQRT_SCALAR => "rsqrt_scalar"
  | DUMMY => "dummy" | PRINT_INDEX => "print_index" | RANDOM_FILL => "random_fill"
  | SCAL => "scal" | AXPY => "axpy" | XPAY => "xpay" | DOT => "dot_product"
  | COO_MATVEC => "coo_matvec" | COO_RMATVEC => "coo_rmatvec" | COO_PRINT => "coo_print"
  | CSR_MATVEC => "csr_matvec" | CSR_RMATVEC => "csr_rmatvec" | CSR_PRINT => "csr_print"
  | FILL_COO_LAPLACIAN => "fill_coo_negative_laplacian" | FILL_CSR_LAPLACIAN => "fill_csr_negative_laplacian"
  | FILL_CSR_LAPLACIAN_ROWPTR => "fill_csr_negative_laplacian_rowptr"
  | FILL_COO_STENCIL => "fill_coo_stencil" | FILL_CSR_STENCIL => "fill_csr_stencil"
  | FILL_LINEARIZED_COO_STENCIL => "fill_linearized_coo_stencil" | FILL_LINEARIZED_CSR_STENCIL => "fill_linearized_csr_stencil"
  end.

(** task_name(): /repo/src/TaskBaseClasses.hpp:105-108 (TaskT), 138-141 (TaskDI), 194-198 (TaskTDI), 284-291 (TaskTDDDIII: the three dimensions are
    written one after the other, without a separator) *)
Definition task_name (x : task) : string :=
  task_base_name (t_block x) ++
  match t_params x with
  | PT t => "_" ++ entry_name t
  | PDI n i => "_" ++ decimal n ++ "_" ++ index_name i
  | PTDI t n i => "_" ++ entry_name t ++ "_" ++ decimal n ++ "_" ++ index_name i
  | PTDDDIII t n1 n2 n3 i1 i2 i3 =>
      "_" ++ entry_name t ++ "_" ++ decimal n1 ++ decimal n2 ++ decimal n3 ++ "_" ++ index_name i1 ++ "_" ++ index_name i2 ++ "_" ++ index_name i3
  end.

(** The processor kind of a variant. *)
Inductive proc := LOC_PROC | TOC_PROC.
(** What [initialize] does: lines on standard output, and calls of the Legion runtime. *)
Inductive action :=
| Says (line : string)
| AddMapperCallback
| ShardingFunctor (id : Z)
| Variant (id : Z) (name : string) (kind : proc) (flags : registrar).

(** preregister_task: /repo/src/LegionUtilities.hpp:178-206 *)
Definition register_line (name : string) (id : Z) : string := "[LegionSolvers] Registering task " ++ name ++ " with ID " ++ decimal id ++ ".".
Definition register_variant (verbose : bool) (id : Z) (name : string) (kind : proc) (flags : registrar) : list action :=
  ((if verbose then [Says (register_line name id)] else []) ++ [Variant id name kind flags])%list.

(** HasCUDAVariant: which classes declare cuda_task_body with LEGION_SOLVERS_DECLARE_CUDA_TASK: LinearAlgebraTasks.hpp:18, 29, 40, 51,
    COOMatrixTasks.hpp:25, 43, CSRMatrixTasks.hpp:24, 41 *)
Definition has_cuda_variant (b : block) : bool :=
  match b with SCAL | AXPY | XPAY | DOT | COO_MATVEC | COO_RMATVEC | CSR_MATVEC | CSR_RMATVEC => true | _ => false end.

(** How the library is compiled: the configuration and LEGION_USE_CUDA, REALM_USE_KOKKOS. *)
Record build := mk_build { b_config : config; b_cuda : bool; b_kokkos : bool }.
(** #if defined(LEGION_USE_CUDA) && !defined(REALM_USE_KOKKOS) *)
Definition own_gpu_code (b : build) : bool := b_cuda b && negb (b_kokkos b).

(** preregister(): TaskBaseClasses.hpp:110-119 (TaskT), 143-151 (TaskDI), 200-222 (TaskTDI), 293-318 (TaskTDDDIII) *)
Definition preregister (b : build) (verbose : bool) (x : task) : option (list action) :=
  match task_id (b_config b) x with
  | None => None
  | Some id =>
      let flags := registrar_of (t_block x) in
      Some (register_variant verbose id (task_name x) LOC_PROC flags ++
            match t_params x with
            | PT _ | PDI _ _ => []
            | PTDI _ _ _ | PTDDDIII _ _ _ _ _ _ _ =>
                if own_gpu_code b && has_cuda_variant (t_block x) then register_variant verbose id (task_name x) TOC_PROC flags else []
            end)%list
  end.
Fixpoint preregister_all (b : build) (verbose : bool) (xs : list task) : option (list action) :=
  match xs with
  | [] => Some []
  | x :: rest =>
      match preregister b verbose x, preregister_all b verbose rest with
      | Some a, Some r => Some (a ++ r)%list
      | _, _ => None
      end
  end.

(** LoadCUDALibsTask::preregister: /repo/src/CudaLibs.cu:22-37 *)
Definition preregister_load_cuda_libs (b : build) (verbose : bool) : list action :=
  register_variant verbose (load_cuda_libs_id (b_config b)) "load_cuda_libs" TOC_PROC (mk_registrar true false false false).

(** The order of the preregister calls: Initialize.cpp:77-98 *)
Definition scalar_calls (c : config) : list task :=
  flat_map (fun t => map (fun b => mk_task b (PT t))
    [PRINT_SCALAR; NEGATE_SCALAR; ADD_SCALAR; SUBTRACT_SCALAR; MULTIPLY_SCALAR; DIVIDE_SCALAR; SQRT_SCALAR; RSQRT_SCALAR; DUMMY]) (etypes_registered c).
(** Initialize.cpp:99-131 *)
Definition print_index_calls (c : config) : list task :=
  flat_map (fun i => map (fun n => mk_task PRINT_INDEX (PDI n i)) (dims_registered c)) (itypes_registered c).
(** Initialize.cpp:132-202 (one task class), 204-328 (four), 330-454 (four): for every entry type, index type and dimension, the classes in turn *)
Definition tdi_calls (c : config) (blocks : list block) : list task :=
  flat_map (fun t => flat_map (fun i => flat_map (fun n => map (fun b => mk_task b (PTDI t n i)) blocks) (dims_registered c)) (itypes_registered c)) (etypes_registered c).
(** Initialize.cpp:456-482 *)
Definition matrix_calls : list task :=
  [kdr FILL_COO_LAPLACIAN F32 1; kdr FILL_COO_LAPLACIAN F64 1; kdr FILL_CSR_LAPLACIAN F32 1; kdr FILL_CSR_LAPLACIAN F64 1;
   kdr FILL_CSR_LAPLACIAN_ROWPTR F32 1; kdr FILL_CSR_LAPLACIAN_ROWPTR F64 1;
   kdr COO_MATVEC F32 1; kdr COO_RMATVEC F32 1; kdr COO_PRINT F32 1; kdr COO_PRINT F32 2; kdr COO_PRINT F32 3;
   kdr COO_MATVEC F64 1; kdr COO_RMATVEC F64 1; kdr COO_PRINT F64 1; kdr COO_PRINT F64 2; kdr COO_PRINT F64 3;
   kdr CSR_MATVEC F32 1; kdr CSR_RMATVEC F32 1; kdr CSR_PRINT F32 1; kdr CSR_PRINT F32 2; kdr CSR_PRINT F32 3;
   kdr CSR_MATVEC F64 1; kdr CSR_RMATVEC F64 1; kdr CSR_PRINT F64 1; kdr CSR_PRINT F64 2; kdr CSR_PRINT F64 3].
Definition preregister_calls (c : config) : list task :=
  (scalar_calls c ++ print_index_calls c ++ tdi_calls c [RANDOM_FILL] ++ tdi_calls c [SCAL; AXPY; XPAY; DOT] ++
   tdi_calls c [FILL_COO_STENCIL; FILL_CSR_STENCIL; FILL_LINEARIZED_COO_STENCIL; FILL_LINEARIZED_CSR_STENCIL] ++ matrix_calls)%list.

(** Initialize.cpp:22-66 *)
Definition info_lines (b : build) : list string :=
  let c := b_config b in
  (["[LegionSolvers] Initializing library...";
    if b_cuda b then "[LegionSolvers] CUDA support enabled." else "[LegionSolvers] CUDA support disabled.";
    if b_kokkos b then "[LegionSolvers] Kokkos support enabled." else "[LegionSolvers] Kokkos support disabled.";
    "[LegionSolvers] Supported entry types:"] ++
   guard (use_f32 c) ["[LegionSolvers]   * 32-bit floating-point"] ++ guard (use_f64 c) ["[LegionSolvers]   * 64-bit floating-point"] ++
   ["[LegionSolvers] Supported index types:"] ++
   guard (use_s32 c) ["[LegionSolvers]   * signed 32-bit integer"] ++ guard (use_u32 c) ["[LegionSolvers]   * unsigned 32-bit integer"] ++
   guard (use_s64 c) ["[LegionSolvers]   * signed 64-bit integer"] ++
   ["[LegionSolvers] Supported dimensions:"] ++
   guard (1 <=? max_dim c)%Z ["[LegionSolvers]   * 1"] ++ guard (2 <=? max_dim c)%Z ["[LegionSolvers]   * 2"] ++ guard (3 <=? max_dim c)%Z ["[LegionSolvers]   * 3"])%list.

(** LEGION_SOLVERS_SHARDING_FUNCTOR_ID: /repo/src/LibraryOptions.hpp:34-36 *)
Definition SHARDING_FUNCTOR_ID : Z := 2000.
(** initialize: Initialize.cpp:20-485 *)
Definition initialize (b : build) (print_info verbose : bool) : option (list action) :=
  match preregister_all b verbose (preregister_calls (b_config b)) with
  | None => None
  | Some registrations =>
      Some (guard print_info (map Says (info_lines b)) ++ [AddMapperCallback; ShardingFunctor SHARDING_FUNCTOR_ID] ++ registrations ++
            guard (own_gpu_code b) (preregister_load_cuda_libs b verbose))%list
  end.
