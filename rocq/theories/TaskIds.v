(** TaskIds: how LegionSolvers numbers, registers and looks up its Legion tasks
    (/repo/src/TaskIDs.hpp, /repo/src/TaskBaseClasses.hpp, /repo/src/Initialize.cpp,
    /repo/src/LegionSolversMapper.cpp:114-122, /repo/src/CudaLibs.hpp:35-36). *)
From Verif Require Import Base.
Local Open Scope Z_scope.

(** The coordinate types of Legion index spaces: int, unsigned, long long. *)
Inductive itype := S32 | U32 | S64.
(** The entry types: float, double. *)
Inductive etype := F32 | F64.

(** Compile-time configuration: /repo/src/LibraryOptions.hpp:10-14 (the LEGION_SOLVERS_USE_.. macros), :24-26
    (LEGION_SOLVERS_TASK_ID_ORIGIN), :44-46 (LEGION_SOLVERS_MAX_DIM). *)
Record config := mk_config {
  use_f32 : bool; use_f64 : bool;
  use_s32 : bool; use_u32 : bool; use_s64 : bool;
  max_dim : Z; id_origin : Z
}.

(** The configuration of the pinned commit (/repo/src/LibraryOptions.hpp:10-46). *)
Definition default_config : config := mk_config true true true true true 3 500000.

(** LEGION_SOLVERS_SUPPORTED_INDEX_TYPES: /repo/src/TaskBaseClasses.hpp:16-39 ([None] is [void]). *)
Definition index_types (c : config) : list (option itype) :=
  [ if use_s32 c then Some S32 else None;
    if use_u32 c then Some U32 else None;
    if use_s64 c then Some S64 else None;
    None ].

(** LEGION_SOLVERS_SUPPORTED_ENTRY_TYPES: /repo/src/TaskBaseClasses.hpp:43-55 (a disabled type is simply absent). *)
Definition entry_types (c : config) : list (option etype) :=
  (if use_f32 c then [Some F32] else []) ++ (if use_f64 c then [Some F64] else []) ++ [None].

(** ListIndex: /repo/src/MetaprogrammingUtilities.hpp:121-132.  [None]: no match, which does not compile. *)
Fixpoint list_index {A} (eqb : A -> A -> bool) (l : list (option A)) (x : A) : option Z :=
  match l with
  | [] => None
  | Some y :: r => if eqb x y then Some 0 else option_map (Z.add 1) (list_index eqb r x)
  | None :: r => option_map (Z.add 1) (list_index eqb r x)
  end.

Definition itype_eqb (a b : itype) : bool :=
  match a, b with S32, S32 | U32, U32 | S64, S64 => true | _, _ => false end.
Definition etype_eqb (a b : etype) : bool :=
  match a, b with F32, F32 | F64, F64 => true | _, _ => false end.

(** LEGION_SOLVERS_INDEX_TYPE_INDEX, LEGION_SOLVERS_ENTRY_TYPE_INDEX: /repo/src/TaskBaseClasses.hpp:58-64. *)
Definition index_type_index (c : config) (i : itype) : option Z := list_index itype_eqb (index_types c) i.
Definition entry_type_index (c : config) (t : etype) : option Z := list_index etype_eqb (entry_types c) t.

(** LEGION_SOLVERS_NUM_INDEX_TYPES(_k), LEGION_SOLVERS_NUM_ENTRY_TYPES, LEGION_SOLVERS_MAX_DIM_k,
    LEGION_SOLVERS_TASK_BLOCK_SIZE: /repo/src/TaskBaseClasses.hpp:66-91. *)
Definition num_index (c : config) : Z := Z.of_nat (length (index_types c)).
Definition num_entry (c : config) : Z := Z.of_nat (length (entry_types c)).
Definition num_index_0 (c : config) : Z := 1.
Definition num_index_1 (c : config) : Z := num_index c * num_index_0 c.
Definition num_index_2 (c : config) : Z := num_index c * num_index_1 c.
Definition num_index_3 (c : config) : Z := num_index c * num_index_2 c.
Definition max_dim_0 (c : config) : Z := 1.
Definition max_dim_1 (c : config) : Z := max_dim c * max_dim_0 c.
Definition max_dim_2 (c : config) : Z := max_dim c * max_dim_1 c.
Definition max_dim_3 (c : config) : Z := max_dim c * max_dim_2 c.
Definition block_size (c : config) : Z := num_entry c * max_dim_3 c * num_index_3 c.

(** TaskBlockID: /repo/src/TaskIDs.hpp:17-53 (the enumerators in order). *)
Inductive block :=
| PRINT_SCALAR | NEGATE_SCALAR | ADD_SCALAR | SUBTRACT_SCALAR | MULTIPLY_SCALAR | DIVIDE_SCALAR
| SQRT_SCALAR | RSQRT_SCALAR | DUMMY | PRINT_INDEX | RANDOM_FILL
| SCAL | AXPY | XPAY | DOT
| COO_MATVEC | COO_RMATVEC | COO_PRINT | CSR_MATVEC | CSR_RMATVEC | CSR_PRINT
| FILL_COO_LAPLACIAN | FILL_CSR_LAPLACIAN | FILL_CSR_LAPLACIAN_ROWPTR
| FILL_COO_STENCIL | FILL_CSR_STENCIL | FILL_LINEARIZED_COO_STENCIL | FILL_LINEARIZED_CSR_STENCIL.

Definition block_id (b : block) : Z :=
  match b with
  | PRINT_SCALAR => 0 | NEGATE_SCALAR => 1 | ADD_SCALAR => 2 | SUBTRACT_SCALAR => 3 | MULTIPLY_SCALAR => 4
  | DIVIDE_SCALAR => 5 | SQRT_SCALAR => 6 | RSQRT_SCALAR => 7 | DUMMY => 8 | PRINT_INDEX => 9 | RANDOM_FILL => 10
  | SCAL => 11 | AXPY => 12 | XPAY => 13 | DOT => 14
  | COO_MATVEC => 15 | COO_RMATVEC => 16 | COO_PRINT => 17 | CSR_MATVEC => 18 | CSR_RMATVEC => 19 | CSR_PRINT => 20
  | FILL_COO_LAPLACIAN => 21 | FILL_CSR_LAPLACIAN => 22 | FILL_CSR_LAPLACIAN_ROWPTR => 23
  | FILL_COO_STENCIL => 24 | FILL_CSR_STENCIL => 25 | FILL_LINEARIZED_COO_STENCIL => 26
  | FILL_LINEARIZED_CSR_STENCIL => 27
  end.

(** MetaTaskID: /repo/src/TaskIDs.hpp:9-14. *)
Definition LOAD_CUDA_LIBS : Z := 0.
Definition NUM_META_TASK_IDS : Z := 1.

(** Template arguments of a task class: the four base templates of /repo/src/TaskBaseClasses.hpp
    (TaskT :94-121, TaskDI :124-152, TaskTDI :175-222, TaskTDDDIII :251-319). *)
Inductive params :=
| PT (t : etype)
| PDI (n : Z) (i : itype)
| PTDI (t : etype) (n : Z) (i : itype)
| PTDDDIII (t : etype) (n1 n2 n3 : Z) (i1 i2 i3 : itype).

(** Which base template each task class derives from: UtilityTasks.hpp:14-119, LinearAlgebraTasks.hpp:12-50,
    COOMatrixTasks.hpp:10-70, CSRMatrixTasks.hpp:10-70, ExampleSystems.hpp:46-160, StencilGenerator.hpp:28-126. *)
Inductive shape := ShapeT | ShapeDI | ShapeTDI | ShapeTDDDIII.
Definition block_shape (b : block) : shape :=
  match b with
  | PRINT_SCALAR | NEGATE_SCALAR | ADD_SCALAR | SUBTRACT_SCALAR | MULTIPLY_SCALAR | DIVIDE_SCALAR
  | SQRT_SCALAR | RSQRT_SCALAR | DUMMY => ShapeT
  | PRINT_INDEX => ShapeDI
  | RANDOM_FILL | SCAL | AXPY | XPAY | DOT
  | FILL_COO_STENCIL | FILL_CSR_STENCIL | FILL_LINEARIZED_COO_STENCIL | FILL_LINEARIZED_CSR_STENCIL => ShapeTDI
  | COO_MATVEC | COO_RMATVEC | COO_PRINT | CSR_MATVEC | CSR_RMATVEC | CSR_PRINT
  | FILL_COO_LAPLACIAN | FILL_CSR_LAPLACIAN | FILL_CSR_LAPLACIAN_ROWPTR => ShapeTDDDIII
  end.
Definition params_shape (p : params) : shape :=
  match p with PT _ => ShapeT | PDI _ _ => ShapeDI | PTDI _ _ _ => ShapeTDI | PTDDDIII _ _ _ _ _ _ _ => ShapeTDDDIII end.

(** A task class with its template arguments. *)
Record task := mk_task { t_block : block; t_params : params }.

(** Legion::TaskID is unsigned int: arithmetic wraps modulo 2^32. *)
Definition u32 (x : Z) : Z := x mod 2 ^ 32.

(** The part common to the four formulas (e.g. /repo/src/TaskBaseClasses.hpp:101-102). *)
Definition block_origin (c : config) (b : block) : Z :=
  id_origin c + NUM_META_TASK_IDS + block_size c * block_id b.

(** task_id constants: /repo/src/TaskBaseClasses.hpp:100-103 (TaskT), :133-136 (TaskDI), :186-191 (TaskTDI),
    :267-283 (TaskTDDDIII).  [None]: a type is not enabled, so the constant does not compile. *)
Definition task_id (c : config) (x : task) : option Z :=
  match t_params x with
  | PT t =>
      match entry_type_index c t with
      | Some ti => Some (u32 (block_origin c (t_block x) + ti))
      | None => None
      end
  | PDI n i =>
      match index_type_index c i with
      | Some ii => Some (u32 (block_origin c (t_block x) + max_dim c * ii + (n - 1)))
      | None => None
      end
  | PTDI t n i =>
      match entry_type_index c t, index_type_index c i with
      | Some ti, Some ii =>
          Some (u32 (block_origin c (t_block x) + num_entry c * max_dim c * ii + num_entry c * (n - 1) + ti))
      | _, _ => None
      end
  | PTDDDIII t n1 n2 n3 i1 i2 i3 =>
      match entry_type_index c t, index_type_index c i1, index_type_index c i2, index_type_index c i3 with
      | Some ti, Some j1, Some j2, Some j3 =>
          Some (u32 (block_origin c (t_block x)
                     + num_index_3 c * num_entry c * max_dim_2 c * (n1 - 1)
                     + num_index_3 c * num_entry c * max_dim_1 c * (n2 - 1)
                     + num_index_3 c * num_entry c * max_dim_0 c * (n3 - 1)
                     + num_index_2 c * num_entry c * j1
                     + num_index_1 c * num_entry c * j2
                     + num_index_0 c * num_entry c * j3 + ti))
      | _, _, _, _ => None
      end
  end.

(** The id of the task that loads the CUDA libraries: /repo/src/CudaLibs.hpp:35-36. *)
Definition load_cuda_libs_id (c : config) : Z := u32 (id_origin c + LOAD_CUDA_LIBS).

(** An index space as far as task lookup is concerned: its dimension and coordinate type. *)
Record ispace := mk_ispace { sp_dim : Z; sp_type : itype }.
(** Legion's type tag (run-time contract: 256 * dimension + the position of the coordinate type in
    int, unsigned, long long). *)
Definition legion_type_code (i : itype) : Z := match i with S32 => 0 | U32 => 1 | S64 => 2 end.
Definition type_tag (s : ispace) : Z := 256 * sp_dim s + legion_type_code (sp_type s).

(** Run-time lookup: TaskDI<..,0,void>::task_id(index_space) /repo/src/TaskBaseClasses.hpp:158-172. *)
Definition task_id_rt_di (c : config) (b : block) (s : ispace) : Z :=
  u32 (block_origin c b + max_dim c * (type_tag s - 256 * sp_dim s) + (sp_dim s - 1)).
(** TaskTDI<..,T,0,void>::task_id(index_space): /repo/src/TaskBaseClasses.hpp:232-248. *)
Definition task_id_rt_tdi (c : config) (b : block) (t : etype) (s : ispace) : option Z :=
  match entry_type_index c t with
  | Some ti => Some (u32 (block_origin c b
                          + num_entry c * max_dim c * (type_tag s - 256 * sp_dim s)
                          + num_entry c * (sp_dim s - 1) + ti))
  | None => None
  end.
(** TaskTDDDIII<..,T,0,0,0,void,void,void>::task_id(kernel, domain, range):
    /repo/src/TaskBaseClasses.hpp:329-369. *)
Definition task_id_rt_tdddiii (c : config) (b : block) (t : etype) (k d r : ispace) : option Z :=
  match entry_type_index c t with
  | Some ti => Some (u32 (block_origin c b
                     + num_index_3 c * num_entry c * max_dim_2 c * (sp_dim k - 1)
                     + num_index_3 c * num_entry c * max_dim_1 c * (sp_dim d - 1)
                     + num_index_3 c * num_entry c * max_dim_0 c * (sp_dim r - 1)
                     + num_index_2 c * num_entry c * (type_tag k - 256 * sp_dim k)
                     + num_index_1 c * num_entry c * (type_tag d - 256 * sp_dim d)
                     + num_index_0 c * num_entry c * (type_tag r - 256 * sp_dim r) + ti))
  | None => None
  end.

(** LegionSolversMapper::is_task: /repo/src/LegionSolversMapper.cpp:114-122. *)
Definition is_task (c : config) (id : Z) (b : block) : bool :=
  (u32 (block_origin c b) <=? id) && (id <? u32 (u32 (block_origin c b) + block_size c)).

(** preregister_tasks: /repo/src/Initialize.cpp:68-485. *)
Definition guard {A} (b : bool) (l : list A) : list A := if b then l else [].
Definition dims_registered (c : config) : list Z :=
  guard (1 <=? max_dim c) [1] ++ guard (2 <=? max_dim c) [2] ++ guard (3 <=? max_dim c) [3].
Definition itypes_registered (c : config) : list itype :=
  guard (use_s32 c) [S32] ++ guard (use_u32 c) [U32] ++ guard (use_s64 c) [S64].
Definition etypes_registered (c : config) : list etype :=
  guard (use_f32 c) [F32] ++ guard (use_f64 c) [F64].

(** Initialize.cpp:77-98. *)
Definition registered_scalar (c : config) : list task :=
  flat_map (fun t => map (fun b => mk_task b (PT t))
    [PRINT_SCALAR; NEGATE_SCALAR; ADD_SCALAR; SUBTRACT_SCALAR; MULTIPLY_SCALAR; DIVIDE_SCALAR;
     SQRT_SCALAR; RSQRT_SCALAR; DUMMY]) (etypes_registered c).
(** Initialize.cpp:99-131. *)
Definition registered_print_index (c : config) : list task :=
  flat_map (fun i => map (fun n => mk_task PRINT_INDEX (PDI n i)) (dims_registered c)) (itypes_registered c).
(** Initialize.cpp:132-202 (RandomFill), 204-328 (linear algebra), 330-454 (stencil fills). *)
Definition registered_tdi (c : config) : list task :=
  flat_map (fun b => flat_map (fun t => flat_map (fun i => map (fun n => mk_task b (PTDI t n i))
    (dims_registered c)) (itypes_registered c)) (etypes_registered c))
    [RANDOM_FILL; SCAL; AXPY; XPAY; DOT;
     FILL_COO_STENCIL; FILL_CSR_STENCIL; FILL_LINEARIZED_COO_STENCIL; FILL_LINEARIZED_CSR_STENCIL].
(** Initialize.cpp:456-482 ("TODO: proper guards": unconditional). *)
Definition kdr (b : block) (t : etype) (n : Z) : task := mk_task b (PTDDDIII t 1 n n S64 S64 S64).
Definition registered_matrix : list task :=
  flat_map (fun t =>
    [kdr FILL_COO_LAPLACIAN t 1; kdr FILL_CSR_LAPLACIAN t 1; kdr FILL_CSR_LAPLACIAN_ROWPTR t 1;
     kdr COO_MATVEC t 1; kdr COO_RMATVEC t 1; kdr COO_PRINT t 1; kdr COO_PRINT t 2; kdr COO_PRINT t 3;
     kdr CSR_MATVEC t 1; kdr CSR_RMATVEC t 1; kdr CSR_PRINT t 1; kdr CSR_PRINT t 2; kdr CSR_PRINT t 3])
    [F32; F64].
Definition registered (c : config) : list task :=
  registered_scalar c ++ registered_print_index c ++ registered_tdi c ++ registered_matrix.

(** The id launched by a vector operation on a vector over [s]: /repo/src/PartitionedVector.cpp:197-355
    (b = SCAL, AXPY, XPAY or DOT). *)
Definition vector_launch_id (c : config) (b : block) (t : etype) (s : ispace) : option Z := task_id_rt_tdi c b t s.
(** The id launched by COOMatrix::matvec / CSRMatrix::matvec (/repo/src/COOMatrix.cpp:157-163,
    /repo/src/CSRMatrix.cpp:170-176) and by print (/repo/src/COOMatrix.cpp:202-206, /repo/src/CSRMatrix.cpp:224-228). *)
Definition matrix_launch_id (c : config) (b : block) (t : etype) (k d r : ispace) : option Z :=
  task_id_rt_tdddiii c b t k d r.
