(** OwnershipPrograms: the handles that the programs in test/ create and release, call by call.

    Handle numbers are those the runtime gives out in order of creation (0, 1, ...); C++ objects are
    numbered likewise.  The comments name the C++ variables.  Solver steps, fills, dot products,
    fences, futures and traces create no handles and are not listed. *)
Require Import List Arith Bool ZArith.
From Verif Require Import Ownership.
Import ListNotations.
Set Implicit Arguments.

(** test/Test02VectorOperations.cpp:104-145, one test task. *)
Definition test02_handles : list action :=
  [ ASpace;                       (* 0: index_space *)
    ASpace;                       (* 1: color_space *)
    APartition 0 1;               (* 2: index_partition *)
    AVec 2; AVec 2; AVec 2;       (* objects 0, 1, 2: u, v, w *)
    ADelete 2; ADelete 1; ADelete 0;   (* end of the inner scope: w, v, u *)
    ADropPartition 2; ADropSpace 1; ADropSpace 0 ].

(** test/Test03COOPartitioning.cpp:27-79. *)
Definition test03_handles : list action :=
  [ ASpace;                       (* 0: color_space *)
    ALaplacianCoo 0;              (* object 0: coo_matrix (kernel space 1, fields 2, region 3; partition 4, released) *)
    ASpace;                       (* 5: domain_space *)
    ASpace;                       (* 6: range_space *)
    APartition 6 0;               (* 7: range_partition *)
    APrint 7;                     (* 8, 9, released *)
    AKernelFromRange 0 7;         (* 10: matrix_partition *)
    APrint 10;                    (* 11, 12, released *)
    ADomainFromKernel 0 5 10;     (* 13: domain_partition *)
    APrint 13;                    (* 14, 15, released *)
    ADropPartition 13; ADropPartition 10; ADropPartition 7;
    ADropSpace 0; ADropSpace 6; ADropSpace 5;
    ADelete 0 ].                  (* end of the function: coo_matrix *)

(** test/Test04CSRPartitioning.cpp:27-78.  range_space is the index space of the matrix's row
    pointers, which the program does not own. *)
Definition test04_handles : list action :=
  [ ASpace;                       (* 0: color_space *)
    ALaplacianCsr 0;              (* object 0: csr_matrix (kernel 1, 2, 3; row pointers 5, 6, 7; partitions 4, 8, released) *)
    ASpace;                       (* 9: domain_space *)
    APartition 5 0;               (* 10: range_partition *)
    APrint 10;                    (* 11, 12, released *)
    AKernelFromRange 0 10;        (* 13: matrix_partition *)
    APrint 13;                    (* 14, 15, released *)
    ADomainFromKernel 0 9 13;     (* 16: domain_partition *)
    APrint 16;                    (* 17, 18, released *)
    ADropPartition 16; ADropPartition 13; ADropPartition 10;
    ADropSpace 0; ADropSpace 9;
    ADelete 0 ].                  (* end of the function: csr_matrix *)

(** test/Test05COOSolveCG.cpp:49-95.  [g1], [g2] and [gw]: whether the vectors inside the planner had
    to grow.  The CG solver (src/CGSolver.hpp:40) asks for three workspace vectors. *)
Definition test05_setup (g1 g2 : bool) : list action :=
  [ ASpace;                       (* 0: vector_index_space *)
    ASpace;                       (* 1: vector_color_space *)
    APartition 0 1;               (* 2: disjoint_vector_partition *)
    ALaplacianCoo 1;              (* object 0: coo_matrix *)
    AVec 2;                       (* object 1: rhs *)
    AVec 2;                       (* object 2: sol *)
    APlanner;                     (* object 3: planner *)
    AAddSol g1 3 2; AAddRhs g2 3 1; AAddMat 3 0 0 0 ].
Definition test05_teardown : list action :=
  [ ADropPartition 2; ADropSpace 0; ADropSpace 1;
    ADelete 3; ADelete 2; ADelete 1; ADelete 0 ].   (* end of the function: planner, sol, rhs, coo_matrix *)
Definition test05_handles (g1 g2 : bool) (gw : nat -> nat -> bool) : list action :=
  test05_setup g1 g2 ++ [AAlloc gw 3 3] ++ test05_teardown.

(** test/Test06CSRSolveCG.cpp:49-92. *)
Definition test06_setup (g1 g2 : bool) : list action :=
  [ ASpace;                       (* 0: vector_color_space *)
    ALaplacianCsr 0;              (* object 0: csr_matrix; its row pointers are over space 5 *)
    APartition 5 0;               (* 9: disjoint_vector_partition *)
    AVec 9;                       (* object 1: rhs *)
    AVec 9;                       (* object 2: sol *)
    APlanner;                     (* object 3: planner *)
    AAddSol g1 3 2; AAddRhs g2 3 1; AAddMat 3 0 0 0 ].
Definition test06_teardown : list action :=
  [ ADropPartition 9; ADropSpace 0;
    ADelete 3; ADelete 2; ADelete 1; ADelete 0 ].
Definition test06_handles (g1 g2 : bool) (gw : nat -> nat -> bool) : list action :=
  test06_setup g1 g2 ++ [AAlloc gw 3 3] ++ test06_teardown.

(** test/BenchmarkStencil.cpp:24-135 (get_laplacian_matrix) and 165-377.  Every dimension calls
    create_linearized_csr_stencil_matrix once.  [result] is returned by value: the compiler may build
    it in place or copy it and destroy the local ([copied]); afterwards the matrix has number [m]. *)
Definition benchmark_matrix (copied : bool) : list action :=
  AStencilCsr :: (if copied then [AMatCopy 0; ADelete 0] else []).
Definition benchmark_setup (copied g1 g2 g3 g4 : bool) : list action :=
  let m := if copied then 1 else 0 in
  benchmark_matrix copied ++
  [ ASpace;                       (* 9: color_space *)
    APartition 1 9;               (* 10: equal_partition, of the space of the row pointers *)
    AVec 10; AVec 10;             (* m+1, m+2: rhs, rhs1 *)
    AVec 10; AVec 10;             (* m+3, m+4: sol, sol1 *)
    APlanner;                     (* m+5: planner *)
    AAddSol g1 (m + 5) (m + 3); AAddSol g2 (m + 5) (m + 4);
    AAddRhs g3 (m + 5) (m + 1); AAddRhs g4 (m + 5) (m + 2);
    AAddMat (m + 5) m 0 0; AAddMat (m + 5) m 1 1 ].
(** -solver: src/CGSolver.hpp:40, src/BiCGStabSolver.hpp:54, src/GMRESSolver.hpp:44 with restart 10;
    any other value builds no solver. *)
Definition benchmark_solver (solver : Z) (gw : nat -> nat -> bool) (planner : nat) : list action :=
  if (solver =? 1)%Z then [AAlloc gw planner 3]
  else if (solver =? 2)%Z then [AAlloc gw planner 5]
  else if (solver =? 3)%Z then [AAlloc gw planner (10 + 1)]
  else [].
Definition benchmark_teardown (copied : bool) : list action :=
  let m := if copied then 1 else 0 in
  [ ADropPartition 10; ADropSpace 9;
    ADelete (m + 5); ADelete (m + 4); ADelete (m + 3); ADelete (m + 2); ADelete (m + 1); ADelete m ].
Definition benchmark_handles (copied g1 g2 g3 g4 : bool) (solver : Z) (gw : nat -> nat -> bool) : list action :=
  benchmark_setup copied g1 g2 g3 g4
  ++ benchmark_solver solver gw ((if copied then 1 else 0) + 5)
  ++ benchmark_teardown copied.
