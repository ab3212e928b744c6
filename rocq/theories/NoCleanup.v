(** NoCleanup: the library compiled with LEGION_SOLVERS_DISABLE_CLEANUP.

    With that macro every call of a [destroy_*] function in the library and in the programs in test/
    disappears (src/PartitionedVector.cpp:121-127, src/COOMatrix.cpp:48-52, src/CSRMatrix.cpp:57-64,
    src/SquarePlanner.hpp:70-93, src/ExampleSystems.cpp:97-102 and 236-246, src/LegionUtilities.cpp:65-68,
    test/Test02VectorOperations.cpp:140, test/Test03COOPartitioning.cpp:70, test/Test04CSRPartitioning.cpp:70,
    test/Test05COOSolveCG.cpp:90, test/Test06CSRSolveCG.cpp:88, test/BenchmarkStencil.cpp:373).  Everything
    else is the code of Ownership.v; the functions below are those that contain such calls, or call one
    that does, with the calls gone.  A client is assumed to put its own destroy calls under the macro
    too, as the programs in test/ do. *)
Require Import List Arith Bool Lia.
From Verif Require Import Ownership.
Import ListNotations.
Set Implicit Arguments.

(** src/PartitionedVector.cpp:120-128, src/COOMatrix.cpp:47-53, src/CSRMatrix.cpp:56-65. *)
Definition vec_dtor_off (v : vec) : rt unit := ret tt.
Definition mat_dtor_off (m : mat) : rt unit := ret tt.

(** [std::vector] growth, as in Ownership.v; the old elements' destructor does nothing. *)
Definition push_back_off (grow : bool) (l : list vec) (v : vec) : rt (list vec) :=
  let* v' := vec_copy v in
  if grow then
    let* l' := mapM vec_copy l in
    iterM vec_dtor_off l ;; ret (l' ++ [v'])
  else ret (l ++ [v']).
Definition emplace_back_off (grow : bool) (l : list vec) (lp : region * nat) : rt (list vec) :=
  let* v' := vec_ctor_logical lp in
  if grow then
    let* l' := mapM vec_copy l in
    iterM vec_dtor_off l ;; ret (l' ++ [v'])
  else ret (l ++ [v']).

(** src/SquarePlanner.hpp:99-124 and 126-151. *)
Definition add_sol_vector_off (grow : bool) (p : planner) (v : vec) : rt planner :=
  assert_ (is_none (p_wfields p)) ;; assert_ (is_nil (p_wregions p)) ;;
  assert_ (is_nil (p_wparts p)) ;; assert_ (is_nil (p_work p)) ;;
  let idx := length (p_sol p) in
  let* sps := canonical (p_spaces p) idx (v_space v) in
  let* pts := canonical (p_parts p) idx (v_part v) in
  let* sol := push_back_off grow (p_sol p) v in
  ret (Planner sps pts (p_wfields p) (p_wregions p) (p_wparts p) sol (p_rhs p) (p_work p) (p_mats p)).
Definition add_rhs_vector_off (grow : bool) (p : planner) (v : vec) : rt planner :=
  assert_ (is_none (p_wfields p)) ;; assert_ (is_nil (p_wregions p)) ;;
  assert_ (is_nil (p_wparts p)) ;; assert_ (is_nil (p_work p)) ;;
  let idx := length (p_rhs p) in
  let* sps := canonical (p_spaces p) idx (v_space v) in
  let* pts := canonical (p_parts p) idx (v_part v) in
  let* rhs := push_back_off grow (p_rhs p) v in
  ret (Planner sps pts (p_wfields p) (p_wregions p) (p_wparts p) (p_sol p) rhs (p_work p) (p_mats p)).

(** src/SquarePlanner.hpp:153-188. *)
Fixpoint workspace_row_off (grow : nat -> bool) (j : nat) (rows : list (list vec)) (lp : region * nat)
  : rt (list (list vec)) :=
  match rows with
  | [] => ret []
  | row :: rows' =>
      let* row' := emplace_back_off (grow j) row lp in
      let* rest := workspace_row_off grow (S j) rows' lp in
      ret (row' :: rest)
  end.
Fixpoint workspace_loop_off (grow : nat -> nat -> bool) (i : nat) (wf : nat) (sps pts : list nat)
         (regs : list region) (lps : list (region * nat)) (rows : list (list vec))
  : rt (list region * list (region * nat) * list (list vec)) :=
  match sps, pts with
  | sp :: sps', pt :: pts' =>
      let* r := rt_create_logical_region sp wf in
      let* lp := rt_logical_partition r pt in
      let* rows' := workspace_row_off (grow i) 0 rows lp in
      workspace_loop_off grow (S i) wf sps' pts' (regs ++ [r]) (lps ++ [lp]) rows'
  | _, _ => ret (regs, lps, rows)
  end.
Definition allocate_workspace_off (grow : nat -> nat -> bool) (p : planner) (num_vectors : nat) : rt planner :=
  assert_ (is_none (p_wfields p)) ;; assert_ (is_nil (p_wregions p)) ;;
  assert_ (is_nil (p_wparts p)) ;; assert_ (is_nil (p_work p)) ;;
  assert_ (length (p_spaces p) =? length (p_parts p)) ;;
  let* wf := rt_create_field_space in
  let* (regs, lps, rows) :=
    workspace_loop_off grow 0 wf (p_spaces p) (p_parts p) [] [] (repeat [] num_vectors) in
  ret (Planner (p_spaces p) (p_parts p) (Some wf) regs lps (p_sol p) (p_rhs p) rows (p_mats p)).

(** src/SquarePlanner.hpp:69-94: the body disappears; the member vectors are still destroyed. *)
Definition planner_dtor_off (p : planner) : rt unit :=
  iterM (iterM vec_dtor_off) (p_work p) ;;
  iterM vec_dtor_off (p_rhs p) ;;
  iterM vec_dtor_off (p_sol p).

(** src/ExampleSystems.cpp:18-105 and 109-249. *)
Definition coo_negative_laplacian_off (launch_space : nat) : rt mat :=
  let* ks := rt_create_index_space in
  let* fs := rt_create_field_space in
  let* kr := rt_create_logical_region ks fs in
  let* kp := rt_create_partition ks launch_space in
  rt_logical_partition kr kp ;;
  let* m := coo_ctor kr in
  ret m.
Definition csr_negative_laplacian_off (launch_space : nat) : rt mat :=
  let* ks := rt_create_index_space in
  let* kf := rt_create_field_space in
  let* kr := rt_create_logical_region ks kf in
  let* kp := rt_create_partition ks launch_space in
  rt_logical_partition kr kp ;;
  let* rs := rt_create_index_space in
  let* rf := rt_create_field_space in
  let* rr := rt_create_logical_region rs rf in
  let* rp := rt_create_partition rs launch_space in
  rt_logical_partition rr rp ;;
  let* m := csr_ctor kr rr in
  ret m.

(** src/LegionUtilities.cpp:24-69. *)
Definition print_index_partition_off (p : nat) : rt unit :=
  let* cs := rt_color_space p in
  need cs ;;
  let* fs := rt_create_field_space in
  let* is := rt_parent_space p in
  let* r := rt_create_logical_region is fs in
  rt_logical_partition r p ;;
  ret tt.

Definition dtor_off (x : cobj) : rt unit :=
  match x with CVec v => vec_dtor_off v | CMat m => mat_dtor_off m | CPlan p => planner_dtor_off p end.

(** One step of the client, as in Ownership.v. *)
Definition step_off (c : client) (a : action) : cres :=
  let vec_of n k := match lookup n (c_env c) with Some (CVec v) => k v | _ => COk c end in
  let plan_of n k := match lookup n (c_env c) with Some (CPlan p) => k p | _ => COk c end in
  match a with
  | ADropSpace o | ADropFields o | ADropPartition o => COk (take_user c o (c_rt c))
  | ADropRegion r => COk (take_user c (rg_id r) (c_rt c))
  | AAddSol g n v => plan_of n (fun p => vec_of v (fun x =>
      run (add_sol_vector_off g p x) c (fun p' s => set_obj c n (CPlan p') s)))
  | AAddRhs g n v => plan_of n (fun p => vec_of v (fun x =>
      run (add_rhs_vector_off g p x) c (fun p' s => set_obj c n (CPlan p') s)))
  | AAlloc g n k => plan_of n (fun p =>
      run (allocate_workspace_off g p k) c (fun p' s => set_obj c n (CPlan p') s))
  | ADelete n =>
      match lookup n (c_env c) with
      | Some x => run (dtor_off x) c (fun _ s => del_obj c n s)
      | None => COk c
      end
  | ALaplacianCoo ls => run (coo_negative_laplacian_off ls) c (fun m s => new_obj c (CMat m) s)
  | ALaplacianCsr ls => run (csr_negative_laplacian_off ls) c (fun m s => new_obj c (CMat m) s)
  | APrint p => run (print_index_partition_off p) c (fun _ s => Client s (c_user c) (c_env c) (c_lost c) (c_fresh c))
  | _ => step c a       (* nothing in these actions is under the macro *)
  end.

Fixpoint run_history_off (c : client) (h : list action) : cres :=
  match h with
  | [] => COk c
  | a :: h' => match step_off c a with COk c' => run_history_off c' h' | r => r end
  end.
