(** Ownership: which Legion objects the C++ handle classes acquire and release.

    Legion counts, for every index space, field space, logical region and index
    partition, how many owners it has: [create_*] makes an object with one owner,
    [create_shared_ownership] adds one, [destroy_*] removes one, and the object is
    released when the last owner is gone.  [destroy_index_space] is called by the
    library with its default [recurse = true], which also releases the partitions
    of the index space when the space itself is released.  Using a released (or
    never created) object is an error of the calling program.

    Trusted model of the runtime: [rt_*] below.  Everything after the runtime part
    follows the C++ text call by call. *)
Require Import List Arith Bool Lia.
Import ListNotations.
Set Implicit Arguments.

(** ** The runtime *)

(** Kinds of Legion objects.  A region remembers its index and field space, a
    partition its parent index space and its colour space (these are what
    [get_index_space], [get_field_space], [get_parent_index_space] and
    [get_index_partition_color_space_name] return). *)
Inductive okind :=
| OSpace
| OFields
| ORegion (is fs : nat)
| OPart (parent color : nat).

Record lstate := LState {
  l_next : nat;              (* next object identifier *)
  l_kind : nat -> okind;
  l_refs : nat -> nat        (* number of owners; 0 = released or never created *)
}.

Definition lempty : lstate := LState 0 (fun _ => OSpace) (fun _ => 0).

Definition alive (s : lstate) (o : nat) : Prop := l_refs s o <> 0.
Definition aliveb (s : lstate) (o : nat) : bool := negb (l_refs s o =? 0).

(** Results: [ROk], an illegal runtime call, or a failed [assert] (process abort). *)
Inductive res (A : Type) :=
| ROk (a : A) (s : lstate)
| RIllegal
| RAbort.
Arguments ROk {A} a s.
Arguments RIllegal {A}.
Arguments RAbort {A}.

Definition rt (A : Type) := lstate -> res A.
Definition ret {A} (a : A) : rt A := fun s => ROk a s.
Definition bind {A B} (m : rt A) (f : A -> rt B) : rt B :=
  fun s => match m s with ROk a s' => f a s' | RIllegal => RIllegal | RAbort => RAbort end.
Notation "'let*' x ':=' m 'in' k" := (bind m (fun x => k)) (at level 200, x pattern, m at level 100, k at level 200).
Notation "m ';;' k" := (bind m (fun _ => k)) (at level 199, k at level 200).

Definition fupd {A} (f : nat -> A) (o : nat) (a : A) : nat -> A :=
  fun x => if x =? o then a else f x.

Definition assert_ (b : bool) : rt unit := fun s => if b then ROk tt s else RAbort.
(* the object must be alive when it is handed to the runtime *)
Definition need (o : nat) : rt unit := fun s => if aliveb s o then ROk tt s else RIllegal.

Definition rt_create (k : okind) : rt nat :=
  fun s => ROk (l_next s)
             (LState (S (l_next s)) (fupd (l_kind s) (l_next s) k) (fupd (l_refs s) (l_next s) 1)).

Definition rt_create_index_space : rt nat := rt_create OSpace.
Definition rt_create_field_space : rt nat := rt_create OFields.

(** A [Legion::LogicalRegion] handle carries its index and field space. *)
Record region := Region { rg_id : nat; rg_is : nat; rg_fs : nat }.

Definition rt_create_logical_region (is fs : nat) : rt region :=
  need is ;; need fs ;;
  let* r := rt_create (ORegion is fs) in ret (Region r is fs).

(** [create_equal_partition], [create_partition_by_image], [..._preimage], ...:
    one new partition of [parent] with colours [color]. *)
Definition rt_create_partition (parent color : nat) : rt nat :=
  need parent ;; need color ;;
  (fun s => match l_kind s parent with OSpace => ROk tt s | _ => RIllegal end) ;;
  rt_create (OPart parent color).

(** [create_shared_ownership]. *)
Definition rt_share (o : nat) : rt unit :=
  need o ;;
  fun s => ROk tt (LState (l_next s) (l_kind s) (fupd (l_refs s) o (S (l_refs s o)))).

Definition rt_drop (o : nat) : rt unit :=
  need o ;;
  fun s => ROk tt (LState (l_next s) (l_kind s) (fupd (l_refs s) o (l_refs s o - 1))).

Definition is_part_of (q : nat) (k : okind) : bool :=
  match k with OPart p _ => p =? q | _ => false end.

(** [destroy_index_space(ctx, o)] with [recurse = true]. *)
Definition rt_destroy_index_space (o : nat) : rt unit :=
  (fun s => match l_kind s o with OSpace => ROk tt s | _ => RIllegal end) ;;
  rt_drop o ;;
  fun s => ROk tt
    (if aliveb s o then s
     else LState (l_next s) (l_kind s) (fun x => if is_part_of o (l_kind s x) then 0 else l_refs s x)).

Definition rt_destroy_field_space (o : nat) : rt unit :=
  (fun s => match l_kind s o with OFields => ROk tt s | _ => RIllegal end) ;; rt_drop o.
Definition rt_destroy_logical_region (r : region) : rt unit :=
  (fun s => match l_kind s (rg_id r) with ORegion _ _ => ROk tt s | _ => RIllegal end) ;; rt_drop (rg_id r).
Definition rt_destroy_index_partition (p : nat) : rt unit :=
  (fun s => match l_kind s p with OPart _ _ => ROk tt s | _ => RIllegal end) ;; rt_drop p.

(** [get_parent_index_space] and [get_index_partition_color_space_name]. *)
Definition rt_parent_space (p : nat) : rt nat :=
  need p ;; fun s => match l_kind s p with OPart q _ => ROk q s | _ => RIllegal end.
Definition rt_color_space (p : nat) : rt nat :=
  need p ;; fun s => match l_kind s p with OPart _ c => ROk c s | _ => RIllegal end.
(** [get_logical_partition(region, partition)]: just the pair of handles. *)
Definition rt_logical_partition (r : region) (p : nat) : rt (region * nat) :=
  need (rg_id r) ;; need p ;; ret (r, p).

Fixpoint mapM {A B} (f : A -> rt B) (l : list A) : rt (list B) :=
  match l with
  | [] => ret []
  | a :: l' => let* b := f a in let* bs := mapM f l' in ret (b :: bs)
  end.
Fixpoint iterM {A} (f : A -> rt unit) (l : list A) : rt unit :=
  match l with
  | [] => ret tt
  | a :: l' => f a ;; iterM f l'
  end.

(** ** PartitionedVector *)

(** src/PartitionedVector.hpp members index_space, field_space, logical_region,
    color_space, index_partition (fid, name and logical_partition own nothing). *)
Record vec := Vec { v_space : nat; v_fields : nat; v_region : region; v_color : nat; v_part : nat }.

(** src/PartitionedVector.cpp:26-61 (the disjoint/complete asserts are not modelled). *)
Definition vec_ctor_partition (p : nat) : rt vec :=
  let* is := rt_parent_space p in
  let* fs := rt_create_field_space in
  let* lr := rt_create_logical_region is fs in
  let* cs := rt_color_space p in
  rt_logical_partition lr p ;;
  rt_share is ;; rt_share cs ;; rt_share p ;;
  ret (Vec is fs lr cs p).

(** src/PartitionedVector.cpp:65-95; the logical partition is the pair (region, partition). *)
Definition vec_ctor_logical (lp : region * nat) : rt vec :=
  let* is := rt_parent_space (snd lp) in
  let fs := rg_fs (fst lp) in
  let lr := fst lp in
  let* cs := rt_color_space (snd lp) in
  rt_share is ;; rt_share fs ;; rt_share (rg_id lr) ;; rt_share cs ;; rt_share (snd lp) ;;
  ret (Vec is fs lr cs (snd lp)).

(** src/PartitionedVector.cpp:99-116. *)
Definition vec_copy (v : vec) : rt vec :=
  rt_share (v_space v) ;; rt_share (v_fields v) ;; rt_share (rg_id (v_region v)) ;;
  rt_share (v_color v) ;; rt_share (v_part v) ;; ret v.

(** src/PartitionedVector.cpp:120-128. *)
Definition vec_dtor (v : vec) : rt unit :=
  rt_destroy_index_partition (v_part v) ;;
  rt_destroy_index_space (v_color v) ;;
  rt_destroy_logical_region (v_region v) ;;
  rt_destroy_field_space (v_fields v) ;;
  rt_destroy_index_space (v_space v).

(** ** Matrices *)

(** src/COOMatrix.hpp and src/CSRMatrix.hpp: the members that are Legion handles. *)
Inductive mat :=
| MCOO (kernel : region)
| MCSR (kernel rowptr : region).

Definition kernel_region (m : mat) : region := match m with MCOO k => k | MCSR k _ => k end.

(** src/COOMatrix.cpp:25-27, src/CSRMatrix.cpp:27-29 and 30-32. *)
Definition share_region (r : region) : rt unit :=
  rt_share (rg_is r) ;; rt_share (rg_fs r) ;; rt_share (rg_id r).
(** src/COOMatrix.cpp:49-51, src/CSRMatrix.cpp:58-60 and 61-63. *)
Definition unshare_region (r : region) : rt unit :=
  rt_destroy_logical_region r ;; rt_destroy_field_space (rg_fs r) ;; rt_destroy_index_space (rg_is r).

(** src/COOMatrix.cpp:10-28, src/CSRMatrix.cpp:10-33. *)
Definition coo_ctor (k : region) : rt mat := share_region k ;; ret (MCOO k).
Definition csr_ctor (k r : region) : rt mat := share_region k ;; share_region r ;; ret (MCSR k r).

(** src/COOMatrix.cpp:32-43, src/CSRMatrix.cpp:37-52. *)
Definition mat_copy (m : mat) : rt mat :=
  match m with
  | MCOO k => share_region k ;; ret m
  | MCSR k r => share_region k ;; share_region r ;; ret m
  end.

(** src/COOMatrix.cpp:47-53, src/CSRMatrix.cpp:56-65. *)
Definition mat_dtor (m : mat) : rt unit :=
  match m with
  | MCOO k => unshare_region k
  | MCSR k r => unshare_region k ;; unshare_region r
  end.

(** src/COOMatrix.cpp:58-74, src/CSRMatrix.cpp:70-86: preimage, a partition of the kernel space. *)
Definition kernel_from_domain (m : mat) (dp : nat) : rt nat :=
  let* cs := rt_color_space dp in
  need (rg_id (kernel_region m)) ;;
  rt_create_partition (rg_is (kernel_region m)) cs.

(** src/COOMatrix.cpp:79-95, src/CSRMatrix.cpp:91-109: preimage / image_range, a partition of the kernel space. *)
Definition kernel_from_range (m : mat) (rp : nat) : rt nat :=
  match m with
  | MCOO k =>
      let* cs := rt_color_space rp in
      need (rg_id k) ;;
      rt_create_partition (rg_is k) cs
  | MCSR k r =>
      let* cs := rt_color_space rp in
      rt_logical_partition r rp ;;
      rt_create_partition (rg_is k) cs
  end.

(** src/COOMatrix.cpp:100-118, src/CSRMatrix.cpp:114-132. *)
Definition domain_from_kernel (m : mat) (dspace kp : nat) : rt nat :=
  rt_logical_partition (kernel_region m) kp ;;
  let* cs := rt_color_space kp in
  rt_create_partition dspace cs.

(** src/COOMatrix.cpp:123-140, src/CSRMatrix.cpp:137-155. *)
Definition range_from_kernel (m : mat) (rspace kp : nat) : rt nat :=
  match m with
  | MCOO k =>
      rt_logical_partition k kp ;;
      let* cs := rt_color_space kp in
      rt_create_partition rspace cs
  | MCSR k r =>
      assert_ (rspace =? rg_is r) ;;
      let* cs := rt_color_space kp in
      need (rg_id r) ;;
      rt_create_partition (rg_is r) cs
  end.

(** src/AbstractMatrix.cpp:10-17.  The intermediate partition is also reported, as a ghost result. *)
Definition domain_partition_from_range_partition (m : mat) (dspace rp : nat) : rt (nat * nat) :=
  let* kp := kernel_from_range m rp in
  let* p := domain_from_kernel m dspace kp in
  ret (p, kp).
(** src/AbstractMatrix.cpp:22-29. *)
Definition range_partition_from_domain_partition (m : mat) (rspace dp : nat) : rt (nat * nat) :=
  let* kp := kernel_from_domain m dp in
  let* p := range_from_kernel m rspace kp in
  ret (p, kp).

(** ** SquarePlanner *)

(** One entry of row_partitioned_matrices, src/SquarePlanner.hpp:35-43.  The matrix is a raw pointer,
    here the name of a C++ object. *)
Record pmat := PMat { pm_mat : nat; pm_dom : nat; pm_rng : nat; pm_kpart : nat; pm_klp : region * nat; pm_ghost : nat }.

(** src/SquarePlanner.hpp:24-51 (tile_partitioned_matrices is never filled). *)
Record planner := Planner {
  p_spaces : list nat;
  p_parts : list nat;
  p_wfields : option nat;
  p_wregions : list region;
  p_wparts : list (region * nat);
  p_sol : list vec;
  p_rhs : list vec;
  p_work : list (list vec);
  p_mats : list pmat
}.

(** src/SquarePlanner.hpp:55-67. *)
Definition planner_ctor : planner := Planner [] [] None [] [] [] [] [] [].

(** [std::vector<PartitionedVector>::push_back(v)]: the move constructor is deleted, so when the
    vector has to grow the old elements are copied to the new storage and then destroyed.  [grow]
    says whether that happens (it depends on the capacity). *)
Definition push_back (grow : bool) (l : list vec) (v : vec) : rt (list vec) :=
  let* v' := vec_copy v in
  if grow then
    let* l' := mapM vec_copy l in
    iterM vec_dtor l ;; ret (l' ++ [v'])
  else ret (l ++ [v']).

(** [emplace_back(ctx, rt, name, logical_partition, fid)], likewise. *)
Definition emplace_back (grow : bool) (l : list vec) (lp : region * nat) : rt (list vec) :=
  let* v' := vec_ctor_logical lp in
  if grow then
    let* l' := mapM vec_copy l in
    iterM vec_dtor l ;; ret (l' ++ [v'])
  else ret (l ++ [v']).

Definition is_none {A} (x : option A) : bool := match x with None => true | _ => false end.
Definition is_nil {A} (l : list A) : bool := match l with [] => true | _ => false end.

(** The check-or-push of a canonical space or partition, src/SquarePlanner.hpp:105-111 and 112-121
    (again 132-138 and 139-148). *)
Definition canonical (l : list nat) (idx : nat) (o : nat) : rt (list nat) :=
  match nth_error l idx with
  | Some o' => assert_ (o' =? o) ;; ret l
  | None => assert_ (length l =? idx) ;; rt_share o ;; ret (l ++ [o])
  end.

(** src/SquarePlanner.hpp:99-124. *)
Definition add_sol_vector (grow : bool) (p : planner) (v : vec) : rt planner :=
  assert_ (is_none (p_wfields p)) ;; assert_ (is_nil (p_wregions p)) ;;
  assert_ (is_nil (p_wparts p)) ;; assert_ (is_nil (p_work p)) ;;
  let idx := length (p_sol p) in
  let* sps := canonical (p_spaces p) idx (v_space v) in
  let* pts := canonical (p_parts p) idx (v_part v) in
  let* sol := push_back grow (p_sol p) v in
  ret (Planner sps pts (p_wfields p) (p_wregions p) (p_wparts p) sol (p_rhs p) (p_work p) (p_mats p)).

(** src/SquarePlanner.hpp:126-151. *)
Definition add_rhs_vector (grow : bool) (p : planner) (v : vec) : rt planner :=
  assert_ (is_none (p_wfields p)) ;; assert_ (is_nil (p_wregions p)) ;;
  assert_ (is_nil (p_wparts p)) ;; assert_ (is_nil (p_work p)) ;;
  let idx := length (p_rhs p) in
  let* sps := canonical (p_spaces p) idx (v_space v) in
  let* pts := canonical (p_parts p) idx (v_part v) in
  let* rhs := push_back grow (p_rhs p) v in
  ret (Planner sps pts (p_wfields p) (p_wregions p) (p_wparts p) (p_sol p) rhs (p_work p) (p_mats p)).

(** src/SquarePlanner.hpp:178-186: one more vector for space i in each workspace row. *)
Fixpoint workspace_row (grow : nat -> bool) (j : nat) (rows : list (list vec)) (lp : region * nat)
  : rt (list (list vec)) :=
  match rows with
  | [] => ret []
  | row :: rows' =>
      let* row' := emplace_back (grow j) row lp in
      let* rest := workspace_row grow (S j) rows' lp in
      ret (row' :: rest)
  end.

(** src/SquarePlanner.hpp:171-187: the loop over the canonical spaces (and partitions). *)
Fixpoint workspace_loop (grow : nat -> nat -> bool) (i : nat) (wf : nat) (sps pts : list nat)
         (regs : list region) (lps : list (region * nat)) (rows : list (list vec))
  : rt (list region * list (region * nat) * list (list vec)) :=
  match sps, pts with
  | sp :: sps', pt :: pts' =>
      let* r := rt_create_logical_region sp wf in
      let* lp := rt_logical_partition r pt in
      let* rows' := workspace_row (grow i) 0 rows lp in
      workspace_loop grow (S i) wf sps' pts' (regs ++ [r]) (lps ++ [lp]) rows'
  | _, _ => ret (regs, lps, rows)
  end.

(** src/SquarePlanner.hpp:153-188. *)
Definition allocate_workspace (grow : nat -> nat -> bool) (p : planner) (num_vectors : nat) : rt planner :=
  assert_ (is_none (p_wfields p)) ;; assert_ (is_nil (p_wregions p)) ;;
  assert_ (is_nil (p_wparts p)) ;; assert_ (is_nil (p_work p)) ;;
  assert_ (length (p_spaces p) =? length (p_parts p)) ;;
  let* wf := rt_create_field_space in
  let* (regs, lps, rows) :=
    workspace_loop grow 0 wf (p_spaces p) (p_parts p) [] [] (repeat [] num_vectors) in
  ret (Planner (p_spaces p) (p_parts p) (Some wf) regs lps (p_sol p) (p_rhs p) rows (p_mats p)).

(** src/SquarePlanner.hpp:190-207. *)
Definition get_num_spaces (p : planner) : rt nat :=
  let n := length (p_spaces p) in
  assert_ (n =? length (p_parts p)) ;;
  assert_ (is_nil (p_wregions p) || (n =? length (p_wregions p))) ;;
  assert_ (is_nil (p_wparts p) || (n =? length (p_wparts p))) ;;
  assert_ (n =? length (p_sol p)) ;;
  assert_ (n =? length (p_rhs p)) ;;
  assert_ (forallb (fun row => n =? length row) (p_work p)) ;;
  ret n.

(** src/SquarePlanner.hpp:209-235. *)
Definition add_row_partitioned_matrix (p : planner) (name : nat) (m : mat) (d r : nat) : rt planner :=
  let* n := get_num_spaces p in
  assert_ (d <? n) ;; assert_ (r <? n) ;;
  let* kp := kernel_from_range m (nth r (p_parts p) 0) in
  let* gp := domain_from_kernel m (nth d (p_spaces p) 0) kp in
  let* klp := rt_logical_partition (kernel_region m) kp in
  ret (Planner (p_spaces p) (p_parts p) (p_wfields p) (p_wregions p) (p_wparts p)
         (p_sol p) (p_rhs p) (p_work p) (p_mats p ++ [PMat name d r kp klp gp])).

(** src/SquarePlanner.hpp:69-94, then the member destructors in reverse order of declaration
    (workspace_vectors, rhs_vectors, sol_vectors; the other members own nothing). *)
Definition planner_dtor (p : planner) : rt unit :=
  iterM (fun e => rt_destroy_index_partition (pm_kpart e) ;; rt_destroy_index_partition (pm_ghost e)) (p_mats p) ;;
  iterM rt_destroy_logical_region (p_wregions p) ;;
  match p_wfields p with None => ret tt | Some f => rt_destroy_field_space f end ;;
  iterM rt_destroy_index_partition (p_parts p) ;;
  iterM rt_destroy_index_space (p_spaces p) ;;
  iterM (iterM vec_dtor) (p_work p) ;;
  iterM vec_dtor (p_rhs p) ;;
  iterM vec_dtor (p_sol p).

(** The implicitly generated copy constructor of SquarePlanner (the class declares a destructor but
    no copy constructor): memberwise copies, so only the vectors acquire references. *)
Definition planner_implicit_copy (p : planner) : rt planner :=
  let* sol := mapM vec_copy (p_sol p) in
  let* rhs := mapM vec_copy (p_rhs p) in
  let* work := mapM (mapM vec_copy) (p_work p) in
  ret (Planner (p_spaces p) (p_parts p) (p_wfields p) (p_wregions p) (p_wparts p) sol rhs work (p_mats p)).

(** ** Functions that build matrices *)

(** src/StencilGenerator.hpp:326-416.  Ghost result: the objects created and not released. *)
Definition create_coo_stencil_matrix : rt (mat * list nat) :=
  let* is := rt_create_index_space in
  let* fs := rt_create_field_space in
  let* mr := rt_create_logical_region is fs in
  let* cs := rt_create_index_space in
  let* ip := rt_create_partition is cs in
  rt_logical_partition mr ip ;;
  let* m := coo_ctor mr in
  ret (m, [is; fs; rg_id mr; cs; ip]).

(** src/StencilGenerator.hpp:419-530 and 533-643 (the same sequence of runtime calls). *)
Definition create_csr_stencil_matrix : rt (mat * list nat) :=
  let* ks := rt_create_index_space in
  let* rs := rt_create_index_space in
  let* kf := rt_create_field_space in
  let* rf := rt_create_field_space in
  let* kr := rt_create_logical_region ks kf in
  let* rr := rt_create_logical_region rs rf in
  let* cs := rt_create_index_space in
  let* kp := rt_create_partition ks cs in
  rt_logical_partition kr kp ;;
  let* rp := rt_create_partition rs cs in
  rt_logical_partition rr rp ;;
  let* m := csr_ctor kr rr in
  ret (m, [ks; rs; kf; rf; rg_id kr; rg_id rr; cs; kp; rp]).

(** src/ExampleSystems.cpp:18-105 (coo_negative_laplacian_1d) and the 2-D version of the same shape. *)
Definition coo_negative_laplacian (launch_space : nat) : rt mat :=
  let* ks := rt_create_index_space in
  let* fs := rt_create_field_space in
  let* kr := rt_create_logical_region ks fs in
  let* kp := rt_create_partition ks launch_space in
  rt_logical_partition kr kp ;;
  let* m := coo_ctor kr in
  rt_destroy_index_partition kp ;;
  rt_destroy_logical_region kr ;;
  rt_destroy_field_space fs ;;
  rt_destroy_index_space ks ;;
  ret m.

(** src/ExampleSystems.cpp:109-249. *)
Definition csr_negative_laplacian (launch_space : nat) : rt mat :=
  let* ks := rt_create_index_space in
  let* kf := rt_create_field_space in
  let* kr := rt_create_logical_region ks kf in
  let* kp := rt_create_partition ks launch_space in
  rt_logical_partition kr kp ;;
  let* rs := rt_create_index_space in
  let* rf := rt_create_field_space in
  let* rr := rt_create_logical_region rs rf in
  let* rp := rt_create_partition rs launch_space in
  rt_logical_partition rr rp ;;
  let* m := csr_ctor kr rr in
  rt_destroy_index_partition rp ;;
  rt_destroy_logical_region rr ;;
  rt_destroy_field_space rf ;;
  rt_destroy_index_space rs ;;
  rt_destroy_index_partition kp ;;
  rt_destroy_logical_region kr ;;
  rt_destroy_field_space kf ;;
  rt_destroy_index_space ks ;;
  ret m.

(** src/LegionUtilities.cpp:24-69. *)
Definition print_index_partition (p : nat) : rt unit :=
  let* cs := rt_color_space p in
  need cs ;;
  let* fs := rt_create_field_space in
  let* is := rt_parent_space p in
  let* r := rt_create_logical_region is fs in
  rt_logical_partition r p ;;
  rt_destroy_logical_region r ;;
  rt_destroy_field_space fs.

(** ** Histories of a client program *)

Inductive cobj :=
| CVec (v : vec)
| CMat (m : mat)
| CPlan (p : planner).

(** The client program: the runtime, the references the client holds itself, the C++ objects it has
    alive (named), and (ghost) the references that some library function acquired and gave to nobody. *)
Record client := Client {
  c_rt : lstate;
  c_user : list nat;
  c_env : list (nat * cobj);
  c_lost : list nat;
  c_fresh : nat
}.

Definition client_init : client := Client lempty [] [] [] 0.

Inductive action :=
| ASpace | AFields | ARegion (is fs : nat) | APartition (parent color : nat)   (* rt->create_... *)
| AShare (o : nat)
| ADropSpace (o : nat) | ADropFields (o : nat) | ADropRegion (r : region) | ADropPartition (o : nat)
| AVec (p : nat) | AVecLogical (r : region) (p : nat) | AVecCopy (v : nat)
| ACoo (k : region) | ACsr (k r : region) | AMatCopy (m : nat)
| APlanner | AAddSol (grow : bool) (p v : nat) | AAddRhs (grow : bool) (p v : nat)
| AAlloc (grow : nat -> nat -> bool) (p n : nat) | AAddMat (p m d r : nat)
| ADelete (x : nat)                                     (* end of the lifetime of a C++ object *)
| ADomainFromRange (m dspace rp : nat) | ARangeFromDomain (m rspace dp : nat)
| AStencilCoo | AStencilCsr | ALaplacianCoo (ls : nat) | ALaplacianCsr (ls : nat)
| APrint (p : nat)
| AKernelFromRange (m rp : nat) | AKernelFromDomain (m dp : nat)
| ADomainFromKernel (m dspace kp : nat) | ARangeFromKernel (m rspace kp : nat).

Fixpoint lookup (x : nat) (e : list (nat * cobj)) : option cobj :=
  match e with
  | [] => None
  | (y, o) :: e' => if x =? y then Some o else lookup x e'
  end.
Fixpoint remove_one (x : nat) (l : list nat) : list nat :=
  match l with
  | [] => []
  | y :: l' => if x =? y then l' else y :: remove_one x l'
  end.
Fixpoint unset (x : nat) (e : list (nat * cobj)) : list (nat * cobj) :=
  match e with
  | [] => []
  | (y, o) :: e' => if x =? y then e' else (y, o) :: unset x e'
  end.
Fixpoint set (x : nat) (o : cobj) (e : list (nat * cobj)) : list (nat * cobj) :=
  match e with
  | [] => []
  | (y, o') :: e' => if x =? y then (x, o) :: e' else (y, o') :: set x o e'
  end.

Inductive cres := COk (c : client) | CIllegal | CAbort.
Definition run {A} (m : rt A) (c : client) (k : A -> lstate -> client) : cres :=
  match m (c_rt c) with ROk a s => COk (k a s) | RIllegal => CIllegal | RAbort => CAbort end.

Definition give_user (c : client) (os : list nat) (s : lstate) : client :=
  Client s (os ++ c_user c) (c_env c) (c_lost c) (c_fresh c).
Definition take_user (c : client) (o : nat) (s : lstate) : client :=
  Client s (remove_one o (c_user c)) (c_env c) (c_lost c) (c_fresh c).
Definition new_obj (c : client) (x : cobj) (s : lstate) : client :=
  Client s (c_user c) ((c_fresh c, x) :: c_env c) (c_lost c) (S (c_fresh c)).
Definition set_obj (c : client) (n : nat) (x : cobj) (s : lstate) : client :=
  Client s (c_user c) (set n x (c_env c)) (c_lost c) (c_fresh c).
Definition del_obj (c : client) (n : nat) (s : lstate) : client :=
  Client s (c_user c) (unset n (c_env c)) (c_lost c) (c_fresh c).
Definition lose (os : list nat) (c : client) : client :=
  Client (c_rt c) (c_user c) (c_env c) (os ++ c_lost c) (c_fresh c).

Definition dtor (x : cobj) : rt unit :=
  match x with CVec v => vec_dtor v | CMat m => mat_dtor m | CPlan p => planner_dtor p end.

(** One step of the client.  A name that is not bound to an object of the right class cannot occur in
    a C++ program; such steps do nothing here and are excluded by [legal] below. *)
Definition step (c : client) (a : action) : cres :=
  let vec_of n k := match lookup n (c_env c) with Some (CVec v) => k v | _ => COk c end in
  let mat_of n k := match lookup n (c_env c) with Some (CMat m) => k m | _ => COk c end in
  let plan_of n k := match lookup n (c_env c) with Some (CPlan p) => k p | _ => COk c end in
  match a with
  | ASpace => run rt_create_index_space c (fun o s => give_user c [o] s)
  | AFields => run rt_create_field_space c (fun o s => give_user c [o] s)
  | ARegion is fs => run (rt_create_logical_region is fs) c (fun r s => give_user c [rg_id r] s)
  | APartition q k => run (rt_create_partition q k) c (fun o s => give_user c [o] s)
  | AShare o => run (rt_share o) c (fun _ s => give_user c [o] s)
  | ADropSpace o => run (rt_destroy_index_space o) c (fun _ s => take_user c o s)
  | ADropFields o => run (rt_destroy_field_space o) c (fun _ s => take_user c o s)
  | ADropRegion r => run (rt_destroy_logical_region r) c (fun _ s => take_user c (rg_id r) s)
  | ADropPartition o => run (rt_destroy_index_partition o) c (fun _ s => take_user c o s)
  | AVec p => run (vec_ctor_partition p) c (fun v s => new_obj c (CVec v) s)
  | AVecLogical r p => run (vec_ctor_logical (r, p)) c (fun v s => new_obj c (CVec v) s)
  | AVecCopy n => vec_of n (fun v => run (vec_copy v) c (fun v' s => new_obj c (CVec v') s))
  | ACoo k => run (coo_ctor k) c (fun m s => new_obj c (CMat m) s)
  | ACsr k r => run (csr_ctor k r) c (fun m s => new_obj c (CMat m) s)
  | AMatCopy n => mat_of n (fun m => run (mat_copy m) c (fun m' s => new_obj c (CMat m') s))
  | APlanner => COk (new_obj c (CPlan planner_ctor) (c_rt c))
  | AAddSol g n v => plan_of n (fun p => vec_of v (fun x =>
      run (add_sol_vector g p x) c (fun p' s => set_obj c n (CPlan p') s)))
  | AAddRhs g n v => plan_of n (fun p => vec_of v (fun x =>
      run (add_rhs_vector g p x) c (fun p' s => set_obj c n (CPlan p') s)))
  | AAlloc g n k => plan_of n (fun p =>
      run (allocate_workspace g p k) c (fun p' s => set_obj c n (CPlan p') s))
  | AAddMat n m d r => plan_of n (fun p => mat_of m (fun x =>
      run (add_row_partitioned_matrix p m x d r) c (fun p' s => set_obj c n (CPlan p') s)))
  | ADelete n =>
      match lookup n (c_env c) with
      | Some x => run (dtor x) c (fun _ s => del_obj c n s)
      | None => COk c
      end
  | ADomainFromRange n ds rp => mat_of n (fun m =>
      run (domain_partition_from_range_partition m ds rp) c
          (fun r s => lose [snd r] (give_user c [fst r] s)))
  | ARangeFromDomain n rs dp => mat_of n (fun m =>
      run (range_partition_from_domain_partition m rs dp) c
          (fun r s => lose [snd r] (give_user c [fst r] s)))
  | AStencilCoo => run create_coo_stencil_matrix c (fun r s => lose (snd r) (new_obj c (CMat (fst r)) s))
  | AStencilCsr => run create_csr_stencil_matrix c (fun r s => lose (snd r) (new_obj c (CMat (fst r)) s))
  | ALaplacianCoo ls => run (coo_negative_laplacian ls) c (fun m s => new_obj c (CMat m) s)
  | ALaplacianCsr ls => run (csr_negative_laplacian ls) c (fun m s => new_obj c (CMat m) s)
  | APrint p => run (print_index_partition p) c (fun _ s => Client s (c_user c) (c_env c) (c_lost c) (c_fresh c))
  | AKernelFromRange n rp => mat_of n (fun m => run (kernel_from_range m rp) c (fun o s => give_user c [o] s))
  | AKernelFromDomain n dp => mat_of n (fun m => run (kernel_from_domain m dp) c (fun o s => give_user c [o] s))
  | ADomainFromKernel n ds kp => mat_of n (fun m => run (domain_from_kernel m ds kp) c (fun o s => give_user c [o] s))
  | ARangeFromKernel n rs kp => mat_of n (fun m => run (range_from_kernel m rs kp) c (fun o s => give_user c [o] s))
  end.

Fixpoint run_history (c : client) (h : list action) : cres :=
  match h with
  | [] => COk c
  | a :: h' => match step c a with COk c' => run_history c' h' | r => r end
  end.
