(** OwnershipSpec: what it means for a client program to use the handle classes correctly, and which
    references each C++ object is supposed to own.  Written without reference to how constructors and
    destructors work. *)
Require Import List Arith Bool Lia.
From Verif Require Import Ownership.
Import ListNotations.
Set Implicit Arguments.

(** Number of occurrences of an object in a list of references. *)
Definition cnt (l : list nat) (o : nat) : nat := count_occ Nat.eq_dec l o.
Arguments cnt : simpl never.

(** ** The references held by the members of a C++ object (with multiplicity) *)

Definition region_refs (r : region) : list nat := [rg_is r; rg_fs r; rg_id r].
Definition vec_refs (v : vec) : list nat :=
  [v_space v; v_fields v; rg_id (v_region v); v_color v; v_part v].
Definition mat_refs (m : mat) : list nat :=
  match m with MCOO k => region_refs k | MCSR k r => region_refs k ++ region_refs r end.
Definition planner_refs (p : planner) : list nat :=
  p_spaces p ++ p_parts p
  ++ (match p_wfields p with None => [] | Some f => [f] end)
  ++ map rg_id (p_wregions p)
  ++ flat_map vec_refs (p_sol p) ++ flat_map vec_refs (p_rhs p)
  ++ flat_map (flat_map vec_refs) (p_work p)
  ++ flat_map (fun e => [pm_kpart e; pm_ghost e]) (p_mats p).
Definition obj_refs (x : cobj) : list nat :=
  match x with CVec v => vec_refs v | CMat m => mat_refs m | CPlan p => planner_refs p end.
(** All references held by the C++ objects that are alive. *)
Definition env_refs (e : list (nat * cobj)) : list nat := flat_map (fun nx => obj_refs (snd nx)) e.

(** ** Correct use *)

(** A valid handle of a live region over live index and field spaces. *)
Definition live_region (s : lstate) (r : region) : Prop :=
  alive s (rg_id r) /\ l_kind s (rg_id r) = ORegion (rg_is r) (rg_fs r) /\
  alive s (rg_is r) /\ l_kind s (rg_is r) = OSpace /\
  alive s (rg_fs r) /\ l_kind s (rg_fs r) = OFields.
(** A live partition with a live colour space. *)
Definition live_partition (s : lstate) (p : nat) : Prop :=
  alive s p /\ exists q k, l_kind s p = OPart q k /\ alive s k /\ l_kind s k = OSpace.
Definition live_space (s : lstate) (o : nat) : Prop := alive s o /\ l_kind s o = OSpace.

Definition bound_vec (c : client) (n : nat) : Prop := exists v, lookup n (c_env c) = Some (CVec v).
Definition bound_mat (c : client) (n : nat) : Prop := exists m, lookup n (c_env c) = Some (CMat m).
Definition bound_plan (c : client) (n : nat) : Prop := exists p, lookup n (c_env c) = Some (CPlan p).

(** Planner [p] was given matrix [n] (and therefore keeps a pointer to it). *)
Definition points_to (p : planner) (n : nat) : Prop := exists e, In e (p_mats p) /\ pm_mat e = n.

(** A correct client hands only live handles to the library and the runtime, destroys only references
    it holds itself, and does not destroy a matrix before the planners that point to it. *)
Definition legal (c : client) (a : action) : Prop :=
  let s := c_rt c in
  match a with
  | ASpace | AFields | APlanner | AStencilCoo | AStencilCsr => True
  | ARegion is fs => live_space s is /\ alive s fs /\ l_kind s fs = OFields
  | APartition q k => live_space s q /\ live_space s k
  | AShare o => alive s o
  | ADropSpace o => In o (c_user c) /\ live_space s o
  | ADropFields o => In o (c_user c) /\ alive s o /\ l_kind s o = OFields
  | ADropRegion r => In (rg_id r) (c_user c) /\ alive s (rg_id r) /\ l_kind s (rg_id r) = ORegion (rg_is r) (rg_fs r)
  | ADropPartition o => In o (c_user c) /\ alive s o /\ exists q k, l_kind s o = OPart q k
  | AVec p => live_partition s p
  | AVecLogical r p => live_region s r /\ live_partition s p /\ exists k, l_kind s p = OPart (rg_is r) k
  | AVecCopy n => bound_vec c n
  | ACoo k => live_region s k
  | ACsr k r => live_region s k /\ live_region s r
  | AMatCopy n => bound_mat c n
  | AAddSol _ p v | AAddRhs _ p v => bound_plan c p /\ bound_vec c v
  | AAlloc _ p _ => bound_plan c p
  | AAddMat p m _ _ => bound_plan c p /\ bound_mat c m
  | ADelete n => exists x, lookup n (c_env c) = Some x /\
      forall m, x = CMat m -> forall k p, In (k, CPlan p) (c_env c) -> ~ points_to p n
  | ADomainFromRange m ds rp => bound_mat c m /\ live_space s ds /\ live_partition s rp
  | ARangeFromDomain m rs dp => bound_mat c m /\ live_space s rs /\ live_partition s dp
  | ALaplacianCoo ls | ALaplacianCsr ls => live_space s ls
  | APrint p => live_partition s p
  | AKernelFromRange m rp | AKernelFromDomain m rp => bound_mat c m /\ live_partition s rp
  | ADomainFromKernel m sp kp | ARangeFromKernel m sp kp => bound_mat c m /\ live_space s sp /\ live_partition s kp
  end.

Fixpoint legal_history (c : client) (h : list action) : Prop :=
  match h with
  | [] => True
  | a :: h' => legal c a /\ forall c', step c a = COk c' -> legal_history c' h'
  end.

(** [c] is reached from [c0] by a correct client. *)
Definition reaches (c0 : client) (h : list action) (c : client) : Prop :=
  legal_history c0 h /\ run_history c0 h = COk c.

(** ** Who holds what *)

(** All references to an object: the client's own, those of live C++ objects, and the lost ones. *)
Definition owners (c : client) (o : nat) : nat :=
  cnt (c_user c) o + cnt (env_refs (c_env c)) o + cnt (c_lost c) o.
(** What the runtime's count must be: one per reference; the partitions of an index space that
    nobody holds are gone with it. *)
Definition expected_refs (c : client) (o : nat) : nat :=
  match l_kind (c_rt c) o with
  | OPart q _ => if owners c q =? 0 then 0 else owners c o
  | _ => owners c o
  end.

(** The functions that lose references. *)
Definition leaky (a : action) : bool :=
  match a with ADomainFromRange _ _ _ | ARangeFromDomain _ _ _ | AStencilCoo | AStencilCsr => true | _ => false end.

(** The references of a planner other than those of its vectors. *)
Definition planner_own_refs (p : planner) : list nat :=
  p_spaces p ++ p_parts p
  ++ (match p_wfields p with None => [] | Some f => [f] end)
  ++ map rg_id (p_wregions p)
  ++ flat_map (fun e => [pm_kpart e; pm_ghost e]) (p_mats p).
